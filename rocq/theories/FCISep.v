(** What the separating sets used by FCI contain. *)
From Verif Require Import Base EdgeModel EdgeProofs GraphModel GraphSpec GraphProofs DpathProofs UtilsModel UtilsProofs
  SkelModel SkelSpec SkelProofs SkelMain SkelSep MeekModel MeekSpec.
Local Open Scope Z_scope.

Section SepD.
Variable ind : nat -> nat -> list nat -> bool.
Variable ban : nat -> nat -> bool.
Variable n : nat.
Lemma remove_fold_D : forall R st a b, skD (fold_left (remove_step true) R st) a b = skD st a b \/ pairs R a b = true.
Proof.
  induction R as [|[x y] R IH]; intros st a b; cbn [fold_left]; [auto|]. unfold pairs. cbn [existsb fst snd]. fold (pairs R a b).
  destruct (same_pair a b x y) eqn:Es; [auto|]. cbn [orb]. destruct (IH (remove_step true st (x, y)) a b) as [E|E]; [|auto]. left. rewrite E.
  unfold remove_step. destruct (skS st x y); [reflexivity|]. cbn [skD]. now apply set_both_other.
Qed.
Definition DI (k : nat) (st : sk) : Prop := PI ind ban true n true k st /\ forall a b, joined (skG st) a b -> skD st a b = None.
Lemma DI_step k st : DI k st -> DI (S k) (sk_pass ind ban true true k st).
Proof.
  intros [HP HD]. split; [now apply PI_step|]. pose proof HP as (Hu & Hn & _). unfold sk_pass. rewrite Hn.
  destruct (x_fold_stable ind ban true n k (seq 0 n) (mkSk (skG st) (skS st) [] (skD st))) as (E1 & E2 & R & E3 & E4).
  cbn [skG skD skR app] in E1, E2, E3, E4. set (st1 := fold_left (x_step _ _ _ _ _) _ _) in *.
  assert (HRin : forall p, In p (skR st1) -> joined (skG st) (fst p) (snd p)).
  { intros p Hp. rewrite E3 in Hp. apply E4 in Hp. destruct Hp as (x & y & Hx & Hy & _ & Hp). apply in_seq0 in Hx.
    apply in_neighbors in Hy; [|now rewrite Hn]. destruct Hp as [-> | ->]; cbn [fst snd]; [exact Hy|]. now apply ug_joined_sym. }
  destruct (remove_all_gm true n (skR st1) st1) as (Q1 & Q2 & Q3 & Q4 & Q5); [now rewrite E1|now rewrite E1| |].
  { intros p Hp. destruct (HRin p Hp) as (K1 & K2 & _). rewrite Hn in *. auto. }
  intros a b (Ha & Hb & J). rewrite Q5 in J. destruct (pairs (skR st1) a b) eqn:EP; [congruence|].
  destruct (remove_fold_D (skR st1) st1 a b) as [E|E]; [|congruence]. rewrite E, E2. apply HD. rewrite Q2 in Ha, Hb. split; [congruence|]. split; [congruence|]. now rewrite <- E1.
Qed.
Lemma joined_unrecorded fuel limit st : sk_search ind ban true true fuel limit n = Some st -> forall a b, joined (skG st) a b -> skD st a b = None.
Proof.
  intros E. assert (H0 : DI 0 (sk_init n)) by (split; [apply PI_init|reflexivity]).
  destruct (sk_loop_inv ind ban true true DI DI_step limit fuel 0 (sk_init n) st H0 E) as (k & (_ & H) & _). exact H.
Qed.
End SepD.
