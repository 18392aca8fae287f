(** What the stable search records as separating sets. *)
From Coq Require Import Permutation.
From Verif Require Import Base EdgeModel EdgeProofs GraphModel GraphSpec GraphProofs RankLib UtilsModel UtilsProofs
  DsepSpec DsepProofs MeekSpec MeekProofs SkelModel SkelSpec SkelProofs SkelMain DsepTheory.
Local Open Scope Z_scope.

Lemma add_all_spec : forall l s, NoDup s -> NoDup (add_all s l) /\ forall z, In z (add_all s l) <-> In z s \/ In z l.
Proof.
  induction l as [|x l IH]; intros s Hs; cbn [add_all fold_left].
  - split; [exact Hs|]. intros z. cbn. tauto.
  - fold (add_all (if memb x s then s else s ++ [x]) l). destruct (memb x s) eqn:E.
    + destruct (IH s Hs) as [H1 H2]. split; [exact H1|]. intros z. rewrite H2. apply memb_In in E. cbn. split; [tauto|].
      intros [H|[<-|H]]; auto.
    + destruct (IH (s ++ [x])) as [H1 H2].
      * apply (NoDup_Add (Add_app x s [])). rewrite app_nil_r. split; [exact Hs|]. now apply memb_not_In.
      * split; [exact H1|]. intros z. rewrite H2, in_app_iff. cbn. tauto.
Qed.
Lemma add_alls_spec : forall Ts s, NoDup s -> NoDup (fold_left add_all Ts s) /\
  forall z, In z (fold_left add_all Ts s) <-> In z s \/ exists T, In T Ts /\ In z T.
Proof.
  induction Ts as [|T Ts IH]; intros s Hs; cbn [fold_left].
  - split; [exact Hs|]. intros z. split; [auto|]. intros [H|(T & [] & _)]; exact H.
  - destruct (add_all_spec T s Hs) as [H1 H2]. destruct (IH (add_all s T) H1) as [H3 H4]. split; [exact H3|].
    intros z. rewrite H4, H2. split.
    + intros [[H|H]|(T' & H & H')]; [auto|right; exists T; cbn; auto|right; exists T'; cbn; auto].
    + intros [H|(T' & [<-|H] & H')]; [auto|auto|right; eauto].
Qed.
Lemma add_alls_union Ts : union_of Ts (fold_left add_all Ts []).
Proof. destruct (add_alls_spec Ts []) as [H1 H2]; [constructor|]. split; [exact H1|]. intros z. rewrite H2. cbn. tauto. Qed.
Lemma memp_In x y l : memp x y l = true <-> In (x, y) l.
Proof.
  unfold memp. rewrite existsb_exists. split.
  - intros ([a b] & H & E). cbn in E. rewrite andb_true_iff, !Nat.eqb_eq in E. now destruct E as [-> ->].
  - intros H. exists (x, y). cbn. now rewrite !Nat.eqb_refl.
Qed.

Section Sep.
Variable ind : nat -> nat -> list nat -> bool.
Variable ban : nat -> nat -> bool.
Variable fasm : bool.
Variable n : nat.
Hypothesis Ho : order_free n ind.

Definition found (a b : nat) (T : list nat) : Prop := minimal_separator n ind a b T \/ minimal_separator n ind b a T.
Lemma found_sym a b T : found a b T -> found b a T.
Proof. unfold found. tauto. Qed.
Definition entry_ok (a b : nat) (U : list nat) (Ts : list (list nat)) : Prop :=
  (forall T, In T Ts -> found a b T) /\ union_of Ts U.
Definition good (S : nat -> nat -> list (list nat)) (a b : nat) : Prop :=
  S a b <> [] /\ ((ban a b = true \/ ban b a = true) \/ exists U Ts, In U (S a b) /\ Ts <> [] /\ entry_ok a b U Ts).
Definition SI (g : ggraph) (st : sk) : Prop :=
  (forall a b, In (a, b) (skR st) -> In (b, a) (skR st)) /\
  forall a b, (a < n)%nat -> (b < n)%nat -> a <> b ->
    skS st a b = skS st b a /\
    (forall U, In U (skS st a b) -> exists Ts, entry_ok a b U Ts) /\
    (fasm = false -> joined g a b -> ~ In (a, b) (skR st) -> skS st a b = []) /\
    (~ joined g a b \/ In (a, b) (skR st) -> good (skS st) a b) /\
    (fasm = true -> ~ joined g a b -> skD st a b = Some (add_all [] (concat (skS st a b)))).

(** What is found in a pass whose smaller passes left nothing to find is minimal. *)
Lemma pass_found depth g x y T : ug g -> gn g = n -> (forall k, (k < depth)%nat -> clear ind k g) -> joined g x y ->
  In T (combs depth (others (neighbors g x) y)) -> ind x y T = true -> minimal_separator n ind x y T.
Proof.
  intros Hu Hn Hc J HT Hi. destruct (combs_in _ _ _ HT) as (L & HI & HND).
  pose proof J as (Hx & Hy & _).
  assert (DT : NoDup T) by (apply HND, NoDup_filter, neighbors_nodup).
  assert (IT : forall z, In z T -> joined g x z /\ z <> y).
  { intros z Hz. apply HI in Hz. unfold others in Hz. rewrite filter_In, negb_true_iff, Nat.eqb_neq in Hz. destruct Hz as [Hz Nz].
    apply in_neighbors in Hz; auto. }
  split.
  - split; [exact DT|]. intros z Hz. destruct (IT z Hz) as [Jz Nz]. pose proof (ug_joined_neq _ _ _ Hu Jz).
    destruct Jz as (_ & Jz & _). rewrite Hn in Jz. auto.
  - split; [exact Hi|]. intros T0 D0 I0 L0.
    apply (clear_all ind n (length T0) g Ho Hn Hu); auto. apply Hc. lia.
Qed.

Lemma append_at S x y v a b : x <> y -> (same_pair a b x y = true -> append_both S x y v a b = S a b ++ [v]) /\
  (same_pair a b x y = false -> append_both S x y v a b = S a b).
Proof.
  intros N. split; [|apply append_both_other]. intros E. apply same_pair_iff in E.
  destruct E as [[-> ->]|[-> ->]]; [now apply append_both_xy|now apply append_both_yx].
Qed.

Lemma y_loop_sep depth g x : ug g -> gn g = n -> (x < n)%nat -> (forall k, (k < depth)%nat -> clear ind k g) ->
  forall ys st, SI g st -> skG st = g -> (forall y, In y ys -> joined g x y) ->
  let st' := y_loop ind ban true fasm depth x (neighbors g x) ys st in SI g st' /\ skG st' = g.
Proof.
  intros Hu Hn Hx Hc. induction ys as [|y ys IH]; intros st HS HG Hys; cbn [y_loop]; [auto|].
  rewrite andb_false_r. set (st1 := if ban x y then to_remove st x y else st).
  pose proof (s_loop_stable ind ban fasm n x y (combs depth (filter (fun z => negb (Nat.eqb z y)) (neighbors g x))) st1 []) as HL.
  destruct (s_loop _ _ _ _ _ _ _ _) as [st2 seps]. cbn [fst snd] in HL. destruct HL as (S1 & S2 & S3 & (R & S4 & S5) & S6).
  assert (H1 : skG st1 = skG st /\ skD st1 = skD st /\ skS st1 = skS st) by (unfold st1; destruct (ban x y); auto).
  destruct H1 as (F1 & F2 & F3). rewrite F1 in S1. rewrite F2 in S2. rewrite F3 in S3.
  pose proof (Hys y (or_introl eq_refl)) as J. pose proof (ug_joined_neq _ _ _ Hu J) as N.
  pose proof (ug_joined_sym _ _ _ Hu J) as J'.
  assert (Hy : (y < n)%nat) by (destruct J as (_ & K & _); now rewrite Hn in K).
  pose proof HS as [HR HP].
  set (Ts := filter (ind x y) (combs depth (filter (fun z => negb (Nat.eqb z y)) (neighbors g x)))) in *.
  assert (HTs : forall T, In T Ts -> found x y T).
  { intros T HT. apply filter_In in HT. destruct HT. left. apply (pass_found depth g); auto. }
  assert (HTne : existsb (ind x y) (combs depth (filter (fun z => negb (Nat.eqb z y)) (neighbors g x))) = true -> Ts <> []).
  { intros E0 E1. apply existsb_exists in E0. destruct E0 as (T & HT & Hi).
    assert (In T Ts) by (apply filter_In; auto). rewrite E1 in H. destruct H. }
  assert (Hent : entry_ok x y seps Ts).
  { split; [exact HTs|]. rewrite S6. apply add_alls_union. }
  assert (HR2 : forall p, In p (skR st2) <-> In p (skR st) \/ ((ban x y = true \/ existsb (ind x y) (combs depth (filter (fun z => negb (Nat.eqb z y)) (neighbors g x))) = true) /\ (p = (x, y) \/ p = (y, x)))).
  { intros p. rewrite S4, in_app_iff, S5. unfold st1. destruct (ban x y).
    - cbn [to_remove skR]. rewrite in_app_iff. cbn [In]. intuition auto.
    - intuition discriminate. }
  set (app := fasm || memp x y (skR st2) || _).
  set (st3 := if app then _ else st2).
  assert (HG3 : skG st3 = g) by (unfold st3; destruct app; cbn [skG]; congruence).
  assert (HR3 : skR st3 = skR st2) by (unfold st3; now destruct app).
  assert (HD3 : skD st3 = skD st) by (unfold st3; destruct app; cbn [skD]; congruence).
  assert (HS3 : skS st3 = if app then append_both (skS st) x y seps else skS st).
  { unfold st3. destruct app; cbn [skS]; now rewrite S3. }
  assert (Happ : app = true <-> fasm = true \/ In (x, y) (skR st2)).
  { unfold app. assert (Hge : exists e, get_edge (skG st2) x y = Ok (Some e)).
    { rewrite S1, HG. destruct Hu as [_ Hu]. destruct J as (Ja & Jb & Jn). destruct (Hu x y Ja Jb) as [[? _]|[E1 E2]]; [congruence|].
      rewrite (get_edge_codes _ x y TAIL TAIL) by (auto; discriminate). eauto. }
    destruct Hge as [e ->]. rewrite orb_false_r, orb_true_iff, memp_In. reflexivity. }
  clearbody st3. clearbody app.
  apply IH; [|exact HG3|intros z Hz; apply Hys; now right].
  split.
  - intros a b. rewrite HR3, !HR2. intros [H|[H [E|E]]]; [left; auto|right; split; [exact H|]..].
    + injection E as -> ->. auto.
    + injection E as -> ->. auto.
  - intros a b Ha Hb Nab. specialize (HP a b Ha Hb Nab) as (P1 & P2 & P3 & P4 & P5). rewrite HR3, HD3, HS3.
    destruct (same_pair a b x y) eqn:Es.
    + (* the pair at hand *)
      assert (Es' : same_pair b a x y = true) by now rewrite same_pair_sym.
      assert (Jab : joined g a b) by (apply same_pair_iff in Es; destruct Es as [[-> ->]|[-> ->]]; assumption).
      assert (Hent' : entry_ok a b seps Ts).
      { apply same_pair_iff in Es. destruct Es as [[-> ->]|[-> ->]]; [exact Hent|]. destruct Hent as [K1 K2]. split; [|exact K2].
        intros T HT. apply found_sym. auto. }
      assert (HRab : In (a, b) (skR st2) <-> In (x, y) (skR st2)).
      { apply same_pair_iff in Es. destruct Es as [[-> ->]|[-> ->]]; [reflexivity|]. rewrite !HR2. split.
        - intros [K|[K [E|E]]]; [left; auto|right; split; [exact K|auto]..].
        - intros [K|[K [E|E]]]; [left; auto|right; split; [exact K|auto]..]. }
      destruct app eqn:Ea.
      * rewrite (proj1 (append_at (skS st) x y seps a b N) Es), (proj1 (append_at (skS st) x y seps b a N) Es').
        split; [now rewrite P1|]. split; [|split; [|split]].
        -- intros U HU. apply in_app_iff in HU. destruct HU as [HU|[<-|[]]]; [auto|eauto].
        -- intros Hf _ NR. exfalso. apply NR. apply HRab. destruct (proj1 Happ eq_refl) as [K|K]; [congruence|exact K].
        -- intros [K|K]; [contradiction|]. apply HR2 in K. split.
           { rewrite (proj1 (append_at (skS st) x y seps a b N) Es). destruct (skS st a b); discriminate. }
           destruct K as [K|[[K|K] K']].
           ++ destruct (P4 (or_intror K)) as [_ [B|(U & Ts' & K1 & K2 & K3)]]; [left; exact B|right].
              exists U, Ts'. rewrite (proj1 (append_at (skS st) x y seps a b N) Es). split; [apply in_app_iff; now left|auto].
           ++ left. apply same_pair_iff in Es. destruct Es as [[-> ->]|[-> ->]]; auto.
           ++ right. exists seps, Ts. rewrite (proj1 (append_at (skS st) x y seps a b N) Es).
              split; [apply in_app_iff; right; now left|]. split; [now apply HTne|exact Hent'].
        -- intros _ NJ. contradiction.
      * assert (NR : ~ In (x, y) (skR st2)) by (intros K; assert (false = true) by (apply Happ; auto); discriminate).
        assert (Ff : fasm = false) by (destruct fasm; [|reflexivity]; assert (false = true) by (apply Happ; auto); discriminate).
        split; [exact P1|]. split; [exact P2|]. split; [|split].
        -- intros _ _ _. apply P3; auto. intros K. apply NR, HRab, HR2. auto.
        -- intros [K|K]; [contradiction|]. exfalso. apply NR, HRab, K.
        -- intros _ K. contradiction.
    + assert (Es' : same_pair b a x y = false) by now rewrite same_pair_sym.
      assert (Eab : (if app then append_both (skS st) x y seps else skS st) a b = skS st a b).
      { destruct app; [|reflexivity]. now apply (append_at (skS st) x y seps a b N). }
      assert (Eba : (if app then append_both (skS st) x y seps else skS st) b a = skS st b a).
      { destruct app; [|reflexivity]. now apply (append_at (skS st) x y seps b a N). }
      unfold good. rewrite Eab, Eba.
      assert (HRab : In (a, b) (skR st2) <-> In (a, b) (skR st)).
      { rewrite HR2. split; [|auto]. intros [K|[_ K]]; [exact K|]. exfalso. apply not_true_iff_false in Es. apply Es.
        apply same_pair_iff. destruct K as [K|K]; injection K as -> ->; auto. }
      rewrite HRab. split; [exact P1|]. split; [exact P2|]. split; [exact P3|]. split; [exact P4|exact P5].
Qed.
Lemma x_fold_sep depth g : ug g -> gn g = n -> (forall k, (k < depth)%nat -> clear ind k g) ->
  forall xs st, SI g st -> skG st = g -> (forall x, In x xs -> (x < n)%nat) ->
  let st' := fold_left (x_step ind ban true fasm depth) xs st in SI g st' /\ skG st' = g.
Proof.
  intros Hu Hn Hc. induction xs as [|x xs IH]; intros st HS HG Hxs; cbn [fold_left]; [auto|].
  assert (Hx : (x < n)%nat) by (apply Hxs; now left).
  assert (H1 : SI g (x_step ind ban true fasm depth st x) /\ skG (x_step ind ban true fasm depth st x) = g).
  { unfold x_step. destruct (Nat.ltb _ _); [auto|]. rewrite HG. apply y_loop_sep; auto.
    intros y Hy. apply in_neighbors in Hy; [exact Hy|now rewrite Hn]. }
  destruct H1. apply IH; auto. intros z Hz. apply Hxs. now right.
Qed.
Lemma remove_all_D : forall R st, (fasm = true -> forall a b, In (a, b) R -> skS st a b <> [] /\ skS st a b = skS st b a) ->
  let st' := fold_left (remove_step fasm) R st in
  forall a b, skD st' a b = if fasm && pairs R a b then Some (add_all [] (concat (skS st a b))) else skD st a b.
Proof.
  induction R as [|[x y] R IH]; intros st HR st' a b; unfold st'; clear st'; cbn [fold_left].
  - cbn. now rewrite andb_false_r.
  - set (st1 := remove_step fasm st (x, y)).
    assert (HS1 : skS st1 = skS st) by (unfold st1, remove_step; destruct fasm; [destruct (skS st x y)|]; reflexivity).
    assert (IH' := IH st1). cbv zeta in IH'. rewrite IH' by (intros Hf u v Huv; rewrite HS1; apply (HR Hf); now right). rewrite HS1. unfold pairs. cbn [existsb fst snd].
    fold (pairs R a b). destruct fasm eqn:Ef; cbn [andb]; [|unfold st1, remove_step; reflexivity].
    destruct (pairs R a b) eqn:Ep; [now rewrite orb_true_r|]. rewrite orb_false_r.
    destruct (HR eq_refl x y (or_introl eq_refl)) as [Ne Esym].
    unfold st1, remove_step. destruct (skS st x y) as [|u l] eqn:E; [congruence|]. cbn [skD].
    destruct (same_pair a b x y) eqn:Es; [|now apply set_both_other]. apply same_pair_iff in Es.
    destruct (set_both_xy (skD st) x y (add_all [] (concat (u :: l)))) as [K1 K2].
    destruct Es as [[-> ->]|[-> ->]].
    + rewrite K1. now rewrite E.
    + rewrite K2. rewrite <- Esym. reflexivity.
Qed.
Lemma in_pairs R a b : (forall a b, In (a, b) R -> In (b, a) R) -> pairs R a b = true <-> In (a, b) R.
Proof.
  intros HR. unfold pairs. rewrite existsb_exists. split.
  - intros ([x y] & H & E). cbn in E. apply same_pair_iff in E. destruct E as [[-> ->]|[-> ->]]; auto.
  - intros H. exists (a, b). split; [exact H|]. apply same_pair_iff. auto.
Qed.
Lemma pass_sep depth st : ug (skG st) -> gn (skG st) = n -> (forall k, (k < depth)%nat -> clear ind k (skG st)) ->
  SI (skG st) (mkSk (skG st) (skS st) [] (skD st)) ->
  let st' := sk_pass ind ban true fasm depth st in SI (skG st') (mkSk (skG st') (skS st') [] (skD st')).
Proof.
  intros Hu Hn Hc HS. unfold sk_pass. rewrite Hn.
  destruct (x_fold_sep depth (skG st) Hu Hn Hc (seq 0 n) _ HS eq_refl) as [HS1 HG1]; [intros x Hx; now apply in_seq0|].
  destruct (x_fold_stable ind ban fasm n depth (seq 0 n) (mkSk (skG st) (skS st) [] (skD st))) as (E1 & E2 & R & E3 & E4).
  cbn [skG skD skR app] in E1, E2, E3, E4.
  set (st1 := fold_left (x_step _ _ _ _ _) _ _) in *. cbv zeta in HS1, HG1. 
  pose proof HS1 as [HR HP].
  assert (HRin : forall p, In p (skR st1) -> joined (skG st) (fst p) (snd p)).
  { intros p Hp. rewrite E3 in Hp. apply E4 in Hp. destruct Hp as (x & y & Hx & Hy & _ & Hp). apply in_seq0 in Hx.
    apply in_neighbors in Hy; [|now rewrite Hn]. destruct Hp as [-> | ->]; cbn [fst snd]; [exact Hy|]. now apply ug_joined_sym. }
  destruct (remove_all_gm fasm n (skR st1) st1) as (Q1 & Q2 & Q3 & Q4 & Q5).
  - now rewrite E1.
  - now rewrite E1.
  - intros p Hp. destruct (HRin p Hp) as (K1 & K2 & _). rewrite Hn in *. auto.
  - assert (HJ : forall a b, (a < n)%nat -> (b < n)%nat -> joined (skG (fold_left (remove_step fasm) (skR st1) st1)) a b <-> joined (skG st) a b /\ ~ In (a, b) (skR st1)).
    { intros a b Ha Hb. rewrite <- (in_pairs (skR st1) a b HR). unfold joined. rewrite Q2, Q5, E1, Hn.
      destruct (pairs (skR st1) a b); [intuition congruence|]. intuition auto; discriminate. }
    pose proof (remove_all_D (skR st1) st1) as HD.
    set (st' := fold_left (remove_step fasm) (skR st1) st1) in *. cbv zeta in HD.
    split; [intros a b []|]. intros a b Ha Hb N. cbn [skS skR skD]. destruct (HP a b Ha Hb N) as (P1 & P2 & P3 & P4 & P5).
    unfold good. cbn [skS]. rewrite Q3. split; [exact P1|]. split; [exact P2|]. split; [|split].
    + intros Hf J _. apply HJ in J; auto. destruct J. apply P3; auto.
    + intros [NJ|[]]. apply P4. destruct (joined_dec (skG st) a b) as [J|J]; [right|now left].
      destruct (in_dec (fun p q : nat * nat => ltac:(decide equality; apply Nat.eq_dec)) (a, b) (skR st1)) as [K|K]; [exact K|].
      exfalso. apply NJ. apply HJ; auto.
    + intros Hf NJ. rewrite HD.
      * rewrite Hf. cbn [andb]. destruct (pairs (skR st1) a b) eqn:Ep; [reflexivity|].
        apply P5; [exact Hf|]. intros J. apply NJ. apply HJ; auto. split; [exact J|]. rewrite <- (in_pairs _ _ _ HR). congruence.
      * intros _ u v Huv. pose proof (HRin (u, v) Huv) as Juv. cbn [fst snd] in Juv.
        pose proof (ug_joined_neq _ _ _ Hu Juv) as Nuv. pose proof Juv as (Ju & Jv & _). rewrite Hn in Ju, Jv.
        destruct (HP u v Ju Jv Nuv) as (K1 & _ & _ & K4 & _). split; [|exact K1].
        apply K4. now right.
Qed.
End Sep.

(** The stable search records minimal separators. *)
Section Recorded.
Variable ind : nat -> nat -> list nat -> bool.
Variable ban : nat -> nat -> bool.
Variable fasm : bool.
Variable n fuel : nat.
Variable limit : option nat.
Hypothesis Ho : order_free n ind.
Definition PS (k : nat) (st : sk) : Prop :=
  PI ind ban fasm n true k st /\ SI ind ban fasm n (skG st) (mkSk (skG st) (skS st) [] (skD st)).
Lemma PS_init : PS 0 (sk_init n).
Proof.
  split; [apply PI_init|]. split; [intros a b []|]. intros a b Ha Hb N. cbn [sk_init skG skS skD skR].
  assert (J : joined (complete_graph n) a b) by (apply (proj2 (proj2 (complete_spec n))); auto).
  split; [reflexivity|]. split; [intros U []|]. split; [reflexivity|]. split; [intros [K|[]]; contradiction|intros _ K; contradiction].
Qed.
Lemma PS_step k st : PS k st -> PS (S k) (sk_pass ind ban true fasm k st).
Proof.
  intros [H1 H2]. split; [now apply PI_step|]. pose proof H1 as (Hu & Hn & _ & Hc & _). apply pass_sep; auto.
Qed.
Theorem stable_records st : sk_search ind ban true fasm fuel limit n = Some st ->
  SI ind ban fasm n (skG st) (mkSk (skG st) (skS st) [] (skD st)).
Proof.
  intros E. destruct (sk_loop_inv ind ban fasm true PS PS_step limit fuel 0 (sk_init n) st PS_init E) as (k & (_ & H) & _). exact H.
Qed.
End Recorded.

Lemma cond_sym n x y T : conditioning n x y T -> conditioning n y x T.
Proof. intros [H1 H2]. split; [exact H1|]. intros z Hz. destruct (H2 z Hz) as (? & ? & ?). auto. Qed.
Section OracleSep.
Variable n : nat.
Variable D : ggraph.
Variable ind : nat -> nat -> list nat -> bool.
Hypothesis HO : oracle n D ind.
Lemma minimal_ancestors x y T : (x < n)%nat -> (y < n)%nat -> x <> y -> minimal_separator n ind x y T ->
  forall z, In z T -> reach (dedge D) z x \/ reach (dedge D) z y.
Proof.
  intros Hx Hy N (HC & Hi & Hm) z Hz. pose proof HO as (Dn & HD & Hor).
  destruct (reach_dec D HD z x) as [R|R1]; [auto|]. destruct (reach_dec D HD z y) as [R|R2]; [auto|]. exfalso.
  set (f := fun v => if reach_dec D HD v x then true else if reach_dec D HD v y then true else false).
  assert (Hf : forall v, f v = true <-> reach (dedge D) v x \/ reach (dedge D) v y).
  { intros v. unfold f. destruct (reach_dec D HD v x), (reach_dec D HD v y); split; auto; try discriminate; tauto. }
  assert (F : ind x y (filter f T) = false).
  { apply Hm.
    - apply NoDup_filter, HC.
    - intros v Hv. apply filter_In in Hv. apply Hv.
    - apply filter_shorter with (x := z); [exact Hz|]. apply not_true_iff_false. rewrite Hf. tauto. }
  assert (CF : conditioning n x y (filter f T)).
  { destruct HC as [C1 C2]. split; [now apply NoDup_filter|]. intros v Hv. apply filter_In in Hv. now apply C2. }
  apply (Hor x y T Hx Hy N HC) in Hi. assert (ind x y (filter f T) = true); [|congruence]. apply Hor; auto.
  intros C. apply Hi. apply (restrict_to_ancestors D x y T (filter f T)); [|exact C]. intros v. rewrite filter_In, Hf. reflexivity.
Qed.
Lemma found_ancestors x y T : (x < n)%nat -> (y < n)%nat -> x <> y -> found ind n x y T ->
  (conditioning n x y T /\ ~ dconnected D x y T) /\ forall z, In z T -> reach (dedge D) z x \/ reach (dedge D) z y.
Proof.
  intros Hx Hy N [HM|HM].
  - split; [|now apply minimal_ancestors]. destruct HM as (HC & Hi & _). split; [exact HC|]. now apply HO in Hi.
  - split.
    + destruct HM as (HC & Hi & _). split; [now apply cond_sym|]. apply HO in Hi; auto. intros C. apply Hi. now apply dconnected_sym.
    + intros z Hz. destruct (minimal_ancestors y x T Hy Hx (fun e => N (eq_sym e)) HM z Hz); auto.
Qed.
Lemma union_separates x y Ts U : (x < n)%nat -> (y < n)%nat -> x <> y -> Ts <> [] -> (forall T, In T Ts -> found ind n x y T) -> union_of Ts U ->
  conditioning n x y U /\ ~ dconnected D x y U.
Proof.
  intros Hx Hy N Ne HT [HU1 HU2]. pose proof HO as (Dn & HD & Hor). split.
  - split; [exact HU1|]. intros z Hz. apply HU2 in Hz. destruct Hz as (T & K1 & K2).
    destruct (found_ancestors x y T Hx Hy N (HT T K1)) as [[[_ K] _] _]. now apply K.
  - intros C. destruct Ts as [|T Ts]; [congruence|]. destruct (found_ancestors x y T Hx Hy N (HT T (or_introl eq_refl))) as [[_ K] _]. apply K.
    apply (grow_separator D HD x y T U N); [| |exact C].
    + intros z Hz. apply HU2. exists T. cbn. auto.
    + intros z Hz. apply HU2 in Hz. destruct Hz as (T' & K1 & K2). now apply (found_ancestors x y T' Hx Hy N (HT T' K1)).
Qed.
End OracleSep.
