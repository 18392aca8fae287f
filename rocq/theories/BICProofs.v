(** The BIC score is score equivalent. *)
From Verif Require Import Base EdgeModel GraphModel GraphSpec GraphProofs UtilsModel UtilsProofs DsepSpec MeekSpec MeekProofs CpdagSpec CpdagProps
  GESSpec GESTheory GESMain GESProps ScoreEqProofs BICModel.
From Coq Require Import Permutation Reals Lra.
Local Open Scope R_scope.

Lemma rsum_cons {A} (f : A -> R) a l : rsum f (a :: l) = f a + rsum f l. Proof. reflexivity. Qed.
Lemma rsum_ext {A} (f g : A -> R) l : (forall x, In x l -> f x = g x) -> rsum f l = rsum g l.
Proof. intros H. unfold rsum. f_equal. apply map_ext_in. exact H. Qed.
Lemma rsum_plus {A} (f g : A -> R) l : rsum (fun x => f x + g x) l = rsum f l + rsum g l.
Proof. induction l as [|a l IH]; [unfold rsum; cbn; lra|]. rewrite !rsum_cons, IH. lra. Qed.
Lemma rsum_mult {A} c (f : A -> R) l : rsum (fun x => c * f x) l = c * rsum f l.
Proof. induction l as [|a l IH]; [unfold rsum; cbn; lra|]. rewrite !rsum_cons, IH. lra. Qed.
Lemma rsum_minus {A} (f g : A -> R) l : rsum (fun x => f x - g x) l = rsum f l - rsum g l.
Proof. induction l as [|a l IH]; [unfold rsum; cbn; lra|]. rewrite !rsum_cons, IH. lra. Qed.
Lemma rsum_0 {A} (l : list A) : rsum (fun _ => 0) l = 0.
Proof. induction l as [|a l IH]; [reflexivity|]. rewrite rsum_cons, IH. lra. Qed.
Lemma rsum_swap {A B} (f : A -> B -> R) l m : rsum (fun x => rsum (f x) m) l = rsum (fun y => rsum (fun x => f x y) l) m.
Proof.
  induction l as [|a l IH]; [cbn; now rewrite rsum_0|]. rewrite rsum_cons, IH, <- rsum_plus. apply rsum_ext. intros y _. now rewrite rsum_cons.
Qed.
Lemma rsum_perm {A} (f : A -> R) l m : Permutation l m -> rsum f l = rsum f m.
Proof. induction 1; rewrite ?rsum_cons; lra. Qed.

Lemma rsum_filter (f : nat -> R) l s : (forall a, ~ In a l -> f a = 0) -> rsum f s = rsum f (filter (fun a => memb a l) s).
Proof.
  intros Hf. induction s as [|a s IH]; [reflexivity|]. cbn [filter]. rewrite rsum_cons. rewrite IH. destruct (memb a l) eqn:E; [now rewrite rsum_cons|].
  rewrite Hf by (now apply memb_not_In). ring.
Qed.
Lemma rsum_support n (f : nat -> R) l : NoDup l -> (forall a, In a l -> (a < n)%nat) -> (forall a, ~ In a l -> f a = 0) -> rsum f (seq 0 n) = rsum f l.
Proof.
  intros N Hr Hf. rewrite (rsum_filter f l) by exact Hf. apply rsum_perm. apply NoDup_Permutation; [apply NoDup_filter, seq_NoDup|exact N|].
  intros a. rewrite filter_In, memb_In. split; [tauto|]. intros H. split; [apply in_seq0; auto|exact H].
Qed.

Section Cov.
Variable cov : nat -> nat -> R.
Hypothesis cov_sym : forall a b, cov a b = cov b a.

(** Partial covariances, one conditioning variable at a time. *)
Fixpoint pc (P : list nat) (i j : nat) : R :=
  match P with [] => cov i j | k :: P' => pc P' i j - pc P' i k * pc P' k j / pc P' k k end.
Lemma pc_sym P : forall i j, pc P i j = pc P j i.
Proof. induction P as [|k P IH]; intros i j; cbn [pc]; [apply cov_sym|]. rewrite (IH i j), (IH i k), (IH k j). unfold Rdiv. ring. Qed.
(** All pivots are non-zero. *)
Fixpoint pivots (P : list nat) : Prop := match P with [] => True | k :: P' => pc P' k k <> 0 /\ pivots P' end.
(** [x] solves the normal equations of [j] on [P]. *)
Definition solves (P : list nat) (j : nat) (x : nat -> R) : Prop := forall a, In a P -> rsum (fun b => cov a b * x b) P = cov a j.
(** Regression coefficients. *)
Fixpoint beta (P : list nat) (j : nat) : nat -> R :=
  match P with [] => fun _ => 0
  | k :: P' => fun a => if Nat.eqb a k then pc P' k j / pc P' k k else beta P' j a - pc P' k j / pc P' k k * beta P' k a end.

Lemma beta_ok P : NoDup P -> pivots P ->
  (forall j, solves P j (beta P j)) /\ (forall i j, cov i j - rsum (fun a => cov i a * beta P j a) P = pc P i j).
Proof.
  induction P as [|k P IH]; intros N Hp.
  - split; [intros j a []|]. intros i j. unfold rsum. cbn. lra.
  - apply NoDup_cons_iff in N. destruct N as [Nk N]. destruct Hp as [Hk Hp]. destruct (IH N Hp) as [IH1 IH2]. clear IH.
    set (g := fun j => pc P k j / pc P k k).
    assert (E : forall f j, rsum (fun a => f a * beta (k :: P) j a) P = rsum (fun a => f a * beta P j a) P - g j * rsum (fun a => f a * beta P k a) P).
    { intros f j. rewrite <- rsum_mult, <- rsum_minus. apply rsum_ext. intros a Ha. cbn [beta]. destruct (Nat.eqb_spec a k) as [->|_]; [contradiction|]. unfold g. ring. }
    assert (Ek : forall j, beta (k :: P) j k = g j) by (intros j; cbn [beta]; now rewrite Nat.eqb_refl).
    split.
    + intros j a Ha. rewrite rsum_cons, Ek, (E (cov a)). destruct Ha as [<-|Ha].
      * pose proof (IH2 k j) as Q1. pose proof (IH2 k k) as Q2. unfold g.
        replace (rsum (fun a => cov k a * beta P j a) P) with (cov k j - pc P k j) by lra.
        replace (rsum (fun a => cov k a * beta P k a) P) with (cov k k - pc P k k) by lra. field. exact Hk.
      * rewrite (IH1 j a Ha), (IH1 k a Ha). ring.
    + intros i j. rewrite rsum_cons, Ek, (E (cov i)). cbn [pc].
      pose proof (IH2 i j) as Q1. pose proof (IH2 i k) as Q2. unfold g.
      replace (rsum (fun a => cov i a * beta P j a) P) with (cov i j - pc P i j) by lra.
      replace (rsum (fun a => cov i a * beta P k a) P) with (cov i k - pc P i k) by lra. field. exact Hk.
Qed.

(** The residual variance does not depend on the way the normal equations are solved. *)
Lemma solves_same P i j x : NoDup P -> pivots P -> solves P j x -> rsum (fun a => cov i a * x a) P = rsum (fun a => cov i a * beta P j a) P.
Proof.
  intros N Hp Hx. destruct (beta_ok P N Hp) as [B1 _].
  assert (K : forall y, solves P j y -> rsum (fun a => cov i a * y a) P = rsum (fun b => beta P i b * cov b j) P).
  { intros y Hy. transitivity (rsum (fun a => rsum (fun b => cov a b * beta P i b * y a) P) P).
    - apply rsum_ext. intros a Ha. rewrite (cov_sym i a), <- (B1 i a Ha). rewrite Rmult_comm, <- rsum_mult. apply rsum_ext. intros; ring.
    - rewrite rsum_swap. apply rsum_ext. intros b Hb. rewrite <- (Hy b Hb), <- rsum_mult. apply rsum_ext. intros a _. rewrite (cov_sym a b). ring. }
  rewrite (K x Hx), (K _ (B1 j)). reflexivity.
Qed.
Lemma residual_pc inv i P : NoDup P -> pivots P -> inverts cov P (inv P) -> residual cov inv i P = pc P i i.
Proof.
  intros N Hp HM. destruct (beta_ok P N Hp) as [_ B2]. rewrite <- B2. unfold residual.
  enough (E : rsum (fun a => rsum (fun b => cov i a * inv P a b * cov i b) P) P = rsum (fun a => cov i a * beta P i a) P) by (rewrite E; reflexivity).
  rewrite <- (solves_same P i i (fun a => rsum (fun b => inv P a b * cov i b) P) N Hp).
  - apply rsum_ext. intros a _. rewrite <- rsum_mult. apply rsum_ext. intros; ring.
  - intros a Ha. transitivity (rsum (fun c => rsum (fun b => cov a b * inv P b c) P * cov i c) P).
    + transitivity (rsum (fun b => rsum (fun c => cov a b * inv P b c * cov i c) P) P).
      * apply rsum_ext. intros b _. rewrite <- rsum_mult. apply rsum_ext. intros; ring.
      * rewrite rsum_swap. apply rsum_ext. intros c _. rewrite Rmult_comm, <- rsum_mult. apply rsum_ext. intros; ring.
    + transitivity (rsum (fun c => (if Nat.eqb a c then 1 else 0) * cov i c) P); [apply rsum_ext; intros c Hc; now rewrite (HM a c Ha Hc)|].
      rewrite (cov_sym a i). clear -N Ha. induction P as [|p P IH]; [destruct Ha|]. rewrite rsum_cons. apply NoDup_cons_iff in N. destruct N as [N1 N2].
      destruct (Nat.eqb_spec a p) as [->|Nap].
      * rewrite (rsum_ext _ (fun _ => 0)); [rewrite rsum_0; ring|]. intros c Hc. destruct (Nat.eqb_spec p c) as [->|_]; [contradiction|ring].
      * destruct Ha as [Ha|Ha]; [congruence|]. rewrite IH; auto. ring.
Qed.

(* ---------- positive definiteness ---------- *)
Variable n : nat.
Hypothesis posdef : forall x : nat -> R, (exists i, (i < n)%nat /\ x i <> 0) -> 0 < rsum (fun i => rsum (fun j => x i * cov i j * x j) (seq 0 n)) (seq 0 n).

Lemma pc_positive P i : NoDup (i :: P) -> (forall a, In a (i :: P) -> (a < n)%nat) -> pivots P -> 0 < pc P i i.
Proof.
  intros N Hr Hp. pose proof N as Ni. apply NoDup_cons_iff in N. destruct N as [NiP N]. destruct (beta_ok P N Hp) as [B1 B2].
  set (x := fun a => if Nat.eqb a i then 1 else if memb a P then - beta P i a else 0).
  assert (Xi : x i = 1) by (unfold x; now rewrite Nat.eqb_refl).
  assert (XP : forall a, In a P -> x a = - beta P i a).
  { intros a Ha. unfold x. destruct (Nat.eqb_spec a i) as [->|_]; [contradiction|]. apply memb_In in Ha. now rewrite Ha. }
  assert (X0 : forall a, ~ In a (i :: P) -> x a = 0).
  { intros a Ha. unfold x. destruct (Nat.eqb_spec a i) as [->|_]; [exfalso; apply Ha; now left|].
    destruct (memb a P) eqn:E; [|reflexivity]. apply memb_In in E. exfalso. apply Ha. now right. }
  assert (Q : 0 < rsum (fun a => rsum (fun b => x a * cov a b * x b) (seq 0 n)) (seq 0 n)).
  { apply posdef. exists i. split; [apply Hr; now left|]. rewrite Xi. lra. }
  rewrite (rsum_support n _ (i :: P)) in Q; auto.
  2: { intros a Ha. rewrite (rsum_ext _ (fun _ => 0)); [apply rsum_0|]. intros b _. rewrite (X0 a Ha). ring. }
  rewrite (rsum_ext _ (fun a => x a * rsum (fun b => cov a b * x b) (i :: P))) in Q.
  2: { intros a _. rewrite (rsum_support n _ (i :: P)); auto; [|intros b Hb; rewrite (X0 b Hb); ring]. rewrite <- rsum_mult. apply rsum_ext. intros; ring. }
  assert (L : forall a, rsum (fun b => cov a b * x b) (i :: P) = cov a i - rsum (fun b => cov a b * beta P i b) P).
  { intros a. rewrite rsum_cons, Xi. rewrite (rsum_ext _ (fun b => -1 * (cov a b * beta P i b))); [rewrite rsum_mult; ring|].
    intros b Hb. rewrite (XP b Hb). ring. }
  rewrite rsum_cons, Xi, L, B2 in Q.
  rewrite (rsum_ext _ (fun _ => 0)) in Q; [rewrite rsum_0 in Q; lra|].
  intros a Ha. rewrite L, (B1 i a Ha). ring.
Qed.
Lemma all_pivots P : NoDup P -> (forall a, In a P -> (a < n)%nat) -> pivots P.
Proof.
  induction P as [|k P IH]; intros N Hr; [exact I|]. pose proof N as N'. apply NoDup_cons_iff in N'. destruct N' as [_ N'].
  assert (HP : pivots P) by (apply IH; auto; intros; apply Hr; now right). split; [|exact HP].
  apply Rgt_not_eq. apply pc_positive; auto.
Qed.

(** The logarithm of the determinant, as a sum of logarithms of pivots. *)
Fixpoint hdet (P : list nat) : R := match P with [] => 0 | k :: P' => ln (pc P' k k) + hdet P' end.
Lemma pc_swap k l P i j : pc P k k <> 0 -> pc P l l <> 0 -> pc (k :: P) l l <> 0 -> pc (l :: P) k k <> 0 -> pc (k :: l :: P) i j = pc (l :: k :: P) i j.
Proof.
  intros Hk Hl Hkl Hlk. cbn [pc] in *. rewrite (pc_sym P l k) in *.
  set (a := pc P k k) in *. set (b := pc P l l) in *. set (c := pc P k l) in *.
  assert (D : a * b - c * c <> 0). { intros E. apply Hkl. field_simplify; [|exact Hk]. replace (b * a - c ^ 2) with 0 by lra. unfold Rdiv. ring. }
  assert (D' : b * a - c * c <> 0) by lra.
  set (ij := pc P i j). set (ik := pc P i k). set (il := pc P i l). set (kj := pc P k j). set (lj := pc P l j).
  field. repeat split; auto; try lra.
Qed.
Lemma pc_perm P P' : Permutation P P' -> NoDup P -> (forall a, In a P -> (a < n)%nat) -> forall i j, pc P i j = pc P' i j.
Proof.
  induction 1 as [|k P P' H IH|l k P|P Q S H1 IH1 H2 IH2]; intros N Hr i j; auto.
  - apply NoDup_cons_iff in N. destruct N as [_ N]. cbn [pc]. rewrite !IH by (auto; intros; apply Hr; now right). reflexivity.
  - pose proof N as NN. apply NoDup_cons_iff in NN. destruct NN as [Nkl Nl]. pose proof Nl as NN. apply NoDup_cons_iff in NN. destruct NN as [NlP N1].
    assert (H0 : forall a, In a P -> (a < n)%nat) by (intros a Ha; apply Hr; right; now right).
    assert (Hk : (k < n)%nat) by (apply Hr; now left). assert (Hl : (l < n)%nat) by (apply Hr; right; now left).
    pose proof (all_pivots P N1 H0) as HP.
    assert (Nk : NoDup (k :: P)) by (constructor; [intros B; apply Nkl; now right|exact N1]).
    assert (N' : NoDup (l :: k :: P)) by (apply (Permutation_NoDup (perm_swap l k P)); exact N).
    assert (Rk : forall a, In a (k :: P) -> (a < n)%nat) by (intros a [<-|Ha]; auto).
    assert (Rl : forall a, In a (l :: P) -> (a < n)%nat) by (intros a [<-|Ha]; auto).
    assert (Rlk : forall a, In a (l :: k :: P) -> (a < n)%nat) by (intros a [<-|Ha]; auto).
    assert (Rkl : forall a, In a (k :: l :: P) -> (a < n)%nat) by (intros a [<-|Ha]; auto).
    apply pc_swap; apply Rgt_not_eq; apply pc_positive; auto using all_pivots.
  - rewrite IH1 by auto. apply IH2; [now apply (Permutation_NoDup H1)|]. intros a Ha. apply Hr. apply (Permutation_in _ (Permutation_sym H1) Ha).
Qed.
Lemma hdet_perm P P' : Permutation P P' -> NoDup P -> (forall a, In a P -> (a < n)%nat) -> hdet P = hdet P'.
Proof.
  induction 1 as [|k P P' H IH|l k P|P Q S H1 IH1 H2 IH2]; intros N Hr; auto.
  - apply NoDup_cons_iff in N. destruct N as [_ N]. cbn [hdet].
    rewrite (pc_perm P P' H N) by (intros; apply Hr; now right). rewrite IH by (auto; intros; apply Hr; now right). reflexivity.
  - pose proof N as NN. apply NoDup_cons_iff in NN. destruct NN as [Nkl Nl]. pose proof Nl as NN. apply NoDup_cons_iff in NN. destruct NN as [NlP N1].
    assert (H0 : forall a, In a P -> (a < n)%nat) by (intros a Ha; apply Hr; right; now right).
    assert (Hk : (k < n)%nat) by (apply Hr; now left). assert (Hl : (l < n)%nat) by (apply Hr; right; now left).
    assert (HP : pivots P) by (apply all_pivots; auto).
    assert (Nk : NoDup (k :: P)) by (constructor; [intros B; apply Nkl; now right|exact N1]).
    assert (N' : NoDup (l :: k :: P)) by (apply (Permutation_NoDup (perm_swap l k P)); exact N).
    assert (Rk : forall a, In a (k :: P) -> (a < n)%nat) by (intros a [<-|Ha]; auto).
    assert (Rl : forall a, In a (l :: P) -> (a < n)%nat) by (intros a [<-|Ha]; auto).
    assert (Rlk : forall a, In a (l :: k :: P) -> (a < n)%nat) by (intros a [<-|Ha]; auto).
    assert (Rkl : forall a, In a (k :: l :: P) -> (a < n)%nat) by (intros a [<-|Ha]; auto).
    assert (A1 : 0 < pc P k k) by (apply pc_positive; auto).
    assert (A2 : 0 < pc P l l) by (apply pc_positive; auto).
    assert (A3 : 0 < pc (l :: P) k k) by (apply pc_positive; auto using all_pivots).
    assert (A4 : 0 < pc (k :: P) l l) by (apply pc_positive; auto using all_pivots).
    cbn [hdet]. rewrite <- !Rplus_assoc. rewrite <- !ln_mult by assumption.
    enough (E : pc (l :: P) k k * pc P l l = pc (k :: P) l l * pc P k k) by (rewrite E; reflexivity).
    cbn [pc]. rewrite (pc_sym P l k). field. split; lra.
  - rewrite IH1 by auto. apply IH2; [now apply (Permutation_NoDup H1)|]. intros a Ha. apply Hr. apply (Permutation_in _ (Permutation_sym H1) Ha).
Qed.
End Cov.
