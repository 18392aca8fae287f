(** The BIC score: equivalent DAGs get equal scores. *)
From Verif Require Import Base EdgeModel GraphModel GraphSpec GraphProofs UtilsModel UtilsProofs DsepSpec MeekSpec MeekProofs CheckLib CpdagSpec CpdagProps
  GESSpec GESTheory GESMain GESProps ScoreEqProofs ScoreProps BICModel BICProofs.
From Coq Require Import Permutation Reals Lra.
Local Open Scope R_scope.

(** [cov] is a symmetric, positive definite matrix of the variables below [n]. *)
Definition positive_definite (n : nat) (cov : nat -> nat -> R) : Prop :=
  (forall a b, cov a b = cov b a) /\
  forall x : nat -> R, (exists i, (i < n)%nat /\ x i <> 0) -> 0 < rsum (fun i => rsum (fun j => x i * cov i j * x j) (seq 0 n)) (seq 0 n).
(** [inv] inverts every principal submatrix of [cov]. *)
Definition inverse_of (n : nat) (cov : nat -> nat -> R) (inv : list nat -> nat -> nat -> R) : Prop :=
  forall P, NoDup P -> (forall a, In a P -> (a < n)%nat) -> inverts cov P (inv P).
Definition bic_score (cov : nat -> nat -> R) inv N lambda (D : ggraph) : R :=
  rsum (fun v => local_score_BIC cov inv N lambda v (parents D v)) (seq 0 (gn D)).

Lemma local_score_pc n cov inv N lambda i P : positive_definite n cov -> inverse_of n cov inv -> NoDup (i :: P) -> (forall a, In a (i :: P) -> (a < n)%nat) ->
  local_score_BIC cov inv N lambda i P = N * ln (pc cov P i i) + ln N * INR (length P) * lambda.
Proof.
  intros [Hs Hp] Hi ND Hr.
  assert (HP : NoDup P) by (now apply NoDup_cons_iff in ND). assert (Hr' : forall a, In a P -> (a < n)%nat) by (intros; apply Hr; now right).
  destruct P as [|k P]; [unfold local_score_BIC; cbn [pc length INR]; ring|]. unfold local_score_BIC.
  rewrite residual_pc; [reflexivity|exact Hs|exact HP| |now apply Hi]. now apply (all_pivots cov n Hp).
Qed.
Lemma parents_family n D v : gn D = n -> dag D -> (v < n)%nat -> NoDup (v :: parents D v) /\ forall a, In a (v :: parents D v) -> (a < n)%nat.
Proof.
  intros Hn Hd Hv. pose proof (family_perm D v Hd) as H. rewrite Hn in H. specialize (H Hv). split.
  - apply (Permutation_NoDup (Permutation_sym H)). apply NoDup_filter, seq_NoDup.
  - intros a Ha. apply (Permutation_in _ H) in Ha. unfold ScoreEqProofs.family in Ha. apply filter_In in Ha. destruct Ha as [Ha _]. rewrite Hn in Ha. now apply in_seq0 in Ha.
Qed.

(** C97: with a positive definite covariance matrix, equivalent DAGs have the same BIC score. *)
Theorem C97_BIC_score_equivalent n cov inv N lambda D D' : positive_definite n cov -> inverse_of n cov inv ->
  gn D = n -> equivalent D D' -> bic_score cov inv N lambda D = bic_score cov inv N lambda D'.
Proof.
  intros HC Hi Hn HE. pose proof HE as (Hn' & Hd & Hd' & _). pose proof HC as [Hs Hp].
  assert (K : forall G, gn G = n -> dag G -> bic_score cov inv N lambda G =
     N * family_score R Rplus 0 Ropp (hdet cov) G + ln N * lambda * IZR (dag_score (wsc (fun _ _ => 1%Z)) G)).
  { intros G HG HdG. unfold bic_score, dag_score, family_score, ScoreEqProofs.sum, ScoreEqProofs.sub, rsum.
    assert (Q : forall l, (forall v, In v l -> (v < n)%nat) ->
      fold_right Rplus 0 (map (fun v => local_score_BIC cov inv N lambda v (parents G v)) l) =
      N * fold_right Rplus 0 (map (fun v => hdet cov (ScoreEqProofs.family G v) + - hdet cov (parents G v)) l) +
      ln N * lambda * IZR (fold_right Z.add 0%Z (map (fun v => wsc (fun _ _ => 1%Z) v (parents G v)) l))).
    { induction l as [|v l IH]; intros Hl; [cbn; ring|]. cbn [map fold_right]. rewrite IH by (intros; apply Hl; now right).
      destruct (parents_family n G v HG HdG (Hl v (or_introl eq_refl))) as [F1 F2].
      rewrite (local_score_pc n) by assumption.
      rewrite <- (hdet_perm cov Hs n Hp (v :: parents G v) (ScoreEqProofs.family G v)); auto; [|apply family_perm; auto; rewrite HG; apply Hl; now left].
      cbn [hdet]. rewrite plus_IZR.
      replace (wsc (fun _ _ => 1%Z) v (parents G v)) with (Z.of_nat (length (parents G v))).
      - rewrite <- INR_IZR_INZ. ring.
      - unfold wsc. clear. induction (parents G v) as [|x P IHP]; [reflexivity|]. cbn [map fold_right length]. rewrite <- IHP. lia. }
    apply Q. intros v Hv. rewrite HG in Hv. now apply in_seq0 in Hv. }
  rewrite !K by (auto; congruence). 
  rewrite (wsc_equiv (fun _ _ => 1%Z) n) with (D' := D') by (auto; intros; reflexivity).
  enough (E : family_score R Rplus 0 Ropp (hdet cov) D = family_score R Rplus 0 Ropp (hdet cov) D') by (rewrite E; reflexivity).
  apply family_score_equivalent; auto; intros; ring.
Qed.
(** The local score does not depend on the order of the parents. *)
Theorem C97_BIC_parent_order n cov inv N lambda i P P' : positive_definite n cov -> inverse_of n cov inv ->
  NoDup (i :: P) -> (forall a, In a (i :: P) -> (a < n)%nat) -> Permutation P P' -> local_score_BIC cov inv N lambda i P = local_score_BIC cov inv N lambda i P'.
Proof.
  intros HC Hi ND Hr HP. pose proof HC as [Hs Hp]. rewrite !(local_score_pc n); auto.
  - rewrite (Permutation_length HP), (pc_perm cov Hs n Hp P P'); auto; [now apply NoDup_cons_iff in ND|intros; apply Hr; now right].
  - apply (Permutation_NoDup (perm_skip i HP) ND).
  - intros a Ha. apply Hr. apply (Permutation_in _ (Permutation_sym (perm_skip i HP)) Ha).
Qed.
(** The logarithm is always taken of a positive number. *)
Theorem C97_BIC_residual_positive n cov inv i P : positive_definite n cov -> inverse_of n cov inv -> NoDup (i :: P) -> (forall a, In a (i :: P) -> (a < n)%nat) ->
  0 < residual cov inv i P.
Proof.
  intros [Hs Hp] Hi ND Hr. assert (HP : NoDup P) by (now apply NoDup_cons_iff in ND). assert (Hr' : forall a, In a P -> (a < n)%nat) by (intros; apply Hr; now right).
  assert (Hv : pivots cov P) by (now apply (all_pivots cov n Hp)).
  rewrite residual_pc; auto. now apply (pc_positive cov n Hp).
Qed.
(** One more parent never makes the residual variance larger, so it never costs more than the penalty. *)
Theorem C97_BIC_parent_cost n cov inv N lambda i k P : positive_definite n cov -> inverse_of n cov inv -> 0 <= N ->
  NoDup (i :: k :: P) -> (forall a, In a (i :: k :: P) -> (a < n)%nat) ->
  local_score_BIC cov inv N lambda i (k :: P) <= local_score_BIC cov inv N lambda i P + lambda * ln N.
Proof.
  intros HC Hi HN ND Hr. pose proof HC as [Hs Hp].
  assert (ND1 : NoDup (k :: P)) by (now apply NoDup_cons_iff in ND).
  assert (NDP : NoDup P) by (now apply NoDup_cons_iff in ND1).
  assert (NDi : NoDup (i :: P)).
  { constructor; [|exact NDP]. intros H. apply NoDup_cons_iff in ND. destruct ND as [ND _]. apply ND. now right. }
  assert (Ri : forall a, In a (i :: P) -> (a < n)%nat) by (intros a [<-|Ha]; apply Hr; [now left|right; now right]).
  assert (Rk : forall a, In a (k :: P) -> (a < n)%nat) by (intros a Ha; apply Hr; now right).
  assert (RP : forall a, In a P -> (a < n)%nat) by (intros a Ha; apply Hr; right; now right).
  assert (V : pivots cov P) by (now apply (all_pivots cov n Hp)).
  assert (V' : pivots cov (k :: P)) by (now apply (all_pivots cov n Hp)).
  rewrite !(local_score_pc n) by assumption.
  pose proof (pc_positive cov n Hp (k :: P) i ND Hr V') as Q1. pose proof (pc_positive cov n Hp P k ND1 Rk V) as Q2.
  assert (L : pc cov (k :: P) i i <= pc cov P i i).
  { cbn [pc]. rewrite (pc_sym cov Hs P k i). pose proof (Rle_0_sqr (pc cov P i k)) as S1. unfold Rsqr in S1.
    assert (0 <= pc cov P i k * pc cov P i k / pc cov P k k) by (apply Rmult_le_pos; [exact S1|apply Rlt_le, Rinv_0_lt_compat; exact Q2]). lra. }
  assert (L2 : ln (pc cov (k :: P) i i) <= ln (pc cov P i i)) by (destruct L as [L|L]; [apply Rlt_le, ln_increasing; auto|rewrite L; lra]).
  cbn [length]. rewrite S_INR. pose proof (Rmult_le_compat_l N _ _ HN L2). lra.
Qed.

(** Two variables with variances 2 and covariance 1. *)
Definition cov2 (a b : nat) : R := if Nat.eqb a b then 2 else 1.
Definition inv2 (P : list nat) (a b : nat) : R := match P with [_; _] => if Nat.eqb a b then 2 / 3 else - (1 / 3) | _ => 1 / 2 end.
Lemma cov2_positive_definite : positive_definite 2 cov2.
Proof.
  split; [intros a b; unfold cov2; now rewrite Nat.eqb_sym|]. intros x (i & Hi & Hx). unfold rsum. cbn [seq map fold_right]. unfold cov2. cbn [Nat.eqb].
  set (a := x 0%nat). set (b := x 1%nat).
  replace (_ + _) with (a * a + b * b + (a + b) * (a + b)) by ring.
  assert (a <> 0 \/ b <> 0) as [Q|Q] by (destruct i as [|[|i]]; [left|right|lia]; exact Hx);
    apply Rsqr_pos_lt in Q; unfold Rsqr in Q; pose proof (Rle_0_sqr a); pose proof (Rle_0_sqr b); pose proof (Rle_0_sqr (a + b)); unfold Rsqr in *; lra.
Qed.
Lemma inv2_inverse : inverse_of 2 cov2 inv2.
Proof.
  intros P ND Hr a c Ha Hc.
  assert (L : (length P <= 2)%nat) by (apply (NoDup_incl_length ND (l' := [0; 1]%nat)); intros x Hx; specialize (Hr x Hx); destruct x as [|[|x]]; [now left|right; now left|lia]).
  destruct P as [|p [|q [|r P]]]; cbn [length] in L; [destruct Ha| | |lia].
  - destruct Ha as [<-|[]], Hc as [<-|[]]. unfold rsum, cov2, inv2. cbn [map fold_right]. rewrite Nat.eqb_refl. lra.
  - assert (p <> q) by (intros ->; apply NoDup_cons_iff in ND; destruct ND as [ND _]; apply ND; now left).
    assert (E1 : Nat.eqb p q = false) by (now apply Nat.eqb_neq). assert (E2 : Nat.eqb q p = false) by (apply Nat.eqb_neq; auto).
    unfold rsum, cov2, inv2. cbn [map fold_right]. destruct Ha as [<-|[<-|[]]], Hc as [<-|[<-|[]]]; rewrite ?E1, ?E2, ?Nat.eqb_refl; lra.
Qed.
Example bic_example N lambda :
  let D := graph_of 2 [dir 0 1] in let D' := graph_of 2 [dir 1 0] in
  equivalent D D' /\ bic_score cov2 inv2 N lambda D = bic_score cov2 inv2 N lambda D' /\
  bic_score cov2 inv2 N lambda D = N * ln 2 + (N * ln (3 / 2) + ln N * lambda).
Proof.
  intros D D'. assert (HE : equivalent D D').
  { assert (Hd : dag D) by (apply (dagb_sound (fun v => v)); vm_compute; reflexivity).
    assert (Hd' : dag D') by (apply (dagb_sound (fun v => 1 - v)%nat); vm_compute; reflexivity).
    destruct (C17_mec_check_decides D D' 3 Hd Hd' eq_refl ltac:(cbn; lia)) as (r & E & Hr).
    assert (r = true) by (vm_compute in E; congruence). split; [reflexivity|]. split; [exact Hd|]. split; [exact Hd'|]. now apply Hr. }
  split; [exact HE|]. split.
  - apply (C97_BIC_score_equivalent 2); auto using cov2_positive_definite, inv2_inverse.
  - unfold bic_score. change (seq 0 (gn D)) with [0; 1]%nat. unfold rsum. cbn [map fold_right].
    change (parents D 0) with (@nil nat). change (parents D 1) with [0%nat]. unfold local_score_BIC, residual, rsum. cbn [map fold_right length]. unfold cov2, inv2. cbn [Nat.eqb INR].
    replace (2 - _) with (3 / 2) by lra. ring.
Qed.
