(** Kernel matrices under reordering and rescaling of the samples. *)
From Verif Require Import Base UtilsModel BICModel BICProofs EffectModel VARModel VARProofs ChisqProps CALMProofs KCIModel.
From Coq Require Import Permutation Reals Lra.
Local Open Scope R_scope.

Definition shuffle (n : nat) (sg : nat -> nat) : Prop := Permutation (map sg (seq 0 n)) (seq 0 n).
Lemma rsum_map {A B} (g : A -> B) (f : B -> R) l : rsum f (map g l) = rsum (fun x => f (g x)) l.
Proof. induction l as [|x l IH]; [reflexivity|]. cbn [map]. rewrite !rsum_cons, IH. reflexivity. Qed.
Section Sh.
Variable n : nat.
Variable sg : nat -> nat.
Hypothesis SH : shuffle n sg.
Lemma sh_lt i : (i < n)%nat -> (sg i < n)%nat.
Proof. intros H. apply in_seq0. apply (Permutation_in _ SH), in_map. now apply in_seq0. Qed.
Lemma sh_sum (f : nat -> R) : rsum (fun i => f (sg i)) (seq 0 n) = rsum f (seq 0 n).
Proof. rewrite <- rsum_map. now apply rsum_perm. Qed.
Lemma sh_sum' (f g : nat -> R) : (forall i, (i < n)%nat -> f i = g (sg i)) -> rsum f (seq 0 n) = rsum g (seq 0 n).
Proof. intros H. rewrite <- (sh_sum g). apply rsum_ext. intros i Hi. apply H. now apply in_seq0. Qed.
Definition related (K' K : rmat) : Prop := forall i j, (i < n)%nat -> (j < n)%nat -> K' i j = K (sg i) (sg j).
Lemma rel_colsum K' K j : related K' K -> (j < n)%nat -> colsum n K' j = colsum n K (sg j).
Proof. intros H Hj. unfold colsum. apply sh_sum'. intros i Hi. now apply H. Qed.
Lemma rel_center K' K : related K' K -> related (center n K') (center n K).
Proof.
  intros H i j Hi Hj. unfold center. rewrite (H i j Hi Hj), !(rel_colsum K' K) by assumption. do 2 f_equal. apply sh_sum'. intros k Hk. now apply rel_colsum.
Qed.
Lemma rel_msum K' K : related K' K -> msum n K' = msum n K.
Proof. intros H. unfold msum. apply sh_sum'. intros i Hi. apply sh_sum'. intros j Hj. now apply H. Qed.
Lemma rel_trace K' K : related K' K -> mtrace n K' = mtrace n K.
Proof. intros H. unfold mtrace. apply sh_sum'. intros i Hi. now apply H. Qed.
Lemma rel_map2 (f : R -> R -> R) A' A B' B : related A' A -> related B' B -> related (fun i j => f (A' i j) (B' i j)) (fun i j => f (A i j) (B i j)).
Proof. intros H1 H2 i j Hi Hj. now rewrite (H1 i j Hi Hj), (H2 i j Hi Hj). Qed.
Lemma rel_stat A' A B' B : related A' A -> related B' B -> v_statistic n A' B' = v_statistic n A B.
Proof. intros H1 H2. unfold v_statistic. apply rel_msum. now apply (rel_map2 Rmult). Qed.
Lemma rel_kappa A' A B' B : related A' A -> related B' B -> kappa n A' B' = kappa n A B.
Proof.
  intros H1 H2. unfold kappa, mean_appr, var_appr. rewrite (rel_trace A' A H1), (rel_trace B' B H2).
  rewrite (rel_msum (fun i j => A' i j ^ 2) (fun i j => A i j ^ 2)) by (intros i j Hi Hj; now rewrite (H1 i j Hi Hj)).
  rewrite (rel_msum (fun i j => B' i j ^ 2) (fun i j => B i j ^ 2)) by (intros i j Hi Hj; now rewrite (H2 i j Hi Hj)). reflexivity.
Qed.
Lemma rel_kci median gsf kx ky dx dy X' X Y' Y : related (kernel_of median n dx kx X') (kernel_of median n dx kx X) -> related (kernel_of median n dy ky Y') (kernel_of median n dy ky Y) ->
  kci_u median gsf n kx ky dx dy X' Y' = kci_u median gsf n kx ky dx dy X Y.
Proof.
  intros H1 H2. apply rel_center in H1, H2. unfold kci_u. rewrite (rel_kappa _ _ _ _ H1 H2), (rel_stat _ _ _ _ H1 H2). reflexivity.
Qed.
(** Reordered samples. *)
Lemma sh_zscore X s c : zscore n (fun s c => X (sg s) c) s c = zscore n X (sg s) c.
Proof.
  assert (M : cmean n (fun s c => X (sg s) c) c = cmean n X c) by (unfold cmean; f_equal; apply (sh_sum (fun s => X s c))).
  assert (V : cvar n (fun s c => X (sg s) c) c = cvar n X c) by (unfold cvar; rewrite M; f_equal; apply (sh_sum (fun s => (X s c - cmean n X c) * (X s c - cmean n X c)))).
  unfold zscore. now rewrite M, V.
Qed.
Lemma Permutation_filter {A} (f : A -> bool) l m : Permutation l m -> Permutation (filter f l) (filter f m).
Proof.
  induction 1 as [|x l m _ IH|x y l|l m k _ IH1 _ IH2]; cbn [filter]; [constructor|destruct (f x); auto|destruct (f x), (f y); auto using perm_swap|now rewrite IH1].
Qed.
Lemma flat_map_perm {A B} (f g : A -> list B) l : (forall x, In x l -> Permutation (f x) (g x)) -> Permutation (flat_map f l) (flat_map g l).
Proof. induction l as [|x l IH]; intros H; cbn [flat_map]; [constructor|]. apply Permutation_app; [apply H; now left|apply IH; intros; apply H; now right]. Qed.
Lemma flat_map_ext' {A B} (f g : A -> list B) l : (forall x, In x l -> f x = g x) -> flat_map f l = flat_map g l.
Proof. induction l as [|x l IH]; intros H; cbn [flat_map]; [reflexivity|]. rewrite (H x) by now left. f_equal. apply IH. intros; apply H; now right. Qed.
Lemma flat_map_list_perm {A B} (f : A -> list B) l m : Permutation l m -> Permutation (flat_map f l) (flat_map f m).
Proof.
  induction 1 as [|x l m _ IH|x y l|l m k _ IH1 _ IH2]; cbn [flat_map]; [constructor|now apply Permutation_app_head| |now rewrite IH1].
  rewrite !app_assoc. apply Permutation_app_tail, Permutation_app_comm.
Qed.
Lemma sh_dists d X : Permutation (pos_dists n d (fun s c => X (sg s) c)) (pos_dists n d X).
Proof.
  unfold pos_dists. apply Permutation_filter. change (fun a => map (fun b => sqrt (sqdist d (fun s c => X (sg s) c) a b)) (seq 0 n)) with (fun a => map (fun b => sqrt (sqdist d X (sg a) (sg b))) (seq 0 n)).
  transitivity (flat_map (fun a => map (fun b => sqrt (sqdist d X a b)) (seq 0 n)) (map sg (seq 0 n))); [|now apply flat_map_list_perm].
  assert (E : flat_map (fun a => map (fun b => sqrt (sqdist d X a b)) (seq 0 n)) (map sg (seq 0 n)) = flat_map (fun a => map (fun b => sqrt (sqdist d X (sg a) b)) (seq 0 n)) (seq 0 n)).
  { induction (seq 0 n) as [|x l IH] at 2 4; [reflexivity|]. cbn [map flat_map]. now rewrite IH. }
  rewrite E. apply flat_map_perm. intros a _. rewrite <- (map_map sg (fun b => sqrt (sqdist d X (sg a) b))). now apply Permutation_map.
Qed.
Lemma sh_kernel median d k X : (forall l m, Permutation l m -> median l = median m) ->
  related (kernel_of median n d k (fun s c => X (sg s) c)) (kernel_of median n d k X).
Proof.
  intros HM i j Hi Hj. assert (SQ : sqdist d (zscore n (fun s c => X (sg s) c)) i j = sqdist d (zscore n X) (sg i) (sg j)) by (unfold sqdist; apply rsum_ext; intros c _; now rewrite !sh_zscore).
  assert (DT : rdot d (zscore n (fun s c => X (sg s) c) i) (zscore n (fun s c => X (sg s) c) j) = rdot d (zscore n X (sg i)) (zscore n X (sg j))) by (unfold rdot; apply rsum_ext; intros c _; now rewrite !sh_zscore).
  destruct k as [[w| |]| |g]; cbn [kernel_of]; unfold gaussian, linear_k, polynomial_k; rewrite ?SQ, ?DT; try reflexivity.
  unfold theta_median. now rewrite (HM _ _ (sh_dists d X)).
Qed.
End Sh.
Lemma shuffle_id n : shuffle n (fun i => i). Proof. unfold shuffle. now rewrite map_id. Qed.

(** Rescaled columns. *)
Definition rescaled (a b : nat -> R) (X : data) : data := fun s c => a c * X s c + b c.
Definition sgn (x : R) : R := if Rlt_dec x 0 then -1 else 1.
Lemma sgn_sq x : sgn x * sgn x = 1. Proof. unfold sgn. destruct (Rlt_dec x 0); ring. Qed.
Lemma sgn_abs x : x = sgn x * Rabs x.
Proof. unfold sgn. destruct (Rlt_dec x 0); [rewrite Rabs_left by assumption|rewrite Rabs_right by lra]; ring. Qed.
Lemma zscore_rescaled n a b X s c : (0 < n)%nat -> a c <> 0 -> zscore n (rescaled a b X) s c = sgn (a c) * zscore n X s c.
Proof.
  intros Hn Ha. assert (NP : INR n <> 0) by (apply not_0_INR; lia).
  assert (M : cmean n (rescaled a b X) c = a c * cmean n X c + b c) by (unfold cmean, rescaled; rewrite rsum_plus, rsum_mult, rsum_const, seq_length; field; exact NP).
  assert (V : cvar n (rescaled a b X) c = a c * a c * cvar n X c).
  { unfold cvar. rewrite M. unfold rescaled. rewrite (rsum_ext _ (fun s => a c * a c * ((X s c - cmean n X c) * (X s c - cmean n X c)))) by (intros; ring). rewrite rsum_mult. unfold Rdiv. ring. }
  unfold zscore. rewrite M, V. destruct (Req_EM_T (cvar n X c) 0) as [Z|NZ].
  - destruct (Req_EM_T _ 0) as [|Q]; [ring|]. exfalso. apply Q. rewrite Z. ring.
  - destruct (Req_EM_T _ 0) as [Q|_]; [exfalso; apply Rmult_integral in Q; destruct Q as [Q|Q]; [apply Rmult_integral in Q; tauto|tauto]|].
    assert (VP : 0 <= cvar n X c).
    { unfold cvar. destruct (Nat.eq_dec n 1) as [->|N1]; [|apply Rmult_le_pos; [apply rsum_nonneg; intros; exact (Rle_0_sqr _)|left; apply Rinv_0_lt_compat, lt_0_INR; lia]].
      unfold cmean, rsum. cbn [seq map fold_right INR]. replace (X 0%nat c - (X 0%nat c + 0) / 1) with 0 by field. unfold Rdiv. rewrite Rmult_0_l, Rplus_0_l, Rmult_0_l. lra. }
    rewrite sqrt_mult by (exact (Rle_0_sqr _) || exact VP). change (a c * a c) with (Rsqr (a c)). rewrite sqrt_Rsqr_abs. unfold rescaled. replace (a c * X s c + b c - (a c * cmean n X c + b c)) with (a c * (X s c - cmean n X c)) by ring.
    assert (S0 : sqrt (cvar n X c) <> 0) by (apply Rgt_not_eq, sqrt_lt_R0; lra). pose proof (Rabs_no_R0 _ Ha) as A0. rewrite (sgn_abs (a c)) at 1. field. auto.
Qed.
Lemma rescaled_kernel median n d k a b X : (0 < n)%nat -> (forall c, (c < d)%nat -> a c <> 0) -> k <> Gaussian Median ->
  related n (fun i => i) (kernel_of median n d k (rescaled a b X)) (kernel_of median n d k X).
Proof.
  intros Hn Ha Hk i j Hi Hj.
  assert (SQ : sqdist d (zscore n (rescaled a b X)) i j = sqdist d (zscore n X) i j).
  { unfold sqdist. apply rsum_ext. intros c Hc. apply in_seq0 in Hc. rewrite !zscore_rescaled by auto. pose proof (sgn_sq (a c)) as S1. set (z := sgn (a c)) in *. set (u := zscore n X i c). set (v := zscore n X j c). replace ((z * u - z * v) * (z * u - z * v)) with ((z * z) * ((u - v) * (u - v))) by ring. rewrite S1. ring. }
  assert (DT : rdot d (zscore n (rescaled a b X) i) (zscore n (rescaled a b X) j) = rdot d (zscore n X i) (zscore n X j)).
  { unfold rdot. apply rsum_ext. intros c Hc. apply in_seq0 in Hc. rewrite !zscore_rescaled by auto. pose proof (sgn_sq (a c)) as S1. set (z := sgn (a c)) in *. set (u := zscore n X i c). set (v := zscore n X j c). replace (z * u * (z * v)) with ((z * z) * (u * v)) by ring. rewrite S1. ring. }
  destruct k as [[w| |]| |g]; cbn [kernel_of]; unfold gaussian, linear_k, polynomial_k; rewrite ?SQ, ?DT; try reflexivity. congruence.
Qed.
