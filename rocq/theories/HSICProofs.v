(** Gram matrices: kernels as limits of finite sums of products; sums of entrywise products are not negative. *)
From Verif Require Import Base UtilsModel BICModel BICProofs EffectModel EffectProofs VARModel VARProofs ChisqProps CALMProofs KCIModel KCIProofs KCIProps HSICModel.
From Coq Require Import Permutation Reals Lra.
Local Open Scope R_scope.

(** ** Finite Gram matrices *)
Definition gram (K : rmat) : Prop := exists L : list rvec, forall i j, K i j = rsum (fun f => f i * f j) L.
Lemma gram_ext K K' : (forall i j, K i j = K' i j) -> gram K -> gram K'.
Proof. intros E [L H]. exists L. intros i j. now rewrite <- E. Qed.
Lemma gram_plus A B : gram A -> gram B -> gram (fun i j => A i j + B i j).
Proof. intros [L H] [M J]. exists (L ++ M). intros i j. now rewrite rsum_app, H, J. Qed.
Lemma gram_0 : gram (fun _ _ => 0).
Proof. exists []. reflexivity. Qed.
Lemma gram_one (f : rvec) : gram (fun i j => f i * f j).
Proof. exists [f]. intros i j. unfold rsum. cbn [map fold_right]. ring. Qed.
Lemma gram_mult A B : gram A -> gram B -> gram (fun i j => A i j * B i j).
Proof.
  intros [L H] [M J]. exists (flat_map (fun f => map (fun g i => f i * g i) M) L). intros i j.
  rewrite rsum_flat. rewrite H, J, (Rmult_comm (rsum _ L)). rewrite <- rsum_mult. apply rsum_ext. intros f _. rewrite rsum_mapf. cbn beta.
  rewrite (rsum_ext (fun g => f i * g i * (f j * g j)) (fun g => (f i * f j) * (g i * g j))) by (intros; ring). rewrite rsum_mult. ring.
Qed.
Lemma gram_scal c A : 0 <= c -> gram A -> gram (fun i j => c * A i j).
Proof. intros Hc H. apply (gram_ext (fun i j => (sqrt c * sqrt c) * A i j)); [intros; now rewrite sqrt_sqrt|]. exact (gram_mult (fun _ _ => sqrt c * sqrt c) A (gram_one (fun _ => sqrt c)) H). Qed.
Lemma gram_1 : gram (fun _ _ => 1).
Proof. apply (gram_ext (fun _ _ => 1 * 1)); [intros; ring|exact (gram_one (fun _ => 1))]. Qed.
Lemma gram_pow A k : gram A -> gram (fun i j => A i j ^ k).
Proof. intros H. induction k as [|k IH]; cbn [pow]; [exact gram_1|exact (gram_mult _ _ H IH)]. Qed.
Lemma gram_sum A k : (forall m, gram (A m)) -> gram (fun i j => sum_f_R0 (fun m => A m i j) k).
Proof. intros H. induction k as [|k IH]; cbn [sum_f_R0]; [apply H|exact (gram_plus _ _ IH (H _))]. Qed.
Lemma gram_rdot d (X : data) : gram (fun a b => rdot d (X a) (X b)).
Proof. exists (map (fun c s => X s c) (seq 0 d)). intros i j. rewrite rsum_mapf. reflexivity. Qed.
(** ** Limits of Gram matrices *)
Definition lgram (K : rmat) : Prop := exists A : nat -> rmat, (forall m, gram (A m)) /\ forall i j, Un_cv (fun m => A m i j) (K i j).
Lemma cv_const c : Un_cv (fun _ => c) c.
Proof. intros e He. exists 0%nat. intros. unfold R_dist. rewrite Rminus_diag_eq by reflexivity. rewrite Rabs_R0. exact He. Qed.
Lemma cv_ext u v l : (forall m : nat, u m = v m) -> Un_cv u l -> Un_cv v l.
Proof. intros E H e He. destruct (H e He) as [N HN]. exists N. intros m Hm. rewrite <- E. now apply HN. Qed.
Lemma cv_rsum {T} (f : nat -> T -> R) (g : T -> R) l : (forall x, In x l -> Un_cv (fun m => f m x) (g x)) -> Un_cv (fun m => rsum (f m) l) (rsum g l).
Proof.
  induction l as [|x l IH]; intros H; [exact (cv_const 0)|]. apply (cv_ext (fun m => f m x + rsum (f m) l)); [intros; symmetry; apply rsum_cons|].
  rewrite rsum_cons. apply CV_plus; [apply H; now left|apply IH; intros; apply H; now right].
Qed.
Lemma cv_nonneg u l : (forall m, 0 <= u m) -> Un_cv u l -> 0 <= l.
Proof.
  intros H C. destruct (Rle_dec 0 l) as [|N]; [assumption|]. destruct (C (- l)) as [N0 HN]; [lra|].
  specialize (HN N0 (le_n _)). unfold R_dist in HN. specialize (H N0). rewrite Rabs_right in HN by lra. lra.
Qed.
Lemma lgram_of K : gram K -> lgram K.
Proof. intros H. exists (fun _ => K). split; [intros; exact H|]. intros. apply cv_const. Qed.
Lemma lgram_ext K K' : (forall i j, K i j = K' i j) -> lgram K -> lgram K'.
Proof. intros E (A & H & C). exists A. split; [exact H|]. intros i j. rewrite <- E. apply C. Qed.
Lemma lgram_mult A B : lgram A -> lgram B -> lgram (fun i j => A i j * B i j).
Proof. intros (U & HU & CU) (V & HV & CV). exists (fun m i j => U m i j * V m i j). split; [intros m; now apply gram_mult|]. intros i j. now apply CV_mult. Qed.
(** The Gaussian kernel: exp (-|a-b|^2 / 2 t) = exp (-|a|^2/2 t) exp (-|b|^2/2 t) exp (a.b / t), and the last factor is a power series. *)
Lemma exp_series x : Un_cv (fun N => sum_f_R0 (fun k => / INR (fact k) * x ^ k) N) (exp x).
Proof. unfold exp. destruct (exist_exp x) as [l Hl]. cbn [proj1_sig]. exact Hl. Qed.
Lemma lgram_exp A : gram A -> lgram (fun i j => exp (A i j)).
Proof.
  intros H. exists (fun N i j => sum_f_R0 (fun k => / INR (fact k) * A i j ^ k) N). split; [|intros; apply exp_series].
  intros m. apply (gram_sum (fun k i j => / INR (fact k) * A i j ^ k)). intros k. apply (gram_scal (/ INR (fact k))); [|now apply gram_pow].
  left. apply Rinv_0_lt_compat, INR_fact_lt_0.
Qed.
Lemma sqdist_rdot d X a b : sqdist d X a b = rdot d (X a) (X a) + rdot d (X b) (X b) - 2 * rdot d (X a) (X b).
Proof. unfold sqdist, rdot. rewrite <- rsum_mult, <- rsum_plus, <- rsum_minus. apply rsum_ext. intros. ring. Qed.
Lemma dists_sqdist d X a b : dists d X a b = sqdist d X a b.
Proof. now rewrite sqdist_rdot. Qed.
Lemma lgram_gaussian t d X : 0 <= t -> lgram (gaussian t d X).
Proof.
  intros Ht. apply (lgram_ext (fun i j => exp (- (1 / 2) * t * rdot d (X i) (X i)) * exp (- (1 / 2) * t * rdot d (X j) (X j)) * exp (t * rdot d (X i) (X j)))).
  - intros i j. unfold gaussian. rewrite sqdist_rdot, <- !exp_plus. f_equal. field.
  - apply (lgram_mult (fun i j => exp (- (1 / 2) * t * rdot d (X i) (X i)) * exp (- (1 / 2) * t * rdot d (X j) (X j)))).
    + apply lgram_of. exact (gram_one (fun i => exp (- (1 / 2) * t * rdot d (X i) (X i)))).
    + apply lgram_exp. apply gram_scal; [exact Ht|apply gram_rdot].
Qed.
Lemma rbf_gaussian d X w i j : w <> 0 -> rbf d X w i j = gaussian (1 / w ^ 2) d X i j.
Proof. intros Hw. unfold rbf, gaussian. rewrite dists_sqdist. f_equal. field. exact Hw. Qed.
Lemma inv_sq_pos w : w <> 0 -> 0 < 1 / w ^ 2.
Proof. intros Hw. assert (0 < w ^ 2) by (cbn [pow]; rewrite Rmult_1_r; destruct (Rtotal_order w 0) as [|[|]]; nra). unfold Rdiv. rewrite Rmult_1_l. now apply Rinv_0_lt_compat. Qed.
Lemma lgram_rbf d X w : w <> 0 -> lgram (rbf d X w).
Proof. intros Hw. apply (lgram_ext (gaussian (1 / w ^ 2) d X)); [intros; symmetry; now apply rbf_gaussian|]. apply lgram_gaussian. pose proof (inv_sq_pos w Hw). lra. Qed.
(** ** Linear maps applied on both sides: centering and regression *)
Definition both (n : nat) (T : rmat) (K : rmat) : rmat := fun i j => rsum (fun k => rsum (fun l => T i k * T j l * K k l) (seq 0 n)) (seq 0 n).
Lemma gram_both n T K : gram K -> gram (both n T K).
Proof.
  intros [L H]. exists (map (fun f i => rsum (fun k => T i k * f k) (seq 0 n)) L). intros i j. rewrite rsum_mapf. unfold both.
  rewrite (rsum_ext _ (fun k => rsum (fun l => rsum (fun f => (T i k * f k) * (T j l * f l)) L) (seq 0 n))).
  2:{ intros k _. apply rsum_ext. intros l _. rewrite H, <- rsum_mult. apply rsum_ext. intros. ring. }
  rewrite (rsum_ext _ (fun k => rsum (fun f => rsum (fun l => (T i k * f k) * (T j l * f l)) (seq 0 n)) L)) by (intros; apply rsum_swap).
  rewrite rsum_swap. apply rsum_ext. intros f _. rewrite (rsum_ext _ (fun k => rsum (fun l => T j l * f l) (seq 0 n) * (T i k * f k))) by (intros; rewrite rsum_mult; ring).
  rewrite rsum_mult. ring.
Qed.
Lemma lgram_both n T K : lgram K -> lgram (both n T K).
Proof.
  intros (A & H & C). exists (fun m => both n T (A m)). split; [intros; now apply gram_both|]. intros i j. unfold both.
  apply (cv_rsum (fun m k => rsum (fun l => T i k * T j l * A m k l) (seq 0 n))). intros k _. apply (cv_rsum (fun m l => T i k * T j l * A m k l)). intros l _. apply CV_mult; [apply cv_const|apply C].
Qed.
(** ** The sum of the products of the entries *)
Lemma gram_stat_nonneg n A B : gram A -> gram B -> 0 <= v_statistic n A B.
Proof.
  intros HA HB. destruct (gram_mult A B HA HB) as [L H]. unfold v_statistic, msum.
  rewrite (rsum_ext _ (fun i => rsum (fun j => rsum (fun f => f i * f j) L) (seq 0 n))) by (intros i _; apply rsum_ext; intros j _; apply H).
  rewrite (rsum_ext _ (fun i => rsum (fun f => rsum (fun j => f i * f j) (seq 0 n)) L)) by (intros; apply rsum_swap). rewrite rsum_swap.
  apply rsum_nonneg. intros f _. rewrite (rsum_ext _ (fun i => rsum f (seq 0 n) * f i)) by (intros; rewrite rsum_mult; ring). rewrite rsum_mult. exact (Rle_0_sqr _).
Qed.
Lemma lgram_stat_nonneg n A B : lgram A -> lgram B -> 0 <= v_statistic n A B.
Proof.
  intros (U & HU & CU) (V & HV & CV). apply (cv_nonneg (fun m => v_statistic n (U m) (V m))); [intros; now apply gram_stat_nonneg|].
  unfold v_statistic, msum. apply (cv_rsum (fun m i => rsum (fun j => U m i j * V m i j) (seq 0 n))). intros i _. apply (cv_rsum (fun m j => U m i j * V m i j)). intros j _. now apply CV_mult.
Qed.
Lemma stat_congr n A A' B B' : (forall i j, (i < n)%nat -> (j < n)%nat -> A i j = A' i j) -> (forall i j, (i < n)%nat -> (j < n)%nat -> B i j = B' i j) -> v_statistic n A B = v_statistic n A' B'.
Proof. intros HA HB. unfold v_statistic, msum. apply rsum_ext. intros i Hi. apply rsum_ext. intros j Hj. apply in_seq0 in Hi, Hj. now rewrite HA, HB. Qed.
