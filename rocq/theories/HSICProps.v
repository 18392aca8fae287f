(** C194-C198: the HSIC tests of the LiNGAM methods, GIN, CAM-UV; C199: the regression of RCD by HSIC. *)
From Verif Require Import Base UtilsModel BICModel BICProofs EffectModel EffectProofs VARModel VARProofs ChisqProps CALMProofs KCIModel KCIProofs KCIProps FisherSpec FisherProofs HSICModel HSICProofs.
From Coq Require Import Permutation Sorted Reals Lra.
Local Open Scope R_scope.

(** ** C194: the kernel matrix and the centered matrix *)
Lemma sqdist_nonneg d X a b : 0 <= sqdist d X a b.
Proof. apply rsum_nonneg. intros. exact (Rle_0_sqr _). Qed.
Lemma rsum_sq_0 {A} (f : A -> R) l : rsum (fun x => f x * f x) l = 0 -> forall x, In x l -> f x = 0.
Proof.
  induction l as [|y l IH]; intros H x Hx; [destruct Hx|]. rewrite rsum_cons in H. pose proof (Rle_0_sqr (f y)) as P. unfold Rsqr in P.
  assert (Q : 0 <= rsum (fun x => f x * f x) l) by (apply rsum_nonneg; intros; exact (Rle_0_sqr _)).
  destruct Hx as [-> | Hx]; [nra|apply IH; [lra|exact Hx]].
Qed.
Lemma sqdist_0 d X a b : sqdist d X a b = 0 <-> forall c, (c < d)%nat -> X a c = X b c.
Proof.
  split.
  - intros H c Hc. pose proof (rsum_sq_0 (fun c => X a c - X b c) (seq 0 d) H c) as E. cbn beta in E. assert (X a c - X b c = 0) by (apply E; apply in_seq0; exact Hc). lra.
  - intros H. unfold sqdist. rewrite (rsum_ext _ (fun _ => 0 * 0)) by (intros c Hc; apply in_seq0 in Hc; rewrite (H c Hc); ring). rewrite rsum_const. ring.
Qed.
Lemma exp_le_1 x : x <= 0 -> exp x <= 1.
Proof. intros [H| ->]; [left; rewrite <- exp_0; now apply exp_increasing|rewrite exp_0; lra]. Qed.
Lemma exp_eq_1 x : exp x = 1 -> x = 0.
Proof. intros H. apply exp_inv. now rewrite exp_0. Qed.
Theorem C194_kernel : forall d X w i j, w <> 0 ->
  rbf d X w i j = rbf d X w j i /\ 0 < rbf d X w i j <= 1 /\ (rbf d X w i j = 1 <-> forall c, (c < d)%nat -> X i c = X j c).
Proof.
  intros d X w i j Hw. rewrite !rbf_gaussian by exact Hw. pose proof (inv_sq_pos w Hw) as P. unfold gaussian.
  assert (SY : sqdist d X i j = sqdist d X j i) by (unfold sqdist; apply rsum_ext; intros; ring). rewrite <- SY. pose proof (sqdist_nonneg d X i j) as N.
  split; [reflexivity|]. split; [split; [apply exp_pos|apply exp_le_1; nra]|]. rewrite <- sqdist_0. split.
  - intros E. apply exp_eq_1 in E. nra.
  - intros ->. rewrite <- exp_0. f_equal. ring.
Qed.
(** The centered matrix is H K H for every matrix, and all its rows and columns add up to 0. *)
Theorem C194_centering : forall n K, (0 < n)%nat ->
  (forall i j, (i < n)%nat -> (j < n)%nat -> hcenter n K i j = mmul n (centering n) (mmul n K (centering n)) i j) /\
  (forall i j, (i < n)%nat -> (j < n)%nat -> hkh n K i j = hcenter n K i j) /\
  (forall i, (i < n)%nat -> rsum (fun j => hcenter n K i j) (seq 0 n) = 0) /\
  forall j, (j < n)%nat -> rsum (fun i => hcenter n K i j) (seq 0 n) = 0.
Proof.
  intros n K Hn. assert (NP : INR n <> 0) by (apply not_0_INR; lia).
  assert (CS : rsum (colsum n K) (seq 0 n) = msum n K) by (unfold colsum, msum; apply rsum_swap).
  split; [|split; [|split]].
  - intros i j Hi Hj. rewrite centering_mul, mul_centering by assumption.
    rewrite (rsum_ext (fun k => mmul n K (centering n) k j) (fun k => K k j - (1 / INR n) * rowsum n K k)) by (intros k Hk; apply in_seq0 in Hk; rewrite mul_centering by assumption; unfold rowsum; field; exact NP).
    rewrite rsum_minus, rsum_mult. fold (colsum n K j). fold (rowsum n K i). unfold hcenter, msum. fold (rowsum n K). change (rsum (fun k => rowsum n K k) (seq 0 n)) with (rsum (rowsum n K) (seq 0 n)).
    change (rsum (fun i0 => rsum (fun j0 => K i0 j0) (seq 0 n)) (seq 0 n)) with (rsum (rowsum n K) (seq 0 n)). field. exact NP.
  - intros i j Hi Hj. unfold hkh. change (hmat n) with (centering n). rewrite mul_centering, centering_mul by assumption.
    rewrite (rsum_ext (fun k => mmul n (centering n) K i k) (fun k => K i k - (1 / INR n) * colsum n K k)) by (intros k Hk; apply in_seq0 in Hk; rewrite centering_mul by assumption; unfold colsum; field; exact NP).
    rewrite rsum_minus, rsum_mult. change (rsum (fun x => colsum n K x) (seq 0 n)) with (rsum (colsum n K) (seq 0 n)). rewrite CS. unfold hcenter, rowsum, colsum. change (rsum (K i) (seq 0 n)) with (rsum (fun k => K i k) (seq 0 n)). field. exact NP.
  - intros i Hi. unfold hcenter. rewrite (rsum_ext _ (fun j => (K i j - (1 / INR n) * colsum n K j) + (msum n K / INR n ^ 2 - rowsum n K i / INR n))) by (intros; field; exact NP).
    rewrite rsum_plus, rsum_minus, rsum_mult, rsum_const, seq_length. change (rsum (fun x => colsum n K x) (seq 0 n)) with (rsum (colsum n K) (seq 0 n)). rewrite CS. unfold rowsum. change (rsum (K i) (seq 0 n)) with (rsum (fun j => K i j) (seq 0 n)). field. exact NP.
  - intros j Hj. unfold hcenter. rewrite (rsum_ext _ (fun i => (K i j - (1 / INR n) * rowsum n K i) + (msum n K / INR n ^ 2 - colsum n K j / INR n))) by (intros; field; exact NP).
    rewrite rsum_plus, rsum_minus, rsum_mult, rsum_const, seq_length. unfold colsum, msum, rowsum. field. exact NP.
Qed.

(** ** C195: the statistic *)
Lemma both_center n K i j : (0 < n)%nat -> (i < n)%nat -> (j < n)%nat -> both n (centering n) K i j = hcenter n K i j.
Proof.
  intros Hn Hi Hj. destruct (C194_centering n K Hn) as (E & _). rewrite E by assumption. unfold both, mmul. apply rsum_ext. intros k _. rewrite <- rsum_mult. apply rsum_ext. intros l _.
  assert (S : centering n j l = centering n l j) by (unfold centering; now rewrite (eye_in j)). rewrite S. ring.
Qed.
Lemma rbf_sym d X w i j : rbf d X w i j = rbf d X w j i.
Proof. unfold rbf. rewrite !dists_sqdist. assert (SY : sqdist d X i j = sqdist d X j i) by (unfold sqdist; apply rsum_ext; intros; ring). now rewrite SY. Qed.
Lemma hcenter_sym n K : (forall i j, K i j = K j i) -> forall i j, hcenter n K i j = hcenter n K j i.
Proof.
  intros H i j. unfold hcenter. assert (E : forall i, colsum n K i = rowsum n K i) by (intros; apply rsum_ext; intros; apply H). rewrite !E, (H i j), (Rplus_comm (rowsum n K j)). reflexivity.
Qed.
Lemma teststat_v n A B : (forall i j, A i j = A j i) -> hsic_teststat n A B = v_statistic n A B / INR n.
Proof. intros H. unfold hsic_teststat, v_statistic. replace (msum n (fun i j => A j i * B i j)) with (msum n (fun i j => A i j * B i j)); [unfold Rdiv; ring|]. unfold msum. apply rsum_ext. intros i _. apply rsum_ext. intros j _. now rewrite (H i j). Qed.
Definition hsic_of (n dx dy : nat) (X Y : data) (wx wy : R) : R := hsic_teststat n (hcenter n (rbf dx X wx)) (hcenter n (rbf dy Y wy)).
Lemma stat_of n dx dy X Y wx wy : hsic_of n dx dy X Y wx wy = v_statistic n (hcenter n (rbf dx X wx)) (hcenter n (rbf dy Y wy)) / INR n.
Proof. apply teststat_v. apply hcenter_sym. intros. apply rbf_sym. Qed.
(** For all data and widths: the statistic is never negative; it is symmetric; it is bounded by the statistics of each variable with itself;
    and that of a variable with itself is 0 only if all samples are equal. *)
Theorem C195_nonneg : forall n dx dy X Y wx wy, (0 < n)%nat -> wx <> 0 -> wy <> 0 -> 0 <= hsic_of n dx dy X Y wx wy.
Proof.
  intros n dx dy X Y wx wy Hn Hx Hy. rewrite stat_of. unfold Rdiv. apply Rmult_le_pos; [|left; apply Rinv_0_lt_compat, lt_0_INR; lia].
  rewrite (stat_congr n _ (both n (centering n) (rbf dx X wx)) _ (both n (centering n) (rbf dy Y wy))) by (intros; symmetry; now apply both_center).
  apply lgram_stat_nonneg; apply lgram_both; now apply lgram_rbf.
Qed.
Theorem C195_symmetric : forall cdf bw n dx dy X Y, hsic_test_gamma cdf bw n dy dx Y X = hsic_test_gamma cdf bw n dx dy X Y.
Proof.
  intros cdf bw n dx dy X Y. unfold hsic_test_gamma. destruct (Nat.ltb n 4); [reflexivity|].
  destruct (usable (width_by bw n dx X)) as [wx|], (usable (width_by bw n dy Y)) as [wy|]; try reflexivity.
  set (A := rbf dx X wx). set (B := rbf dy Y wy). assert (SA : forall i j, hcenter n A i j = hcenter n A j i) by (apply hcenter_sym; intros; apply rbf_sym).
  assert (SB : forall i j, hcenter n B i j = hcenter n B j i) by (apply hcenter_sym; intros; apply rbf_sym).
  assert (ES : hsic_teststat n (hcenter n B) (hcenter n A) = hsic_teststat n (hcenter n A) (hcenter n B)).
  { rewrite !teststat_v by assumption. f_equal. unfold v_statistic, msum. apply rsum_ext. intros. apply rsum_ext. intros. ring. }
  assert (EV : hsic_var n (hcenter n B) (hcenter n A) = hsic_var n (hcenter n A) (hcenter n B)).
  { unfold hsic_var. cbv zeta. f_equal. f_equal. f_equal; unfold msum, mtrace; apply rsum_ext; intros; [apply rsum_ext; intros|]; f_equal; ring. }
  assert (EM : hsic_mean n B A = hsic_mean n A B) by (unfold hsic_mean; ring). rewrite ES, EV, EM. reflexivity.
Qed.
Theorem C195_cauchy_schwarz : forall n dx dy X Y wx wy, (0 < n)%nat -> hsic_of n dx dy X Y wx wy ^ 2 <= hsic_of n dx dx X X wx wx * hsic_of n dy dy Y Y wy wy.
Proof.
  intros n dx dy X Y wx wy Hn. rewrite !stat_of. set (A := hcenter n (rbf dx X wx)). set (B := hcenter n (rbf dy Y wy)).
  assert (NP : 0 < INR n) by (apply lt_0_INR; lia).
  assert (C : v_statistic n A B * v_statistic n A B <= v_statistic n A A * v_statistic n B B).
  { assert (FL : forall P Q : rmat, v_statistic n P Q = rsum (fun p => P (fst p) (snd p) * Q (fst p) (snd p)) (list_prod (seq 0 n) (seq 0 n))).
    { intros P Q. unfold v_statistic, msum.
      assert (G : forall l m, rsum (fun i => rsum (fun j => P i j * Q i j) m) l = rsum (fun p => P (fst p) (snd p) * Q (fst p) (snd p)) (list_prod l m)).
      { induction l as [|a l IH]; intros m; [reflexivity|]. cbn [list_prod]. rewrite rsum_app, rsum_mapf, <- IH, rsum_cons. reflexivity. }
      apply G. }
    rewrite !FL. set (l := list_prod (seq 0 n) (seq 0 n)). set (f := fun p : nat * nat => A (fst p) (snd p)). set (g := fun p : nat * nat => B (fst p) (snd p)).
    change (rsum (fun p => f p * g p) l * rsum (fun p => f p * g p) l <= rsum (fun p => f p * f p) l * rsum (fun p => g p * g p) l). clearbody f g. clear - f g.
    induction l as [|a l IH]; [unfold rsum; cbn; lra|]. rewrite !rsum_cons. set (p := rsum (fun p => f p * g p) l) in *. set (q := rsum (fun p => f p * f p) l) in *. set (r := rsum (fun p => g p * g p) l) in *.
    assert (Q : 0 <= q) by (apply rsum_nonneg; intros; exact (Rle_0_sqr _)). assert (Rr : 0 <= r) by (apply rsum_nonneg; intros; exact (Rle_0_sqr _)).
    assert (M : 2 * (f a * g a) * p <= f a * f a * r + q * (g a * g a)).
    { destruct (Req_dec r 0) as [Z0|Z0].
      - assert (p = 0) by nra. rewrite H, Z0. pose proof (Rle_0_sqr (g a)). unfold Rsqr in H0. nra.
      - assert (0 < r) by lra. apply (Rmult_le_reg_l r); [assumption|].
        pose proof (Rle_0_sqr (f a * r - g a * p)) as S0. unfold Rsqr in S0. pose proof (Rle_0_sqr (g a)) as G0. unfold Rsqr in G0.
        assert (g a * g a * (p * p) <= g a * g a * (q * r)) by (apply Rmult_le_compat_l; assumption). nra. }
    nra. }
  unfold Rdiv. assert (NI : 0 < / INR n) by now apply Rinv_0_lt_compat. set (u := / INR n) in *. replace (v_statistic n A A * u * (v_statistic n B B * u)) with ((u * u) * (v_statistic n A A * v_statistic n B B)) by ring.
  replace ((v_statistic n A B * u) ^ 2) with ((u * u) * (v_statistic n A B * v_statistic n A B)) by ring. apply Rmult_le_compat_l; [nra|exact C].
Qed.
Theorem C195_self : forall n d X w, (0 < n)%nat -> w <> 0 -> hsic_of n d d X X w w = 0 -> forall a b c, (a < n)%nat -> (b < n)%nat -> (c < d)%nat -> X a c = X b c.
Proof.
  intros n d X w Hn Hw H a b c Ha Hb Hc. assert (NP : 0 < INR n) by (apply lt_0_INR; lia). rewrite stat_of in H. set (K := rbf d X w) in *.
  assert (V : v_statistic n (hcenter n K) (hcenter n K) = 0) by (unfold Rdiv in H; apply Rmult_integral in H; destruct H as [H|H]; [exact H|pose proof (Rinv_0_lt_compat _ NP); lra]).
  assert (Z0 : forall i j, (i < n)%nat -> (j < n)%nat -> hcenter n K i j = 0).
  { intros i j Hi Hj. unfold v_statistic, msum in V.
    assert (RW : forall l, (forall i, In i l -> 0 <= rsum (fun j => hcenter n K i j * hcenter n K i j) (seq 0 n)) -> rsum (fun i => rsum (fun j => hcenter n K i j * hcenter n K i j) (seq 0 n)) l = 0 -> forall i, In i l -> rsum (fun j => hcenter n K i j * hcenter n K i j) (seq 0 n) = 0).
    { induction l as [|x l IH]; intros P Q y Hy; [destruct Hy|]. rewrite rsum_cons in Q. pose proof (P x (or_introl eq_refl)) as P0.
      assert (P1 : 0 <= rsum (fun i => rsum (fun j => hcenter n K i j * hcenter n K i j) (seq 0 n)) l) by (apply rsum_nonneg; intros; apply P; now right).
      destruct Hy as [-> | Hy]; [lra|]. apply IH; [intros; apply P; now right|lra|exact Hy]. }
    apply (rsum_sq_0 (fun j => hcenter n K i j) (seq 0 n)); [|now apply in_seq0]. apply (RW (seq 0 n)); [|exact V|now apply in_seq0]. intros k _. apply rsum_nonneg. intros. exact (Rle_0_sqr _). }
  assert (D1 : forall i, K i i = 1) by (intros i; apply (C194_kernel d X w i i Hw); reflexivity).
  assert (SY : forall i j, K i j = K j i) by (intros; apply rbf_sym).
  assert (CR : forall i, colsum n K i = rowsum n K i) by (intros; apply rsum_ext; intros; apply SY).
  assert (NE : INR n <> 0) by lra.
  assert (E1 : K a b = 1).
  { pose proof (Z0 a a Ha Ha) as Ea. pose proof (Z0 b b Hb Hb) as Eb. pose proof (Z0 a b Ha Hb) as Eab. unfold hcenter in *. rewrite D1, CR in Ea, Eb. rewrite CR in Eab.
    set (ra := rowsum n K a) in *. set (rb := rowsum n K b) in *. set (t := msum n K / INR n ^ 2) in *. unfold Rdiv in *. set (u := / INR n) in *.
    replace ((rb + ra) * u) with (ra * u + rb * u) in Eab by ring. replace ((ra + ra) * u) with (2 * (ra * u)) in Ea by ring. replace ((rb + rb) * u) with (2 * (rb * u)) in Eb by ring. lra. }
  destruct (C194_kernel d X w a b Hw) as (_ & _ & [F _]). now apply F.
Qed.
(** The statistic returned by the test is never negative. *)
Lemma usable_some w v : usable w = Some v -> w = Some v /\ v <> 0.
Proof. unfold usable. destruct w as [x|]; [|discriminate]. destruct (Req_EM_T x 0); [discriminate|]. intros [= <-]. auto. Qed.
Theorem C195_test_statistic : forall cdf bw n dx dy X Y st p, hsic_test_gamma cdf bw n dx dy X Y = Some (Some st, p) -> 0 <= st /\
  exists wx wy, width_by bw n dx X = Some wx /\ width_by bw n dy Y = Some wy /\ st = hsic_of n dx dy X Y wx wy.
Proof.
  intros cdf bw n dx dy X Y st p H. unfold hsic_test_gamma in H. destruct (Nat.ltb_spec n 4) as [|H4]; [discriminate|].
  destruct (usable (width_by bw n dx X)) as [wx|] eqn:EX; [|discriminate]. destruct (usable (width_by bw n dy Y)) as [wy|] eqn:EY; [|discriminate].
  apply usable_some in EX, EY. destruct EX as [EX NX], EY as [EY NY]. injection H as E _. fold (hsic_of n dx dy X Y wx wy) in E. split.
  - rewrite <- E. apply C195_nonneg; [lia|assumption..].
  - exists wx, wy. auto.
Qed.
(** ** C186, C187: the statistics of the kernel tests are not negative either *)
Definition kernel_ok (median : list R -> R) (n d : nat) (k : kernel) (X : data) : Prop :=
  match k with Gaussian (Manual w) => w <> 0 | Gaussian Median => median (pos_dists n d X) <> 0 | _ => True end.
Lemma lgram_linear d X : lgram (linear_k d X). Proof. apply lgram_of, gram_rdot. Qed.
Lemma lgram_poly g d X : lgram (polynomial_k g d X).
Proof. apply lgram_of. unfold polynomial_k. apply (gram_pow (fun a b => 1 + rdot d (X a) (X b))). exact (gram_plus _ _ gram_1 (gram_rdot d X)). Qed.
Lemma theta_median_ok median n d X : median (pos_dists n d X) <> 0 -> 0 <= theta_median median n d X.
Proof. intros H. unfold theta_median. left. apply inv_sq_pos. apply Rmult_integral_contrapositive_currified; [|exact H]. pose proof Rlt_sqrt2_0. lra. Qed.
Lemma lgram_kernel median n d k X : kernel_ok median n d k X -> lgram (kernel_of median n d k X).
Proof.
  destruct k as [[w| |]| |g]; cbn [kernel_ok kernel_of]; intros H; [| | |apply lgram_linear|apply lgram_poly]; apply lgram_gaussian.
  - pose proof (inv_sq_pos w H). lra.
  - now apply theta_median_ok.
  - unfold theta_hsic. apply Rmult_le_pos; [|apply pos_INR]. left. apply inv_sq_pos. destruct (Nat.ltb n 200), (Nat.ltb n 1200); lra.
Qed.
Lemma center_both n K : (0 < n)%nat -> symmetric n K -> forall i j, (i < n)%nat -> (j < n)%nat -> center n K i j = both n (centering n) K i j.
Proof.
  intros Hn HS i j Hi Hj. rewrite both_center by assumption. destruct (C185_centering n K Hn HS) as (E & _). destruct (C194_centering n K Hn) as (E2 & _). rewrite E, E2 by assumption. reflexivity.
Qed.
Theorem C186_nonneg : forall median gsf n kx ky dx dy X Y, (0 < n)%nat -> kernel_ok median n dx kx X -> kernel_ok median n dy ky Y -> 0 <= snd (kci_u median gsf n kx ky dx dy X Y).
Proof.
  intros median gsf n kx ky dx dy X Y Hn OX OY. unfold kci_u. cbn [snd].
  rewrite (stat_congr n _ (both n (centering n) (kernel_of median n dx kx X)) _ (both n (centering n) (kernel_of median n dy ky Y))) by (intros; apply center_both; auto; apply C185_kernels_symmetric).
  apply lgram_stat_nonneg; apply lgram_both; now apply lgram_kernel.
Qed.
Definition kernel_c_ok (median : list R -> R) (n dz d : nat) (k : kernel) (X : data) : Prop := kernel_ok median n d k X /\ (k = Gaussian Empirical -> (0 < dz)%nat).
Lemma lgram_kernel_c median n dz d k X : kernel_c_ok median n dz d k X -> lgram (kernel_c median n dz d k X).
Proof.
  intros [H HZ]. destruct k as [[w| |]| |g]; cbn [kernel_ok kernel_c] in *; [| | |apply lgram_linear|apply lgram_poly]; apply lgram_gaussian.
  - pose proof (inv_sq_pos w H). lra.
  - now apply theta_median_ok.
  - unfold theta_kci. specialize (HZ eq_refl). unfold Rdiv at 1. apply Rmult_le_pos; [|left; apply Rinv_0_lt_compat, lt_0_INR; lia]. left. apply inv_sq_pos. destruct (Nat.ltb n 200), (Nat.ltb n 1200); lra.
Qed.
Lemma kernel_c_sym median n dz d k X : symmetric n (kernel_c median n dz d k X).
Proof.
  intros i j _ _. assert (SQ : sqdist d X i j = sqdist d X j i) by (unfold sqdist; apply rsum_ext; intros; ring).
  assert (DT : rdot d (X i) (X j) = rdot d (X j) (X i)) by (unfold rdot; apply rsum_ext; intros; ring).
  destruct k as [[w| |]| |g]; cbn [kernel_c]; unfold gaussian, linear_k, polynomial_k; rewrite ?SQ, ?DT; reflexivity.
Qed.
Lemma sandwich_both n Rz K : symmetric n Rz -> forall i j, (i < n)%nat -> (j < n)%nat -> sandwich n Rz K i j = both n Rz K i j.
Proof. intros HS i j Hi Hj. unfold sandwich, mmul, both. apply rsum_ext. intros k _. rewrite <- rsum_mult. apply rsum_ext. intros l Hl. apply in_seq0 in Hl. rewrite (HS j l) by assumption. ring. Qed.
(** [pinv] has a symmetric value at a symmetric matrix, as the pseudo-inverse has. *)
Definition pinv_symmetric (n : nat) (pinv : nat -> rmat -> rmat) : Prop := forall A, symmetric n A -> symmetric n (pinv n A).
Theorem C187_nonneg : forall median pinv n kx ky kz dx dy dz X Y Z0, (0 < n)%nat -> pinv_symmetric n pinv ->
  kernel_c_ok median n dz (dx + dz) kx (with_z dx (zscore n X) (zscore n Z0)) -> kernel_c_ok median n dz dy ky (zscore n Y) -> 0 <= fst (fst (kci_c median pinv n kx ky kz dx dy dz X Y Z0)).
Proof.
  intros median pinv n kx ky kz dx dy dz X Y Z0 Hn HP OX OY. unfold kci_c. cbv zeta. cbn [fst].
  set (Kx := kernel_c median n dz (dx + dz) kx (with_z dx (zscore n X) (zscore n Z0))) in *. set (Ky := kernel_c median n dz dy ky (zscore n Y)) in *. set (Kz := kernel_c median n dz dz kz (zscore n Z0)).
  set (Rz := regressor pinv n (1 / 1000) (center n Kz)).
  assert (SR : symmetric n Rz).
  { intros i j Hi Hj. unfold Rz, regressor. f_equal. apply HP; [|assumption..]. intros a b Ha Hb. f_equal; [|now rewrite (eye_in a)]. apply (C185_centering n Kz Hn (kernel_c_sym _ _ _ _ _ _)); assumption. }
  assert (BC : forall K, symmetric n K -> forall i j, (i < n)%nat -> (j < n)%nat -> both n Rz (center n K) i j = both n Rz (both n (centering n) K) i j).
  { intros K HK i j Hi Hj. unfold both at 1 2. apply rsum_ext. intros k Hk. apply rsum_ext. intros l Hl. apply in_seq0 in Hk, Hl. now rewrite center_both. }
  rewrite (stat_congr n _ (both n Rz (both n (centering n) Kx)) _ (both n Rz (both n (centering n) Ky))).
  - apply lgram_stat_nonneg; apply lgram_both, lgram_both; now apply lgram_kernel_c.
  - intros i j Hi Hj. rewrite sandwich_both by assumption. apply BC; [apply kernel_c_sym|assumption..].
  - intros i j Hi Hj. rewrite sandwich_both by assumption. apply BC; [apply kernel_c_sym|assumption..].
Qed.
Lemma pinv_symmetric_met : pinv_symmetric 3 (fun _ A i j => adj3 A i j / det3 A).
Proof.
  intros A H i j Hi Hj. unfold adj3. pose proof (H 0%nat 1%nat ltac:(lia) ltac:(lia)) as H01. pose proof (H 0%nat 2%nat ltac:(lia) ltac:(lia)) as H02. pose proof (H 1%nat 2%nat ltac:(lia) ltac:(lia)) as H12.
  unfold Rdiv. f_equal. destruct i as [|[|[|i]]], j as [|[|[|j]]]; try lia; try reflexivity; cbn; rewrite <- ?H01, <- ?H02, <- ?H12; ring.
Qed.
