(** C185 centering, C186 KCI_UInd, C187 KCI_CInd, C188 ANM, C189 PNL. *)
From Verif Require Import Base UtilsModel BICModel BICProofs EffectModel VARModel VARProofs ChisqProps CALMProofs KCIModel KCIProofs.
From Coq Require Import Permutation Reals Lra.
Local Open Scope R_scope.

(** ** C185: the centered kernel matrix *)
Definition symmetric (n : nat) (K : rmat) : Prop := forall i j, (i < n)%nat -> (j < n)%nat -> K i j = K j i.
(** The centering matrix I - 1/n. *)
Definition centering (n : nat) : rmat := fun i j => eye i j - 1 / INR n.
Lemma mul_centering n K i j : (0 < n)%nat -> (j < n)%nat -> mmul n K (centering n) i j = K i j - rsum (fun k => K i k) (seq 0 n) / INR n.
Proof.
  intros Hn Hj. unfold mmul, centering. rewrite (rsum_ext _ (fun k => eye j k * K i k - (1 / INR n) * K i k)) by (intros; rewrite (eye_in j); ring). rewrite rsum_minus, rsum_mult, (rsum_eye n j (fun k => K i k)) by exact Hj. change (rsum (K i) (seq 0 n)) with (rsum (fun k => K i k) (seq 0 n)). generalize (rsum (fun k => K i k) (seq 0 n)). intros r. unfold Rdiv. ring.
Qed.
Lemma centering_mul n K i j : (0 < n)%nat -> (i < n)%nat -> mmul n (centering n) K i j = K i j - rsum (fun k => K k j) (seq 0 n) / INR n.
Proof.
  intros Hn Hi. unfold mmul, centering. rewrite (rsum_ext _ (fun k => eye i k * K k j - (1 / INR n) * K k j)) by (intros; ring). rewrite rsum_minus, rsum_mult, (rsum_eye n i (fun k => K k j)) by exact Hi. unfold Rdiv. ring.
Qed.
Theorem C185_centering : forall n K, (0 < n)%nat -> symmetric n K ->
  (forall i j, (i < n)%nat -> (j < n)%nat -> center n K i j = mmul n (centering n) (mmul n K (centering n)) i j) /\
  symmetric n (center n K) /\
  forall i, (i < n)%nat -> rsum (center n K i) (seq 0 n) = 0.
Proof.
  intros n K Hn HS. assert (NP : INR n <> 0) by (apply not_0_INR; lia).
  assert (ROW : forall i, (i < n)%nat -> rsum (fun k => K i k) (seq 0 n) = colsum n K i) by (intros i Hi; apply rsum_ext; intros k Hk; apply in_seq0 in Hk; now apply HS).
  split; [|split].
  - intros i j Hi Hj. rewrite centering_mul, mul_centering by assumption. rewrite ROW by exact Hi.
    rewrite (rsum_ext _ (fun k => K k j - (1 / INR n) * colsum n K k)) by (intros k Hk; apply in_seq0 in Hk; rewrite mul_centering, ROW by assumption; field; exact NP).
    rewrite rsum_minus, rsum_mult. fold (colsum n K j). unfold center. field. exact NP.
  - intros i j Hi Hj. unfold center. rewrite (HS i j Hi Hj). f_equal. f_equal. f_equal. ring.
  - intros i Hi. unfold center. rewrite (rsum_ext _ (fun j => (K i j - (1 / INR n) * colsum n K j) + (rsum (colsum n K) (seq 0 n) / INR n ^ 2 - colsum n K i / INR n))) by (intros; field; exact NP).
    rewrite rsum_plus, rsum_minus, rsum_mult, rsum_const, seq_length, ROW by exact Hi. field. exact NP.
Qed.
(** The kernel matrices are symmetric, whatever the kernel and its width. *)
Theorem C185_kernels_symmetric : forall median n d k X, symmetric n (kernel_of median n d k X).
Proof.
  intros median n d k X i j _ _. assert (SQ : forall Y, sqdist d Y i j = sqdist d Y j i) by (intros Y; unfold sqdist; apply rsum_ext; intros; ring).
  assert (DT : forall Y : data, rdot d (Y i) (Y j) = rdot d (Y j) (Y i)) by (intros Y; unfold rdot; apply rsum_ext; intros; ring).
  destruct k as [[w| |]| |g]; cbn [kernel_of]; unfold gaussian, linear_k, polynomial_k; rewrite ?(SQ (zscore n X)), ?(DT (zscore n X)); reflexivity.
Qed.

(** ** C186: the unconditional test *)
(** Exchanging the variables (and their kernels) changes neither the p-value nor the statistic. *)
Theorem C186_symmetric : forall median gsf n kx ky dx dy X Y, kci_u median gsf n ky kx dy dx Y X = kci_u median gsf n kx ky dx dy X Y.
Proof.
  intros median gsf n kx ky dx dy X Y. unfold kci_u. set (A := center n (kernel_of median n dx kx X)). set (B := center n (kernel_of median n dy ky Y)).
  assert (E1 : v_statistic n B A = v_statistic n A B) by (unfold v_statistic, msum; apply rsum_ext; intros; apply rsum_ext; intros; ring).
  assert (E2 : mean_appr n B A = mean_appr n A B) by (unfold mean_appr, Rdiv; ring). assert (E3 : var_appr n B A = var_appr n A B) by (unfold var_appr, Rdiv; ring).
  unfold kappa. now rewrite E1, E2, E3.
Qed.
(** Reordering the samples changes nothing. *)
Theorem C186_sample_order : forall median gsf n sg kx ky dx dy X Y, shuffle n sg -> (forall l m, Permutation l m -> median l = median m) ->
  kci_u median gsf n kx ky dx dy (fun s => X (sg s)) (fun s => Y (sg s)) = kci_u median gsf n kx ky dx dy X Y.
Proof. intros median gsf n sg kx ky dx dy X Y SH HM. apply (rel_kci n sg SH); now apply sh_kernel. Qed.
(** Shifting and rescaling columns (change of units) changes nothing, unless the median rule is used. *)
Theorem C186_units_partial : forall median gsf n kx ky dx dy a b a' b' X Y, (0 < n)%nat -> (forall c, (c < dx)%nat -> a c <> 0) -> (forall c, (c < dy)%nat -> a' c <> 0) ->
  kx <> Gaussian Median -> ky <> Gaussian Median ->
  kci_u median gsf n kx ky dx dy (fun s c => a c * X s c + b c) (fun s c => a' c * Y s c + b' c) = kci_u median gsf n kx ky dx dy X Y.
Proof. intros median gsf n kx ky dx dy a b a' b' X Y Hn Ha Ha' Hx Hy. apply (rel_kci n (fun i => i) (shuffle_id n)); now apply rescaled_kernel. Qed.
(** The p-values are in [0, 1]. *)
Theorem C186_p_range : forall median gsf n kx ky dx dy X Y p, (forall s k t, 0 <= gsf s k t <= 1) -> fst (kci_u median gsf n kx ky dx dy X Y) = Some p -> 0 <= p <= 1.
Proof. intros median gsf n kx ky dx dy X Y p HG. unfold kci_u. cbn [fst]. destruct (kappa _ _ _) as [[k t]|]; [|discriminate]. intros E. injection E as <-. apply HG. Qed.
Lemma filter_len {A} (f : A -> bool) l : (length (filter f l) <= length l)%nat.
Proof. induction l as [|x l IH]; cbn [filter length]; [lia|]. destruct (f x); cbn [length]; lia. Qed.
Theorem C186_spectral_p_range : forall null stat, null <> [] -> 0 <= spectral_p (length null) null stat <= 1 /\
  (spectral_p (length null) null stat = 0 <-> forall x, In x null -> x <= stat) /\ (spectral_p (length null) null stat = 1 <-> forall x, In x null -> stat < x).
Proof.
  intros null stat NE. assert (LP : 0 < INR (length null)) by (apply lt_0_INR; destruct null; [now contradiction NE|cbn; lia]). unfold spectral_p.
  set (f := fun x => if Rlt_dec stat x then true else false). pose proof (filter_len f null) as FL. pose proof (le_INR _ _ FL) as FI. pose proof (pos_INR (length (filter f null))) as FP.
  split; [split; [apply Rmult_le_pos; [exact FP|left; now apply Rinv_0_lt_compat]|apply Rmult_le_reg_r with (INR (length null)); [exact LP|]; unfold Rdiv; rewrite Rmult_assoc, Rinv_l by lra; lra]|]. split; split.
  - intros Z x Hx. apply Rmult_integral in Z. destruct Z as [Z|Z]; [|exfalso; apply Rinv_0_lt_compat in LP; lra]. destruct (Rlt_dec stat x) as [L|L]; [|lra]. exfalso. apply (INR_eq _ 0) in Z. apply length_zero_iff_nil in Z.
    assert (I : In x (filter f null)) by (apply filter_In; split; [exact Hx|]; unfold f; now destruct (Rlt_dec stat x)). rewrite Z in I. destruct I.
  - intros H. assert (Z : filter f null = []); [|rewrite Z; cbn; unfold Rdiv; ring]. clear - H. induction null as [|x l IH]; [reflexivity|]. cbn [filter]. specialize (H x (or_introl eq_refl)) as Hx. unfold f at 1. destruct (Rlt_dec stat x); [lra|]. apply IH. intros; apply H; now right.
  - intros Z x Hx. destruct (Rlt_dec stat x) as [L|L]; [exact L|exfalso]. assert (LT : (length (filter f null) < length null)%nat).
    { apply in_split in Hx. destruct Hx as (l1 & l2 & ->). rewrite filter_app, !app_length. cbn [filter length]. unfold f at 2. destruct (Rlt_dec stat x); [contradiction|]. pose proof (filter_len f l1). pose proof (filter_len f l2). lia. }
    apply lt_INR in LT. apply (Rmult_eq_compat_r (INR (length null))) in Z. unfold Rdiv in Z. rewrite Rmult_assoc, Rinv_l in Z by lra. lra.
  - intros H. assert (Z : filter f null = null); [|rewrite Z; field; lra]. clear - H. induction null as [|x l IH]; [reflexivity|]. cbn [filter]. specialize (H x (or_introl eq_refl)) as Hx. unfold f at 1. destruct (Rlt_dec stat x); [|lra]. f_equal. apply IH. intros; apply H; now right.
Qed.
Lemma zscore_const n X c s : (s < n)%nat -> (forall t, (t < n)%nat -> X t c = X 0%nat c) -> zscore n X s c = 0.
Proof.
  intros Hs HX. assert (NP : INR n <> 0) by (apply not_0_INR; lia). unfold zscore. assert (M : cmean n X c = X 0%nat c).
  { unfold cmean. rewrite (rsum_ext _ (fun _ => X 0%nat c)) by (intros t Ht; apply in_seq0 in Ht; now apply HX). rewrite rsum_const, seq_length. field. exact NP. }
  rewrite M. destruct (Req_EM_T _ _); [reflexivity|]. rewrite HX by exact Hs. unfold Rdiv. ring.
Qed.
(** A constant variable: the p-value is NaN (its comparison with any level is false, so the variable counts as dependent on everything). *)
Theorem C186_constant_refuted : forall median gsf n kx ky dx dy X Y, (0 < n)%nat -> (forall s c, (s < n)%nat -> (c < dx)%nat -> X s c = X 0%nat c) ->
  fst (kci_u median gsf n kx ky dx dy X Y) = None.
Proof.
  intros median gsf n kx ky dx dy X Y Hn HX. assert (NP : INR n <> 0) by (apply not_0_INR; lia). unfold kci_u. cbn [fst].
  assert (KC : exists k0, forall i j, (i < n)%nat -> (j < n)%nat -> kernel_of median n dx kx X i j = k0).
  { assert (SQ : forall i j, (i < n)%nat -> (j < n)%nat -> sqdist dx (zscore n X) i j = 0).
    { intros i j Hi Hj. unfold sqdist. rewrite (rsum_ext _ (fun _ => 0)), rsum_0; [reflexivity|]. intros c Hc. apply in_seq0 in Hc. rewrite !zscore_const by (auto; intros; now apply HX). ring. }
    assert (DT : forall i j, (i < n)%nat -> (j < n)%nat -> rdot dx (zscore n X i) (zscore n X j) = 0).
    { intros i j Hi Hj. unfold rdot. rewrite (rsum_ext _ (fun _ => 0)), rsum_0; [reflexivity|]. intros c Hc. apply in_seq0 in Hc. rewrite !zscore_const by (auto; intros; now apply HX). ring. }
    destruct kx as [[w| |]| |g]; cbn [kernel_of]; unfold gaussian, linear_k, polynomial_k; eexists; intros i j Hi Hj; rewrite ?SQ, ?DT by assumption; rewrite ?Rmult_0_r, ?Rmult_0_l; reflexivity. }
  destruct KC as (k0 & KC). assert (CZ : forall i j, (i < n)%nat -> (j < n)%nat -> center n (kernel_of median n dx kx X) i j = 0).
  { intros i j Hi Hj. assert (CS : forall j, (j < n)%nat -> colsum n (kernel_of median n dx kx X) j = INR n * k0) by (intros q Hq; unfold colsum; rewrite (rsum_ext _ (fun _ => k0)) by (intros k Hk; apply in_seq0 in Hk; now apply KC); now rewrite rsum_const, seq_length).
    unfold center. rewrite KC, !CS by assumption. rewrite (rsum_ext _ (fun _ => INR n * k0)) by (intros k Hk; apply in_seq0 in Hk; now apply CS). rewrite rsum_const, seq_length. field. exact NP. }
  unfold kappa. destruct (Req_EM_T _ 0) as [|Q]; [reflexivity|]. exfalso. apply Q. unfold var_appr. assert (Z : msum n (fun i j => center n (kernel_of median n dx kx X) i j ^ 2) = 0); [|rewrite Z; unfold Rdiv; ring].
  unfold msum. rewrite (rsum_ext _ (fun _ => 0)), rsum_0; [reflexivity|]. intros i Hi. apply in_seq0 in Hi. rewrite (rsum_ext _ (fun _ => 0)), rsum_0; [reflexivity|]. intros j Hj. apply in_seq0 in Hj. rewrite CZ by assumption. ring.
Qed.
(** The median rule finds the width before the data are normalised: in other units every entry of the kernel matrix is raised to the power 1 / u^2. *)
Theorem C186_median_units_refuted : forall median n d X u b, 0 < u -> (forall l, median (map (Rmult u) l) = u * median l) -> 0 < median (pos_dists n d X) -> (0 < n)%nat ->
  forall i j, kernel_of median n d (Gaussian Median) (fun s c => u * X s c + b c) i j = exp (ln (kernel_of median n d (Gaussian Median) X i j) / u ^ 2).
Proof.
  intros median n d X u b Hu HM HP Hn i j. change (fun s c => u * X s c + b c) with (rescaled (fun _ => u) b X). cbn [kernel_of]. unfold gaussian. rewrite ln_exp. f_equal.
  assert (SQ : forall a q, sqdist d (rescaled (fun _ => u) b X) a q = u * u * sqdist d X a q) by (intros a q; unfold sqdist, rescaled; rewrite <- rsum_mult; apply rsum_ext; intros; ring).
  assert (ZS : sqdist d (zscore n (rescaled (fun _ => u) b X)) i j = sqdist d (zscore n X) i j).
  { unfold sqdist. apply rsum_ext. intros c Hc. rewrite !(zscore_rescaled n (fun _ => u) b X) by (auto; lra). unfold sgn. destruct (Rlt_dec u 0); [lra|]. ring. }
  rewrite ZS. assert (PD : pos_dists n d (rescaled (fun _ => u) b X) = map (Rmult u) (pos_dists n d X)).
  { unfold pos_dists. set (l := flat_map (fun a => map (fun b0 => sqrt (sqdist d X a b0)) (seq 0 n)) (seq 0 n)).
    assert (E : flat_map (fun a => map (fun b0 => sqrt (sqdist d (rescaled (fun _ => u) b X) a b0)) (seq 0 n)) (seq 0 n) = map (Rmult u) l).
    { unfold l. clear l. generalize (seq 0 n) at 2 4 as l. induction l as [|a l IH]; [reflexivity|]. cbn [flat_map]. rewrite map_app, IH, map_map. f_equal. apply map_ext. intros q. rewrite SQ, sqrt_mult_alt by nra. now rewrite sqrt_square by lra. }
    rewrite E. clear - Hu. induction l as [|x l IH]; [reflexivity|]. cbn [map filter]. destruct (Rlt_dec 0 (u * x)) as [A|A], (Rlt_dec 0 x) as [B|B]; cbn [map]; rewrite ?IH; try reflexivity; exfalso.
    - apply B. apply Rmult_lt_reg_l with u; lra.
    - apply A. nra. }
  unfold theta_median. rewrite PD, HM. assert (S2 : 0 < sqrt 2) by (apply sqrt_lt_R0; lra). field. repeat split; apply Rgt_not_eq; lra.
Qed.

(** ** C187: the conditional test *)
(** numpy.linalg.pinv does not depend on the order of the rows, and is the inverse of an invertible matrix. *)
Definition pinv_ordered (pinv : nat -> rmat -> rmat) : Prop := forall n sg A' A, shuffle n sg -> related n sg A' A -> related n sg (pinv n A') (pinv n A).
Definition pinv_inverts (n : nat) (pinv : nat -> rmat -> rmat) : Prop := forall A B,
  (forall i j, (i < n)%nat -> (j < n)%nat -> mmul n A B i j = eye i j) -> (forall i j, (i < n)%nat -> (j < n)%nat -> mmul n B A i j = eye i j) ->
  forall i j, (i < n)%nat -> (j < n)%nat -> pinv n A i j = B i j.
(** The columns of D' are those of D, reordered by sg, up to sign. *)
Definition signed (n : nat) (sg : nat -> nat) (d : nat) (D' D : data) : Prop :=
  exists e : nat -> R, (forall c, (c < d)%nat -> e c * e c = 1) /\ forall s c, (s < n)%nat -> (c < d)%nat -> D' s c = e c * D (sg s) c.
Section Sg.
Variables (n : nat) (sg : nat -> nat).
Hypothesis SH : shuffle n sg.
Lemma signed_sqdist d D' D a b : signed n sg d D' D -> (a < n)%nat -> (b < n)%nat -> sqdist d D' a b = sqdist d D (sg a) (sg b).
Proof.
  intros (e & E1 & E2) Ha Hb. unfold sqdist. apply rsum_ext. intros c Hc. apply in_seq0 in Hc. rewrite !E2 by assumption. specialize (E1 c Hc).
  set (u := D (sg a) c). set (v := D (sg b) c). replace ((e c * u - e c * v) * (e c * u - e c * v)) with ((e c * e c) * ((u - v) * (u - v))) by ring. rewrite E1. ring.
Qed.
Lemma signed_dot d D' D a b : signed n sg d D' D -> (a < n)%nat -> (b < n)%nat -> rdot d (D' a) (D' b) = rdot d (D (sg a)) (D (sg b)).
Proof.
  intros (e & E1 & E2) Ha Hb. unfold rdot. apply rsum_ext. intros c Hc. apply in_seq0 in Hc. rewrite !E2 by assumption. specialize (E1 c Hc).
  set (u := D (sg a) c). set (v := D (sg b) c). replace (e c * u * (e c * v)) with ((e c * e c) * (u * v)) by ring. rewrite E1. ring.
Qed.
Lemma signed_dists d D' D : signed n sg d D' D -> Permutation (pos_dists n d D') (pos_dists n d D).
Proof.
  intros HS. assert (E : pos_dists n d D' = pos_dists n d (fun s c => D (sg s) c)); [|rewrite E; now apply sh_dists].
  unfold pos_dists. f_equal. apply flat_map_ext'. intros a Ha. apply map_ext_in. intros b Hb. apply in_seq0 in Ha, Hb. f_equal. now apply signed_sqdist.
Qed.
Lemma signed_kernel median dz d k D' D : (forall l m, Permutation l m -> median l = median m) -> signed n sg d D' D ->
  related n sg (kernel_c median n dz d k D') (kernel_c median n dz d k D).
Proof.
  intros HM HS i j Hi Hj. destruct k as [[w| |]| |g]; cbn [kernel_c]; unfold gaussian, linear_k, polynomial_k; rewrite ?(signed_sqdist d D' D), ?(signed_dot d D' D) by assumption; try reflexivity.
  unfold theta_median. now rewrite (HM _ _ (signed_dists d D' D HS)).
Qed.
Lemma signed_with_z dx dz X' X Z' Z0 : signed n sg dx X' X -> signed n sg dz Z' Z0 -> signed n sg (dx + dz) (with_z dx X' Z') (with_z dx X Z0).
Proof.
  intros (e & E1 & E2) (f & F1 & F2). exists (fun c => if Nat.ltb c dx then e c else f (c - dx)%nat). split.
  - intros c Hc. destruct (Nat.ltb_spec c dx); [now apply E1|apply F1; lia].
  - intros s c Hs Hc. unfold with_z. destruct (Nat.ltb_spec c dx); [now apply E2|]. rewrite F2 by lia. ring.
Qed.
Lemma rel_mmul A' A B' B : related n sg A' A -> related n sg B' B -> related n sg (mmul n A' B') (mmul n A B).
Proof. intros HA HB i j Hi Hj. unfold mmul. apply (sh_sum' n sg SH). intros k Hk. now rewrite HA, HB. Qed.
Lemma sg_inj i j : (i < n)%nat -> (j < n)%nat -> sg i = sg j -> i = j.
Proof.
  intros Hi Hj E. pose proof (Permutation_NoDup (Permutation_sym SH) (seq_NoDup n 0)) as ND.
  assert (N1 : nth i (map sg (seq 0 n)) (sg 0) = sg i) by (rewrite map_nth, seq_nth by exact Hi; reflexivity).
  assert (N2 : nth j (map sg (seq 0 n)) (sg 0) = sg j) by (rewrite map_nth, seq_nth by exact Hj; reflexivity).
  apply (proj1 (NoDup_nth (map sg (seq 0 n)) (sg 0)) ND); rewrite ?map_length, ?seq_length; [exact Hi|exact Hj|]. congruence.
Qed.
Lemma rel_regressor pinv eps K' K : pinv_ordered pinv -> related n sg K' K -> related n sg (regressor pinv n eps K') (regressor pinv n eps K).
Proof.
  intros PO HK i j Hi Hj. unfold regressor. f_equal. apply (PO n sg); [exact SH| |exact Hi|exact Hj].
  intros a b Ha Hb. rewrite HK by assumption. f_equal. f_equal. unfold eye. destruct (Nat.eqb_spec a b) as [->|NE]; [now rewrite Nat.eqb_refl|]. destruct (Nat.eqb_spec (sg a) (sg b)) as [E|_]; [|reflexivity]. contradiction NE. now apply sg_inj.
Qed.
Lemma signed_kci median pinv kx ky kz dx dy dz X' X Y' Y Z' Z0 : (forall l m, Permutation l m -> median l = median m) -> pinv_ordered pinv ->
  signed n sg dx (zscore n X') (zscore n X) -> signed n sg dy (zscore n Y') (zscore n Y) -> signed n sg dz (zscore n Z') (zscore n Z0) ->
  let '(v', A', B') := kci_c median pinv n kx ky kz dx dy dz X' Y' Z' in let '(v, A, B) := kci_c median pinv n kx ky kz dx dy dz X Y Z0 in
  v' = v /\ related n sg A' A /\ related n sg B' B.
Proof.
  intros HM PO HX HY HZ. unfold kci_c.
  assert (RZ : related n sg (regressor pinv n (1 / 1000) (center n (kernel_c median n dz dz kz (zscore n Z')))) (regressor pinv n (1 / 1000) (center n (kernel_c median n dz dz kz (zscore n Z0))))) by (apply rel_regressor, rel_center, signed_kernel; auto).
  match goal with |- _ = _ /\ related _ _ ?A' ?A /\ related _ _ ?B' ?B => assert (RA : related n sg A' A); [|assert (RB : related n sg B' B); [|split; [now apply (rel_stat n sg SH)|split; assumption]]] end.
  - apply rel_mmul; [exact RZ|]. apply rel_mmul; [|exact RZ]. apply rel_center; [exact SH|]. apply signed_kernel; [exact HM|]. now apply signed_with_z.
  - apply rel_mmul; [exact RZ|]. apply rel_mmul; [|exact RZ]. apply rel_center; [exact SH|]. now apply signed_kernel.
Qed.
End Sg.
(** Reordering the samples does not change the statistic, and reorders the matrices (whose eigenvalues give the null distribution). *)
Theorem C187_sample_order : forall median pinv n sg kx ky kz dx dy dz X Y Z0, shuffle n sg -> (forall l m, Permutation l m -> median l = median m) -> pinv_ordered pinv ->
  let '(v', A', B') := kci_c median pinv n kx ky kz dx dy dz (fun s => X (sg s)) (fun s => Y (sg s)) (fun s => Z0 (sg s)) in
  let '(v, A, B) := kci_c median pinv n kx ky kz dx dy dz X Y Z0 in
  v' = v /\ related n sg A' A /\ related n sg B' B.
Proof.
  intros median pinv n sg kx ky kz dx dy dz X Y Z0 SH HM PO.
  assert (SZ : forall d D, signed n sg d (zscore n (fun s => D (sg s))) (zscore n D)) by (intros d D; exists (fun _ => 1); split; [intros; ring|]; intros s c _ _; change (fun s => D (sg s)) with (fun s c => D (sg s) c); rewrite (sh_zscore n sg SH); ring).
  apply signed_kci; auto.
Qed.
(** Shifting and rescaling any columns changes nothing, whatever the kernels: unlike the unconditional test, the widths are found after normalising. *)
Theorem C187_units : forall median pinv n kx ky kz dx dy dz a b a' b' a'' b'' X Y Z0, (0 < n)%nat -> (forall l m, Permutation l m -> median l = median m) -> pinv_ordered pinv ->
  (forall c, (c < dx)%nat -> a c <> 0) -> (forall c, (c < dy)%nat -> a' c <> 0) -> (forall c, (c < dz)%nat -> a'' c <> 0) ->
  let '(v', A', B') := kci_c median pinv n kx ky kz dx dy dz (fun s c => a c * X s c + b c) (fun s c => a' c * Y s c + b' c) (fun s c => a'' c * Z0 s c + b'' c) in
  let '(v, A, B) := kci_c median pinv n kx ky kz dx dy dz X Y Z0 in
  v' = v /\ forall i j, (i < n)%nat -> (j < n)%nat -> A' i j = A i j /\ B' i j = B i j.
Proof.
  intros median pinv n kx ky kz dx dy dz a b a' b' a'' b'' X Y Z0 Hn HM PO Ha Ha' Ha''.
  assert (SZ : forall d f g D, (forall c, (c < d)%nat -> f c <> 0) -> signed n (fun i => i) d (zscore n (fun s c => f c * D s c + g c)) (zscore n D)) by (intros d f g D Hf; exists (fun c => sgn (f c)); split; [intros; apply sgn_sq|]; intros s c _ Hc; apply (zscore_rescaled n f g D); auto).
  pose proof (signed_kci n (fun i => i) (shuffle_id n) median pinv kx ky kz dx dy dz _ X _ Y _ Z0 HM PO (SZ dx a b X Ha) (SZ dy a' b' Y Ha') (SZ dz a'' b'' Z0 Ha'')) as H.
  destruct (kci_c median pinv n kx ky kz dx dy dz (fun s c => a c * X s c + b c) (fun s c => a' c * Y s c + b' c) (fun s c => a'' c * Z0 s c + b'' c)) as [[v' A'] B'].
  destruct (kci_c median pinv n kx ky kz dx dy dz X Y Z0) as [[v A] B]. destruct H as (H1 & H2 & H3). split; [exact H1|]. intros i j Hi Hj. split; [now apply H2|now apply H3].
Qed.
(** Half of z is appended to x but not to y, so the test is not symmetric in x and y.  With linear kernels and single variables the two statistics differ by
    a fourth of s^4 times the difference of the squared (uncentered) correlations with z. *)
Lemma zscore_sum n X c : (0 < n)%nat -> rsum (fun s => zscore n X s c) (seq 0 n) = 0.
Proof.
  intros Hn. assert (NP : INR n <> 0) by (apply not_0_INR; lia). unfold zscore. destruct (Req_EM_T _ _); [apply rsum_0|].
  rewrite (rsum_ext _ (fun s => / sqrt (cvar n X c) * (X s c - cmean n X c))) by (intros; unfold Rdiv; ring). rewrite rsum_mult, rsum_minus, rsum_const, seq_length.
  replace (rsum (fun x => X x c) (seq 0 n) - INR n * cmean n X c) with 0; [ring|]. unfold cmean. field. exact NP.
Qed.
Lemma zscore_norm n X c : (1 < n)%nat -> cvar n X c <> 0 -> rsum (fun s => zscore n X s c * zscore n X s c) (seq 0 n) = INR n - 1.
Proof.
  intros Hn Hv. assert (NP : INR (n - 1) <> 0) by (apply not_0_INR; lia). assert (N1 : INR (n - 1) = INR n - 1) by (rewrite minus_INR by lia; reflexivity).
  assert (VP : 0 <= cvar n X c) by (unfold cvar; apply Rmult_le_pos; [apply rsum_nonneg; intros; exact (Rle_0_sqr _)|left; apply Rinv_0_lt_compat, lt_0_INR; lia]).
  unfold zscore. destruct (Req_EM_T _ _); [contradiction|]. rewrite (rsum_ext _ (fun s => / cvar n X c * ((X s c - cmean n X c) * (X s c - cmean n X c)))).
  - rewrite rsum_mult. unfold cvar at 1. rewrite <- N1. set (q := rsum (fun s => (X s c - cmean n X c) * (X s c - cmean n X c)) (seq 0 n)). assert (Q : q <> 0) by (intros Q; apply Hv; unfold cvar; fold q; rewrite Q; unfold Rdiv; ring). field. auto.
  - intros s _. assert (SQ : sqrt (cvar n X c) * sqrt (cvar n X c) = cvar n X c) by now apply sqrt_sqrt. assert (S0 : sqrt (cvar n X c) <> 0) by (intros Q; rewrite Q in SQ; lra). rewrite <- SQ at 3. field. exact S0.
Qed.
Section Lin.
Variable n : nat.
Variables (pinv : nat -> rmat -> rmat) (z : rvec).
Hypothesis Hn : (1 < n)%nat.
Hypothesis PI : pinv_inverts n pinv.
Hypothesis ZS : rsum z (seq 0 n) = 0.
Definition dot (u v : rvec) : R := rsum (fun k => u k * v k) (seq 0 n).
Definition q : R := dot z z + 1 / 1000.
Lemma q_pos : q > 0.
Proof. unfold q. assert (0 <= dot z z) by (apply rsum_nonneg; intros; exact (Rle_0_sqr _)). lra. Qed.
Definition Rz : rmat := fun i j => eye i j - z i * z j / q.
Definition res_z (u : rvec) : rvec := fun i => u i - z i * dot z u / q.
Lemma center_zero K : (forall j, (j < n)%nat -> colsum n K j = 0) -> related n (fun i => i) (center n K) K.
Proof.
  intros HC i j Hi Hj. unfold center. rewrite !HC by assumption. rewrite (rsum_ext _ (fun _ => 0)) by (intros k Hk; apply in_seq0 in Hk; now apply HC). rewrite rsum_0. unfold Rdiv. ring.
Qed.
Lemma regressor_lin Kz : (forall i j, (i < n)%nat -> (j < n)%nat -> Kz i j = z i * z j) -> related n (fun i => i) (regressor pinv n (1 / 1000) Kz) Rz.
Proof.
  intros HK i j Hi Hj. pose proof q_pos as QP. unfold regressor.
  assert (E1 : forall a b, (a < n)%nat -> (b < n)%nat -> rsum (fun k => eye a k * eye k b) (seq 0 n) = eye a b) by (intros a b Ha _; now rewrite (rsum_eye n a (fun k => eye k b))).
  assert (E2 : forall a b, (a < n)%nat -> rsum (fun k => eye a k * (z k * z b)) (seq 0 n) = z a * z b) by (intros a b Ha; now rewrite (rsum_eye n a (fun k => z k * z b))).
  assert (E3 : forall a b, (b < n)%nat -> rsum (fun k => (z a * z k) * eye k b) (seq 0 n) = z a * z b) by (intros a b Hb; rewrite (rsum_ext _ (fun k => eye b k * (z a * z k))) by (intros; rewrite (eye_in b); ring); now rewrite (rsum_eye n b (fun k => z a * z k))).
  assert (E4 : forall a b, rsum (fun k => (z a * z k) * (z k * z b)) (seq 0 n) = z a * z b * dot z z) by (intros a b; unfold dot; rewrite <- rsum_mult; apply rsum_ext; intros; ring).
  rewrite (PI _ (fun i j => 1000 * Rz i j)); try assumption; [unfold Rz; field; lra| |]; intros a b Ha Hb; unfold mmul, Rz.
  - rewrite (rsum_ext _ (fun k => eye a k * eye k b + (- / q) * (eye a k * (z k * z b)) + 1000 * (z a * z k * eye k b) + (- 1000 / q) * ((z a * z k) * (z k * z b)))) by (intros k Hk; apply in_seq0 in Hk; rewrite HK by assumption; field; lra).
    rewrite !rsum_plus, !rsum_mult, E1, E2, E3, E4 by assumption. unfold q in *. set (w := dot z z) in *. field. lra.
  - rewrite (rsum_ext _ (fun k => eye a k * eye k b + 1000 * (eye a k * (z k * z b)) + (- / q) * (z a * z k * eye k b) + (- 1000 / q) * ((z a * z k) * (z k * z b)))) by (intros k Hk; apply in_seq0 in Hk; rewrite HK by assumption; field; lra).
    rewrite !rsum_plus, !rsum_mult, E1, E2, E3, E4 by assumption. unfold q in *. set (w := dot z z) in *. field. lra.
Qed.
Lemma Rz_l u i : (i < n)%nat -> rsum (fun k => Rz i k * u k) (seq 0 n) = res_z u i.
Proof.
  intros Hi. pose proof q_pos as QP. unfold Rz, res_z, dot. rewrite (rsum_ext _ (fun k => eye i k * u k - (z i / q) * (z k * u k))) by (intros; field; lra). rewrite rsum_minus, rsum_mult, rsum_eye by exact Hi. field. lra.
Qed.
Lemma Rz_sym i j : Rz i j = Rz j i. Proof. unfold Rz. rewrite eye_in. pose proof q_pos. field. lra. Qed.
(** The residual matrix of u u' + c v v'. *)
Lemma sandwich_lin c u v K : (forall i j, (i < n)%nat -> (j < n)%nat -> K i j = u i * u j + c * (v i * v j)) ->
  forall i j, (i < n)%nat -> (j < n)%nat -> sandwich n Rz K i j = res_z u i * res_z u j + c * (res_z v i * res_z v j).
Proof.
  intros HK i j Hi Hj. unfold sandwich, mmul.
  rewrite (rsum_ext _ (fun k => res_z u j * (Rz i k * u k) + c * res_z v j * (Rz i k * v k))).
  - rewrite rsum_plus, !rsum_mult, !Rz_l by exact Hi. ring.
  - intros k Hk. apply in_seq0 in Hk. rewrite (rsum_ext _ (fun l => u k * (Rz j l * u l) + c * v k * (Rz j l * v l))) by (intros l Hl; apply in_seq0 in Hl; rewrite HK, (Rz_sym l j) by assumption; ring).
    rewrite rsum_plus, !rsum_mult, !Rz_l by exact Hj. ring.
Qed.
Lemma stat_lin A B a b c d : (forall i j, (i < n)%nat -> (j < n)%nat -> A i j = a i * a j + c * (b i * b j)) -> (forall i j, (i < n)%nat -> (j < n)%nat -> B i j = d i * d j) ->
  v_statistic n A B = dot a d * dot a d + c * (dot b d * dot b d).
Proof.
  intros HA HB. unfold v_statistic, msum, dot.
  rewrite (rsum_ext _ (fun i => dot a d * (a i * d i) + (c * dot b d) * (b i * d i))).
  - rewrite rsum_plus, !rsum_mult. unfold dot. ring.
  - intros i Hi. apply in_seq0 in Hi. rewrite (rsum_ext _ (fun j => (a i * d i) * (a j * d j) + (c * b i * d i) * (b j * d j))) by (intros j Hj; apply in_seq0 in Hj; rewrite HA, HB by assumption; ring).
    rewrite rsum_plus, !rsum_mult. unfold dot. ring.
Qed.
Lemma dot_res_z u : dot (res_z z) (res_z u) = ((1 / 1000) / q) ^ 2 * dot z u.
Proof.
  pose proof q_pos as QP. unfold dot at 1, res_z. rewrite (rsum_ext _ (fun k => ((1 - dot z z / q)) * (z k * u k) - ((1 - dot z z / q) * dot z u / q) * (z k * z k))) by (intros; field; lra).
  rewrite rsum_minus, !rsum_mult. fold (dot z u) (dot z z). unfold q in *. set (w := dot z z) in *. field. lra.
Qed.
End Lin.
Theorem C187_asymmetric_refuted : forall median pinv n X Y Z0, (1 < n)%nat -> pinv_inverts n pinv -> cvar n Z0 0 <> 0 ->
  let stat X Y := fst (fst (kci_c median pinv n Linear Linear Linear 1 1 1 X Y Z0)) in
  let corr X := rsum (fun s => zscore n Z0 s 0%nat * zscore n X s 0%nat) (seq 0 n) in
  let s := (1 / 1000) / (INR n - 1 + 1 / 1000) in
  stat X Y - stat Y X = s ^ 4 / 4 * (corr Y ^ 2 - corr X ^ 2).
Proof.
  intros median pinv n X Y Z0 Hn PI HV stat corr s.
  set (z := fun k => zscore n Z0 k 0%nat). assert (ZS : rsum z (seq 0 n) = 0) by (apply zscore_sum; lia).
  assert (QE : q n z = INR n - 1 + 1 / 1000) by (unfold q, dot, z; now rewrite zscore_norm).
  assert (ST : forall X Y, stat X Y = dot n (res_z n z (fun k => zscore n X k 0%nat)) (res_z n z (fun k => zscore n Y k 0%nat)) ^ 2 + s ^ 4 / 4 * corr Y ^ 2).
  { intros X1 Y1. set (x := fun k => zscore n X1 k 0%nat). set (y := fun k => zscore n Y1 k 0%nat).
    assert (XS : rsum x (seq 0 n) = 0) by (apply zscore_sum; lia). assert (YS : rsum y (seq 0 n) = 0) by (apply zscore_sum; lia).
    unfold stat, kci_c. cbn [fst kernel_c].
    assert (D1 : forall D a b, linear_k 1 D a b = D a 0%nat * D b 0%nat) by (intros; unfold linear_k, rdot; cbn [seq rsum]; unfold rsum; cbn; ring).
    assert (CZ : related n (fun i => i) (center n (linear_k 1 (zscore n Z0))) (fun i j => z i * z j)).
    { intros i j Hi Hj. rewrite (center_zero n); [apply D1| |exact Hi|exact Hj]. intros k Hk. unfold colsum. rewrite (rsum_ext _ (fun i => z k * z i)) by (intros; rewrite D1; unfold z; ring). rewrite rsum_mult. change (z k * rsum z (seq 0 n) = 0). rewrite ZS. ring. }
    assert (CY : related n (fun i => i) (center n (linear_k 1 (zscore n Y1))) (fun i j => y i * y j + 0 * (z i * z j))).
    { intros i j Hi Hj. rewrite (center_zero n); [rewrite D1; unfold y; ring| |exact Hi|exact Hj]. intros k Hk. unfold colsum. rewrite (rsum_ext _ (fun i => y k * y i)) by (intros; rewrite D1; unfold y; ring). rewrite rsum_mult. change (y k * rsum y (seq 0 n) = 0). rewrite YS. ring. }
    assert (CX : related n (fun i => i) (center n (linear_k (1 + 1) (with_z 1 (zscore n X1) (zscore n Z0)))) (fun i j => x i * x j + 1 / 4 * (z i * z j))).
    { assert (D2 : forall a b, linear_k (1 + 1) (with_z 1 (zscore n X1) (zscore n Z0)) a b = x a * x b + 1 / 4 * (z a * z b)) by (intros; unfold linear_k, rdot, with_z, rsum, x, z; cbn; field).
      intros i j Hi Hj. rewrite (center_zero n); [apply D2| |exact Hi|exact Hj]. intros k Hk. unfold colsum. rewrite (rsum_ext _ (fun i => x k * x i + 1 / 4 * z k * z i)) by (intros; rewrite D2; ring). rewrite rsum_plus, !rsum_mult. change (x k * rsum x (seq 0 n) + 1 / 4 * z k * rsum z (seq 0 n) = 0). rewrite ZS, XS. ring. }
    pose proof (regressor_lin n pinv z PI _ CZ) as RG.
    rewrite (rel_stat n (fun i => i) (shuffle_id n) _ (sandwich n (Rz n z) (center n (linear_k (1 + 1) (with_z 1 (zscore n X1) (zscore n Z0))))) _ (sandwich n (Rz n z) (center n (linear_k 1 (zscore n Y1))))).
    - rewrite (stat_lin n _ _ (res_z n z x) (res_z n z z) (1 / 4) (res_z n z y) (sandwich_lin n z _ x z _ CX)).
      + rewrite dot_res_z, QE. fold s. change (dot n z y) with (corr Y1). field.
      + intros i j Hi Hj. rewrite (sandwich_lin n z _ y z _ CY) by assumption. ring.
    - apply (rel_mmul n (fun i => i) (shuffle_id n)); [exact RG|]. apply (rel_mmul n (fun i => i) (shuffle_id n)); [|exact RG]. intros i j _ _. reflexivity.
    - apply (rel_mmul n (fun i => i) (shuffle_id n)); [exact RG|]. apply (rel_mmul n (fun i => i) (shuffle_id n)); [|exact RG]. intros i j _ _. reflexivity. }
  rewrite !ST. assert (DC : forall a b, dot n a b = dot n b a) by (intros; unfold dot; apply rsum_ext; intros; ring).
  rewrite (DC (res_z n z (fun k => zscore n Y k 0%nat))). ring.
Qed.
(** A concrete case: n = 3, x = z = (-1, 0, 1), y = (1, -2, 1). *)
Definition kci_x : data := fun s _ => INR s - 1.
Definition kci_y : data := fun s _ => match s with 1%nat => -2 | _ => 1 end.
Theorem C187_asymmetric_example : forall median pinv, pinv_inverts 3 pinv ->
  fst (fst (kci_c median pinv 3 Linear Linear Linear 1 1 1 kci_x kci_y kci_x)) < fst (fst (kci_c median pinv 3 Linear Linear Linear 1 1 1 kci_y kci_x kci_x)).
Proof.
  intros median pinv PI. assert (VX : cvar 3 kci_x 0 = 1) by (unfold cvar, cmean, kci_x, rsum; cbn; field).
  pose proof (C187_asymmetric_refuted median pinv 3 kci_x kci_y kci_x ltac:(lia) PI ltac:(rewrite VX; lra)) as H. cbv zeta beta in H.
  assert (CX : rsum (fun s => zscore 3 kci_x s 0%nat * zscore 3 kci_x s 0%nat) (seq 0 3) = 2) by (rewrite zscore_norm; [cbn; ring|lia|rewrite VX; lra]).
  assert (CY : rsum (fun s => zscore 3 kci_x s 0%nat * zscore 3 kci_y s 0%nat) (seq 0 3) = 0).
  { assert (MX : cmean 3 kci_x 0 = 0) by (unfold cmean, kci_x, rsum; cbn; field). assert (MY : cmean 3 kci_y 0 = 0) by (unfold cmean, kci_y, rsum; cbn; field).
    unfold zscore. rewrite VX, MX, MY, sqrt_1. destruct (Req_EM_T 1 0); [lra|]. destruct (Req_EM_T _ 0); unfold rsum; cbn.
 all: replace (kci_x 0%nat 0%nat) with (-1) by (unfold kci_x; cbn; ring); replace (kci_x 1%nat 0%nat) with 0 by (unfold kci_x; cbn; ring); replace (kci_x 2%nat 0%nat) with 1 by (unfold kci_x; cbn; ring); unfold Rdiv; rewrite ?Rinv_1; ring. }
  rewrite CX, CY in H. assert (P : 0 < ((1 / 1000) / (INR 3 - 1 + 1 / 1000)) ^ 4) by (apply pow_lt; cbn; lra). nra.
Qed.
(** [pinv_ordered] and [pinv_inverts 3] are met: the latter by the adjugate formula. *)
Definition det3 (A : rmat) : R := (A 0%nat 0%nat * (A 1%nat 1%nat * A 2%nat 2%nat - A 1%nat 2%nat * A 2%nat 1%nat) - A 0%nat 1%nat * (A 1%nat 0%nat * A 2%nat 2%nat - A 1%nat 2%nat * A 2%nat 0%nat) + A 0%nat 2%nat * (A 1%nat 0%nat * A 2%nat 1%nat - A 1%nat 1%nat * A 2%nat 0%nat)).
Definition adj3 (A : rmat) : rmat := fun i j =>
  let m a b := ((a + b) mod 3)%nat in A (m j 1%nat) (m i 1%nat) * A (m j 2%nat) (m i 2%nat) - A (m j 1%nat) (m i 2%nat) * A (m j 2%nat) (m i 1%nat).
Lemma pinv_ordered_met : pinv_ordered (fun _ A => A). Proof. intros n sg A' A _ H. exact H. Qed.
Lemma adj3_mul A i j : (i < 3)%nat -> (j < 3)%nat -> mmul 3 (adj3 A) A i j = det3 A * eye i j.
Proof.
  intros Hi Hj. unfold mmul, adj3, det3, eye, rsum. destruct i as [|[|[|i]]]; [| | |lia]; (destruct j as [|[|[|j]]]; [| | |lia]); cbn; ring.
Qed.
Lemma det3_mul A B : det3 (mmul 3 A B) = det3 A * det3 B.
Proof. unfold det3, mmul, rsum. cbn. ring. Qed.
Lemma pinv_inverts_met : pinv_inverts 3 (fun _ A i j => adj3 A i j / det3 A).
Proof.
  intros A B H1 _ i j Hi Hj. assert (DA : det3 A <> 0).
  { intros D. pose proof (det3_mul A B) as E. rewrite D, Rmult_0_l in E. unfold det3 in E. rewrite !H1 in E by lia. unfold eye in E. cbn in E. lra. }
  assert (E : adj3 A i j = det3 A * B i j); [|rewrite E; field; exact DA].
  assert (L : mmul 3 (mmul 3 (adj3 A) A) B i j = det3 A * B i j).
  { unfold mmul at 1. rewrite (rsum_ext _ (fun k => det3 A * (eye i k * B k j))) by (intros k Hk; apply in_seq0 in Hk; rewrite adj3_mul by assumption; ring). rewrite rsum_mult, (rsum_eye 3 i (fun k => B k j)) by exact Hi. reflexivity. }
  assert (R1 : mmul 3 (adj3 A) (mmul 3 A B) i j = adj3 A i j).
  { unfold mmul at 1. rewrite (rsum_ext _ (fun k => eye j k * adj3 A i k)) by (intros k Hk; apply in_seq0 in Hk; rewrite H1, (eye_in j) by assumption; ring). now rewrite (rsum_eye 3 j (fun k => adj3 A i k)). }
  rewrite <- R1, <- L. unfold mmul, rsum. cbn. ring.
Qed.

(** ** C188: ANM *)
Definition flip {A B} (p : A * B) : B * A := (snd p, fst p).
Theorem C188_swap : forall median gsf n kx ky gp x y, anm median gsf n kx ky gp y x = flip (anm median gsf n kx ky gp x y).
Proof. reflexivity. Qed.
Theorem C188_p_range : forall median gsf n kx ky gp x y p, (forall s k t, 0 <= gsf s k t <= 1) ->
  fst (anm median gsf n kx ky gp x y) = Some p \/ snd (anm median gsf n kx ky gp x y) = Some p -> 0 <= p <= 1.
Proof. intros median gsf n kx ky gp x y p HG [H|H]; eapply C186_p_range; [exact HG|exact H|exact HG|exact H]. Qed.
(** The units of the residuals do not matter (the kernels ANM builds have empirical or given widths). *)
Theorem C188_residual_scale : forall median gsf n kx ky gp gp' x y c d, (0 < n)%nat -> c <> 0 -> kx <> Gaussian Median -> ky <> Gaussian Median ->
  (forall s, y s - gp' x y s = c * (y s - gp x y s) + d) -> fst (anm median gsf n kx ky gp' x y) = fst (anm median gsf n kx ky gp x y).
Proof.
  intros median gsf n kx ky gp gp' x y c d Hn Hc Hx Hy E. unfold anm. cbn [fst]. f_equal. apply (rel_kci n (fun i => i) (shuffle_id n)); [intros i j _ _; reflexivity|].
  intros i j Hi Hj. assert (R1 := rescaled_kernel median n 1 ky (fun _ => c) (fun _ => d) (column (fun s => y s - gp x y s)) Hn ltac:(auto) Hy i j Hi Hj). rewrite <- R1.
  assert (EQ : forall s k, column (fun s => y s - gp' x y s) s k = rescaled (fun _ => c) (fun _ => d) (column (fun s => y s - gp x y s)) s k) by (intros s k; apply E).
  assert (ZE : forall s k, zscore n (column (fun s => y s - gp' x y s)) s k = zscore n (rescaled (fun _ => c) (fun _ => d) (column (fun s => y s - gp x y s))) s k).
  { intros s k. assert (ME : cmean n (column (fun s => y s - gp' x y s)) k = cmean n (rescaled (fun _ => c) (fun _ => d) (column (fun s => y s - gp x y s))) k) by (unfold cmean; f_equal; apply rsum_ext; intros; apply EQ).
    assert (VE : cvar n (column (fun s => y s - gp' x y s)) k = cvar n (rescaled (fun _ => c) (fun _ => d) (column (fun s => y s - gp x y s))) k) by (unfold cvar; rewrite ME; f_equal; apply rsum_ext; intros; now rewrite EQ).
    unfold zscore. now rewrite ME, VE, EQ. }
  destruct ky as [[w| |]| |g]; cbn [kernel_of]; try congruence; unfold gaussian, linear_k, polynomial_k.
  1,2: f_equal; f_equal; f_equal; unfold sqdist; apply rsum_ext; intros; now rewrite !ZE.
  - unfold rdot; apply rsum_ext; intros; now rewrite !ZE.
  - f_equal. f_equal. unfold rdot; apply rsum_ext; intros; now rewrite !ZE.
Qed.
(** If one variable is an exact function of the other and the regression finds it, the p-value of that direction is NaN, and the direction is not accepted. *)
Theorem C188_perfect_fit_refuted : forall median gsf n kx ky gp x y c, (0 < n)%nat -> (forall s, (s < n)%nat -> gp x y s = y s + c) -> fst (anm median gsf n kx ky gp x y) = None.
Proof.
  intros median gsf n kx ky gp x y c Hn H. unfold anm. cbn [fst]. rewrite <- C186_symmetric. apply C186_constant_refuted; [exact Hn|]. intros s k Hs _. unfold column. rewrite !H by assumption. ring.
Qed.

(** ** C189: PNL *)
Lemma lmean_perm l m : Permutation l m -> lmean l = lmean m.
Proof. intros H. unfold lmean. now rewrite (rsum_perm _ _ _ H), (Permutation_length H). Qed.
Lemma lvar_perm l m : Permutation l m -> lvar l = lvar m.
Proof. intros H. unfold lvar. rewrite (lmean_perm _ _ H). now rewrite (rsum_perm _ _ _ H), (Permutation_length H). Qed.
(** The comparison of cause and noise is a t-test of equal means: it ignores which noise value goes with which cause value, so it says nothing about dependence. *)
Theorem C189_pairing_refuted : forall tsf x e e', Permutation e e' -> ttest tsf x e = ttest tsf x e'.
Proof. intros tsf x e e' H. unfold ttest, t_denom. now rewrite (lmean_perm _ _ H), (lvar_perm _ _ H), (Permutation_length H). Qed.
(** Noise equal to the cause: the p-value is 1, so independence is accepted. *)
Theorem C189_dependent_refuted : forall tsf x, (forall df, tsf 0 df = 1 / 2) -> t_denom x x <> 0 -> ttest tsf x x = Some 1.
Proof.
  intros tsf x HT HD. unfold ttest. destruct (Req_EM_T (t_denom x x) 0); [contradiction|]. unfold Rminus at 1. rewrite Rplus_opp_r. unfold Rdiv. rewrite Rmult_0_l, Rabs_R0, HT. f_equal. field.
Qed.
Lemma rsum_shift (l : list R) c : rsum (fun x => x) (map (fun v => v + c) l) = rsum (fun x => x) l + INR (length l) * c.
Proof. induction l as [|v l IH]; [unfold rsum; cbn; ring|]. cbn [map]. rewrite !rsum_cons, IH. cbn [length]. rewrite S_INR. ring. Qed.
Lemma lmean_shift (l : list R) c : l <> [] -> lmean (map (fun v => v + c) l) = lmean l + c.
Proof.
  intros NE. assert (L : INR (length l) <> 0) by (apply not_0_INR; destruct l; [now contradiction NE|cbn; lia]). unfold lmean. rewrite rsum_shift, map_length. field. exact L.
Qed.
Lemma lvar_shift (l : list R) c : l <> [] -> lvar (map (fun v => v + c) l) = lvar l.
Proof. intros NE. unfold lvar. rewrite lmean_shift, map_length by exact NE. f_equal. rewrite rsum_map. apply rsum_ext. intros; ring. Qed.
(** Shifting the noise by a constant, which changes no dependence (and which the networks' biases leave free), gives any value of the test statistic. *)
Theorem C189_mean_refuted : forall tsf x e t, e <> [] -> t_denom x e <> 0 ->
  exists c, ttest tsf x (map (fun v => v + c) e) = Some (2 * tsf (Rabs t) (INR (length x) + INR (length e) - 2)).
Proof.
  intros tsf x e t NE HD. exists (lmean x - lmean e - t * t_denom x e). set (c := lmean x - lmean e - t * t_denom x e).
  assert (TD : t_denom x (map (fun v => v + c) e) = t_denom x e) by (unfold t_denom; now rewrite lvar_shift, map_length). unfold ttest. rewrite TD, lmean_shift, map_length by exact NE. destruct (Req_EM_T _ 0); [contradiction|].
  f_equal. f_equal. f_equal. f_equal. unfold c. field. exact HD.
Qed.
(** Exchanging the variables exchanges the p-values, if training does not depend on the random numbers ... *)
Theorem C189_swap_partial : forall rng tsf round3 (learn : rng -> list (R * R) -> list R * rng) seed x y, (forall r r' d, fst (learn r d) = fst (learn r' d)) ->
  pnl tsf round3 learn seed y x = flip (pnl tsf round3 learn seed x y).
Proof.
  intros rng tsf round3 learn seed x y H. unfold pnl, flip. destruct (learn seed (combine y x)) as [e1 r1] eqn:E1, (learn seed (combine x y)) as [e2 r2] eqn:E2.
  destruct (learn r1 (combine x y)) as [e3 r3] eqn:E3, (learn r2 (combine y x)) as [e4 r4] eqn:E4. cbn [fst snd].
  pose proof (H r1 seed (combine x y)) as H1. pose proof (H r2 seed (combine y x)) as H2. rewrite E3, E2 in H1. rewrite E4, E1 in H2. cbn [fst] in H1, H2. now subst.
Qed.
(** ... but the seed is set only once, so in general it does not: the direction tested second is trained from another state. *)
Theorem C189_swap_refuted : forall tsf, (forall t df, 0 < t -> tsf t df < tsf 0 df) -> exists (learn : nat -> list (R * R) -> list R * nat) x y,
  pnl tsf (fun p => p) learn 0%nat y x <> flip (pnl tsf (fun p => p) learn 0%nat x y).
Proof.
  intros tsf HT. exists (fun r d => (map (fun p => snd p + INR r) d, S r)), [0; 1], [0; 1]. unfold pnl, flip. cbn [combine map fst snd INR]. intros E. apply (f_equal fst) in E. cbn [fst] in E. unfold ttest in E.
  assert (M0 : lmean [0; 1] = 1 / 2) by (unfold lmean, rsum; cbn; field). assert (M1 : lmean [0 + 0; 1 + 0] = 1 / 2) by (unfold lmean, rsum; cbn; field). assert (M2 : lmean [0 + 1; 1 + 1] = 3 / 2) by (unfold lmean, rsum; cbn; field).
  assert (D1 : t_denom [0; 1] [0 + 0; 1 + 0] = sqrt (1 / 2)) by (unfold t_denom, lvar; rewrite M0, M1; f_equal; unfold rsum; cbn; field).
  assert (D2 : t_denom [0; 1] [0 + 1; 1 + 1] = sqrt (1 / 2)) by (unfold t_denom, lvar; rewrite M0, M2; f_equal; unfold rsum; cbn; field).
  assert (SP : 0 < sqrt (1 / 2)) by (apply sqrt_lt_R0; lra). rewrite D1, D2, M0, M1, M2 in E. destruct (Req_EM_T (sqrt (1 / 2)) 0); [lra|]. cbn [option_map length] in E. injection E as E. cbn [length] in E.
  replace ((1 / 2 - 1 / 2) / sqrt (1 / 2)) with 0 in E by (unfold Rdiv; ring). rewrite Rabs_R0 in E.
  pose proof (HT (Rabs ((1 / 2 - 3 / 2) / sqrt (1 / 2))) (INR 2 + INR 2 - 2)) as H. assert (0 < Rabs ((1 / 2 - 3 / 2) / sqrt (1 / 2))) as P; [|specialize (H P); cbn [INR] in *; lra].
  apply Rabs_pos_lt. intros Z. apply Rmult_integral in Z. destruct Z as [Z|Z]; [lra|]. apply Rinv_neq_0_compat in Z; lra.
Qed.
