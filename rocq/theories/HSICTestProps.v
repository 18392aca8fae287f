(** C196: sample order and units; C197: when the HSIC p-value is a number; C198: hsic2.py; C199: the objective of RCD's regression. *)
From Verif Require Import Base UtilsModel BICModel BICProofs EffectModel EffectProofs VARModel VARProofs ChisqProps CALMProofs KCIModel KCIProofs KCIProps HSICModel HSICProofs HSICMedian HSICProps.
From Coq Require Import Permutation Sorted Reals Lra.
Local Open Scope R_scope.

(** ** The width *)
Lemma width_none m d X : width_of m d X = None <-> forall a b c, (a < m)%nat -> (b < m)%nat -> (c < d)%nat -> X a c = X b c.
Proof.
  unfold width_of. split.
  - intros H a b c Ha Hb Hc. destruct (upper_dists m d X) as [|r l] eqn:E; [|discriminate].
    assert (G : forall a b, (a < b)%nat -> (b < m)%nat -> X a c = X b c).
    { clear a b Ha Hb. intros a b Hab Hb. apply (proj1 (sqdist_0 d X a b)); [|exact Hc]. pose proof (sqdist_nonneg d X a b) as [P|P]; [|now symmetry]. exfalso.
      assert (I : In (sqdist d X a b) (upper_dists m d X)) by (apply upper_in; exists a, b; auto). now rewrite E in I. }
    destruct (Nat.lt_total a b) as [L|[-> |L]]; [now apply G|reflexivity|symmetry; now apply G].
  - intros H. destruct (upper_dists m d X) as [|r l] eqn:E; [reflexivity|exfalso]. assert (I : In r (upper_dists m d X)) by (rewrite E; now left). apply upper_in in I. destruct I as (a & b & Hab & Hb & -> & P).
    assert (Z0 : sqdist d X a b = 0) by (apply sqdist_0; intros; apply H; lia || assumption). lra.
Qed.
Lemma width_pos m d X w : width_of m d X = Some w -> 0 < w.
Proof.
  unfold width_of. destruct (upper_dists m d X) as [|r l] eqn:E; [discriminate|]. intros H. assert (P : 0 < rmedian (r :: l)).
  { apply rmedian_pos; [discriminate|]. intros x Hx. rewrite <- E in Hx. apply upper_in in Hx. destruct Hx as (a & b & _ & _ & _ & P). exact P. }
  injection H as <-. apply sqrt_lt_R0. lra.
Qed.
Lemma usable_pos w : 0 < w -> usable (Some w) = Some w.
Proof. intros H. unfold usable. destruct (Req_EM_T w 0); [lra|reflexivity]. Qed.
Lemma usable_width m d X : usable (width_of m d X) = width_of m d X.
Proof. destruct (width_of m d X) as [w|] eqn:E; [|reflexivity]. apply usable_pos. now apply width_pos in E. Qed.
(** Half the median squared distance: a number between the smallest and the largest positive distance over sqrt 2. *)
Theorem C197_width : forall n d X,
  (get_kernel_width n d X = None <-> forall a b c, (a < n)%nat -> (b < n)%nat -> (a < 100)%nat -> (b < 100)%nat -> (c < d)%nat -> X a c = X b c) /\
  (forall w lo hi, get_kernel_width n d X = Some w -> 0 <= lo -> (forall a b, (a < n)%nat -> (b < n)%nat -> 0 < sqdist d X a b -> lo <= sqdist d X a b <= hi) -> 0 < w /\ sqrt (lo / 2) <= w <= sqrt (hi / 2)).
Proof.
  intros n d X. unfold get_kernel_width. assert (M : forall a, (a < (if Nat.ltb 100 n then 100 else n) <-> a < n /\ a < 100)%nat) by (intros a; destruct (Nat.ltb_spec 100 n); lia). split.
  - rewrite width_none. split; intros H a b c; [intros H1 H2 H3 H4 Hc; apply H; try apply M; auto|intros H1 H2 Hc; pose proof (proj1 (M _) H1); pose proof (proj1 (M _) H2); apply H; tauto].
  - intros w lo hi Hw Hlo HB. split; [now apply width_pos in Hw|]. set (m := if Nat.ltb 100 n then 100%nat else n) in *. assert (MN : (m <= n)%nat) by (unfold m; destruct (Nat.ltb_spec 100 n); lia).
    unfold width_of in Hw. destruct (upper_dists m d X) as [|r l] eqn:E; [discriminate|]. injection Hw as <-.
    assert (Bd : lo <= rmedian (r :: l) <= hi).
    { apply rmedian_between; [discriminate|]. intros x Hx. rewrite <- E in Hx. apply upper_in in Hx. destruct Hx as (a & b & Hab & Hb & -> & P). apply HB; [lia|lia|exact P]. }
    split; apply sqrt_le_1_alt; lra.
Qed.

(** The squared width is half the median of the squared distances between different points: s is those distances in increasing order. *)
Theorem C197_median : forall n d X w s m, get_kernel_width n d X = Some w -> StronglySorted Rle s ->
  Permutation s (flat_map (fun a => flat_map (fun b => let r := sqdist d X a b in if Nat.ltb a b then if Rlt_dec 0 r then [r] else [] else []) (seq 0 (Nat.min n 100))) (seq 0 (Nat.min n 100))) ->
  (length s = (2 * m + 1)%nat -> w ^ 2 = nth m s 0 / 2) /\ (length s = (2 * m + 2)%nat -> w ^ 2 = (nth m s 0 + nth (m + 1) s 0) / 2 / 2).
Proof.
  intros n d X w s m Hw Hs P.
  assert (EN : (if Nat.ltb 100 n then 100 else n)%nat = Nat.min n 100) by (destruct (Nat.ltb_spec 100 n); lia). unfold get_kernel_width in Hw. rewrite EN in Hw.
  assert (EU : forall k, upper_dists k d X = flat_map (fun a => flat_map (fun b => let r := sqdist d X a b in if Nat.ltb a b then if Rlt_dec 0 r then [r] else [] else []) (seq 0 k)) (seq 0 k)).
  { intros k. rewrite upper_keep. apply flat_map_ext'. intros a _. apply flat_map_ext'. intros b _. unfold keep. destruct (Nat.leb_spec b a), (Nat.ltb_spec a b); try lia; reflexivity. }
  pose proof (width_pos _ _ _ _ Hw) as W. unfold width_of in Hw. rewrite EU in Hw.
  assert (SS : rsort s = s) by (apply rsorted_unique; [apply rsort_sorted | exact Hs | apply rsort_perm]).
  assert (Hm : w = sqrt (1 / 2 * rmedian s)).
  { rewrite (rmedian_perm _ _ P). destruct (flat_map _ _) as [|r l]; [discriminate|]. now injection Hw as <-. }
  assert (Sq : w ^ 2 = 1 / 2 * rmedian s).
  { rewrite Hm. cbn [pow]. rewrite Rmult_1_r. apply sqrt_def. destruct (Rle_lt_dec 0 (1 / 2 * rmedian s)) as [L|L]; [exact L|]. rewrite Hm, (sqrt_neg_0 (1 / 2 * rmedian s)) in W by lra. lra. }
  rewrite Sq. unfold rmedian. rewrite SS. split; intros E; rewrite E.
  - replace (Nat.even (2 * m + 1)) with false by (rewrite Nat.add_1_r, Nat.even_succ, Nat.odd_mul; reflexivity).
    replace (Nat.div2 (2 * m + 1)) with m by (rewrite Nat.add_1_r; symmetry; apply Nat.div2_succ_double). field.
  - replace (2 * m + 2)%nat with (2 * (m + 1))%nat by lia. rewrite Nat.even_mul. cbn [Nat.even orb]. rewrite Nat.div2_double. replace (m + 1 - 1)%nat with m by lia. field.
Qed.
(** ** C196: sample order and units *)
Section Rel.
Variables (n : nat) (sg : nat -> nat).
Hypothesis SH : shuffle n sg.
Lemma rel_hcenter K' K : related n sg K' K -> related n sg (hcenter n K') (hcenter n K).
Proof.
  intros H i j Hi Hj. unfold hcenter. rewrite (rel_msum n sg SH K' K H), (rel_colsum n sg SH K' K j H Hj), (H i j Hi Hj).
  assert (E : rowsum n K' i = rowsum n K (sg i)) by (unfold rowsum; apply (sh_sum' n sg SH); intros k Hk; now apply H). now rewrite E.
Qed.
Lemma rel_teststat A' A B' B : related n sg A' A -> related n sg B' B -> hsic_teststat n A' B' = hsic_teststat n A B.
Proof. intros HA HB. unfold hsic_teststat. f_equal. apply (rel_msum n sg SH). intros i j Hi Hj. now rewrite (HA j i), (HB i j). Qed.
Lemma rel_var A' A B' B : related n sg A' A -> related n sg B' B -> hsic_var n A' B' = hsic_var n A B.
Proof.
  intros HA HB. unfold hsic_var. cbv zeta. assert (RV : related n sg (fun i j => (1 / 6 * A' i j * B' i j) ^ 2) (fun i j => (1 / 6 * A i j * B i j) ^ 2)) by (intros i j Hi Hj; now rewrite (HA i j), (HB i j)).
  rewrite (rel_msum n sg SH _ _ RV), (rel_trace n sg SH _ _ RV). reflexivity.
Qed.
Lemma rel_mu K' K : related n sg K' K -> hsic_mu n K' = hsic_mu n K.
Proof.
  intros H. unfold hsic_mu. f_equal. apply (rel_msum n sg SH). intros i j Hi Hj. unfold zero_diag. rewrite (H i j Hi Hj).
  destruct (Nat.eqb_spec i j) as [EQ|N], (Nat.eqb_spec (sg i) (sg j)) as [E|E]; try reflexivity; [exfalso; apply E; now rewrite EQ|]. exfalso. apply N. now apply (sg_inj n sg SH).
Qed.
Lemma rel_mean K' K L' L : related n sg K' K -> related n sg L' L -> hsic_mean n K' L' = hsic_mean n K L.
Proof. intros HK HL. unfold hsic_mean. now rewrite (rel_mu K' K HK), (rel_mu L' L HL). Qed.
Lemma rel_rbf d X w : related n sg (rbf d (fun s c => X (sg s) c) w) (rbf d X w).
Proof. intros i j _ _. reflexivity. Qed.
Lemma rel_test cdf bw bw' dx dy X' X Y' Y : width_by bw' n dx X' = width_by bw n dx X -> width_by bw' n dy Y' = width_by bw n dy Y ->
  (forall w, related n sg (rbf dx X' w) (rbf dx X w)) -> (forall w, related n sg (rbf dy Y' w) (rbf dy Y w)) -> hsic_test_gamma cdf bw' n dx dy X' Y' = hsic_test_gamma cdf bw n dx dy X Y.
Proof.
  intros WX WY HX HY. unfold hsic_test_gamma. rewrite WX, WY. destruct (Nat.ltb n 4); [reflexivity|]. destruct (usable (width_by bw n dx X)) as [wx|]; [|reflexivity]. destruct (usable (width_by bw n dy Y)) as [wy|]; [|reflexivity].
  cbv zeta. rewrite (rel_teststat _ (hcenter n (rbf dx X wx)) _ (hcenter n (rbf dy Y wy))), (rel_var _ (hcenter n (rbf dx X wx)) _ (hcenter n (rbf dy Y wy))), (rel_mean _ (rbf dx X wx) _ (rbf dy Y wy)); auto using rel_hcenter.
Qed.
End Rel.
(** The result does not depend on the order of the samples: with a rule of thumb that does not, or with at most 100 samples. *)
Theorem C196_sample_order_partial : forall cdf bw n sg dx dy X Y, shuffle n sg ->
  match bw with Mdbs => (n <= 100)%nat | Bw f => f (fun s c => X (sg s) c) = f X /\ f (fun s c => Y (sg s) c) = f Y end ->
  hsic_test_gamma cdf bw n dx dy (fun s c => X (sg s) c) (fun s c => Y (sg s) c) = hsic_test_gamma cdf bw n dx dy X Y.
Proof.
  intros cdf bw n sg dx dy X Y SH HB. assert (W : forall d X0, (n <= 100)%nat -> get_kernel_width n d (fun s c => X0 (sg s) c) = get_kernel_width n d X0).
  { intros d X0 Hn. unfold get_kernel_width. destruct (Nat.ltb_spec 100 n); [lia|]. unfold width_of. pose proof (upper_shuffle n sg d X0 SH) as P.
    pose proof (rmedian_perm _ _ P) as EM. destruct (upper_dists n d (fun s c => X0 (sg s) c)) as [|r l].
    - apply Permutation_nil in P. now rewrite P.
    - destruct (upper_dists n d X0) as [|r' l']; [apply Permutation_sym, Permutation_nil in P; discriminate|]. now rewrite EM. }
  apply (rel_test n sg SH); [| |intros; apply rel_rbf|intros; apply rel_rbf]; destruct bw as [|f]; cbn [width_by]; try now apply W; f_equal; tauto.
  all: f_equal; tauto.
Qed.
(** Units: the median width makes the test independent of the location of every column and of the scale (and sign) of each of the two variables. *)
Theorem C196_units : forall cdf n dx dy a b a' b' X Y, a <> 0 -> a' <> 0 ->
  hsic_test_gamma cdf Mdbs n dx dy (fun s c => a * X s c + b c) (fun s c => a' * Y s c + b' c) = hsic_test_gamma cdf Mdbs n dx dy X Y.
Proof.
  intros cdf n dx dy a b a' b' X Y Ha Ha'.
  assert (SQ : forall d (X0 : data) u v i j, sqdist d (fun s c => u * X0 s c + v c) i j = u ^ 2 * sqdist d X0 i j) by (intros; unfold sqdist; rewrite <- rsum_mult; apply rsum_ext; intros; ring).
  assert (P2 : forall u, u <> 0 -> 0 < u ^ 2) by (intros u Hu; cbn [pow]; rewrite Rmult_1_r; destruct (Rtotal_order u 0) as [|[|]]; nra).
  assert (W : forall d (X0 : data) u v, u <> 0 -> get_kernel_width n d (fun s c => u * X0 s c + v c) = option_map (Rmult (Rabs u)) (get_kernel_width n d X0)).
  { intros d X0 u v Hu. unfold get_kernel_width, width_of. rewrite (upper_scale _ d X0 _ (u ^ 2)) by auto. destruct (upper_dists _ d X0) as [|r l]; [reflexivity|]. cbn [map option_map]. f_equal.
    change (u ^ 2 * r :: map (Rmult (u ^ 2)) l) with (map (Rmult (u ^ 2)) (r :: l)). rewrite rmedian_scale by auto. replace (1 / 2 * (u ^ 2 * rmedian (r :: l))) with (u ^ 2 * (1 / 2 * rmedian (r :: l))) by ring.
    rewrite sqrt_mult_alt by (left; auto). f_equal. rewrite <- (pow2_abs u). apply sqrt_pow2, Rabs_pos. }
  assert (K : forall d (X0 : data) u v w i j, u <> 0 -> w <> 0 -> rbf d (fun s c => u * X0 s c + v c) (Rabs u * w) i j = rbf d X0 w i j).
  { intros d X0 u v w i j Hu Hw. unfold rbf. rewrite !dists_sqdist, SQ. f_equal. replace ((Rabs u * w) ^ 2) with (u ^ 2 * w ^ 2) by (rewrite Rpow_mult_distr, pow2_abs; reflexivity). field. auto. }
  unfold hsic_test_gamma. cbn [width_by]. rewrite !W by assumption. unfold get_kernel_width. destruct (Nat.ltb n 4); [reflexivity|].
  assert (US : forall m d (X0 : data) u, u <> 0 -> usable (option_map (Rmult (Rabs u)) (width_of m d X0)) = option_map (Rmult (Rabs u)) (width_of m d X0)).
  { intros m d X0 u Hu. destruct (width_of m d X0) as [w|] eqn:E; [|reflexivity]. cbn [option_map]. apply usable_pos. apply width_pos in E. pose proof (Rabs_pos_lt u Hu). nra. }
  rewrite !US, !usable_width by assumption. destruct (width_of _ dx X) as [wx|] eqn:EX; [|reflexivity]. destruct (width_of _ dy Y) as [wy|] eqn:EY; [|reflexivity]. cbn [option_map].
  apply width_pos in EX, EY. assert (RX : related n (fun i => i) (rbf dx (fun s c => a * X s c + b c) (Rabs a * wx)) (rbf dx X wx)) by (intros i j _ _; apply K; lra).
  assert (RY : related n (fun i => i) (rbf dy (fun s c => a' * Y s c + b' c) (Rabs a' * wy)) (rbf dy Y wy)) by (intros i j _ _; apply K; lra).
  cbv zeta. pose proof (shuffle_id n) as SH. rewrite (rel_teststat n _ SH _ (hcenter n (rbf dx X wx)) _ (hcenter n (rbf dy Y wy))), (rel_var n _ SH _ (hcenter n (rbf dx X wx)) _ (hcenter n (rbf dy Y wy))), (rel_mean n _ SH _ (rbf dx X wx) _ (rbf dy Y wy)); auto using rel_hcenter.
Qed.
Definition equal_first (n d : nat) (X : data) : Prop := forall a b c, (a < n)%nat -> (b < n)%nat -> (a < 100)%nat -> (b < 100)%nat -> (c < d)%nat -> X a c = X b c.
Lemma nan_if_constant cdf n dx dy X Y : (4 <= n)%nat -> equal_first n dx X -> hsic_test_gamma cdf Mdbs n dx dy X Y = Some (None, None).
Proof.
  intros Hn H. apply (proj2 (proj1 (C197_width n dx X))) in H. unfold hsic_test_gamma. destruct (Nat.ltb_spec n 4); [lia|]. cbn [width_by]. now rewrite H.
Qed.
Lemma number_if_not cdf n dx dy X Y : (4 <= n)%nat -> ~ equal_first n dx X -> ~ equal_first n dy Y -> exists st p, hsic_test_gamma cdf Mdbs n dx dy X Y = Some (Some st, p).
Proof.
  intros Hn HX HY. unfold hsic_test_gamma. destruct (Nat.ltb_spec n 4); [lia|]. cbn [width_by].
  destruct (get_kernel_width n dx X) as [wx|] eqn:EX; [|exfalso; apply HX; exact (proj1 (proj1 (C197_width n dx X)) EX)].
  destruct (get_kernel_width n dy Y) as [wy|] eqn:EY; [|exfalso; apply HY; exact (proj1 (proj1 (C197_width n dy Y)) EY)].
  unfold get_kernel_width in EX, EY. rewrite (usable_pos wx), (usable_pos wy) by (eapply width_pos; eassumption). eexists. eexists. reflexivity.
Qed.
(** With more than 100 samples the order matters: 101 samples of which only one differs from the others.  Last, it makes the test NaN; first, it does not. *)
Definition last_differs : data := fun s _ => if Nat.eqb s 100 then 1 else 0.
Definition swap_ends (s : nat) : nat := if Nat.eqb s 0 then 100%nat else if Nat.eqb s 100 then 0%nat else s.
Theorem C196_sample_order_refuted : forall cdf, shuffle 101 swap_ends /\
  hsic_test_gamma cdf Mdbs 101 1 1 last_differs last_differs = Some (None, None) /\
  exists st p, hsic_test_gamma cdf Mdbs 101 1 1 (fun s c => last_differs (swap_ends s) c) (fun s c => last_differs (swap_ends s) c) = Some (Some st, p).
Proof.
  intros cdf. split; [|split].
  - unfold shuffle. apply NoDup_Permutation.
    + assert (INJ : forall a b, swap_ends a = swap_ends b -> a = b) by (intros a b; unfold swap_ends; destruct (Nat.eqb_spec a 0), (Nat.eqb_spec a 100), (Nat.eqb_spec b 0), (Nat.eqb_spec b 100); lia).
      apply FinFun.Injective_map_NoDup; [exact INJ|apply seq_NoDup].
    + apply seq_NoDup.
    + intros x. rewrite in_map_iff. split.
      * intros (y & <- & Hy). apply in_seq0 in Hy. apply in_seq0. unfold swap_ends. destruct (Nat.eqb_spec y 0), (Nat.eqb_spec y 100); lia.
      * intros Hx. apply in_seq0 in Hx. exists (swap_ends x). split; [unfold swap_ends; destruct (Nat.eqb_spec x 0) as [->|]; [reflexivity|]; destruct (Nat.eqb_spec x 100) as [->|]; [reflexivity|]; destruct (Nat.eqb_spec x 0); [lia|]; destruct (Nat.eqb_spec x 100); [lia|reflexivity]|].
        apply in_seq0. unfold swap_ends. destruct (Nat.eqb_spec x 0), (Nat.eqb_spec x 100); lia.
  - apply nan_if_constant; [lia|]. intros a b c _ _ Ha Hb _. unfold last_differs. destruct (Nat.eqb_spec a 100), (Nat.eqb_spec b 100); (lia || reflexivity).
  - apply number_if_not; [lia| |]; intros F; specialize (F 0%nat 1%nat 0%nat ltac:(lia) ltac:(lia) ltac:(lia) ltac:(lia) ltac:(lia)); unfold last_differs, swap_ends in F; cbn in F; lra.
Qed.

(** ** C197: when the p-value is a number *)
Theorem C197_few_samples : forall cdf bw n dx dy X Y,
  ((n < 4)%nat -> hsic_test_gamma cdf bw n dx dy X Y = None) /\ (n = 4%nat \/ n = 5%nat -> forall st p, hsic_test_gamma cdf bw n dx dy X Y = Some (st, p) -> p = None).
Proof.
  intros cdf bw n dx dy X Y. unfold hsic_test_gamma. split.
  - intros H. destruct (Nat.ltb_spec n 4); [reflexivity|lia].
  - intros H st p. destruct (Nat.ltb_spec n 4) as [|_]; [lia|]. destruct (usable (width_by bw n dx X)) as [wx|]; [|now intros [= <- <-]]. destruct (usable (width_by bw n dy Y)) as [wy|]; [|now intros [= <- <-]].
    cbv zeta. intros E. injection E as _ <-. unfold gamma_sf. destruct (Req_EM_T _ 0) as [|N]; [reflexivity|]. exfalso. apply N. unfold hsic_var. cbv zeta.
    assert (Z0 : 72 * (INR n - 4) * (INR n - 5) = 0) by (destruct H as [-> | ->]; cbn [INR]; ring). rewrite Z0. unfold Rdiv. ring.
Qed.
Lemma msum_sub n A B : msum n (fun i j => A i j - B i j) = msum n A - msum n B.
Proof. unfold msum. rewrite <- rsum_minus. apply rsum_ext. intros. apply rsum_minus. Qed.
Lemma mtrace_diag n v : mtrace n v = msum n (fun i j => if Nat.eqb i j then v i j else 0).
Proof.
  unfold mtrace, msum. apply rsum_ext. intros i Hi. rewrite (rsum_ext _ (fun j => eye i j * v i j)) by (intros j _; unfold eye; destruct (Nat.eqb i j); ring). symmetry. apply in_seq0 in Hi. now apply rsum_eye.
Qed.
Lemma msum_nonneg n A : (forall i j, (i < n)%nat -> (j < n)%nat -> 0 <= A i j) -> 0 <= msum n A.
Proof. intros H. apply rsum_nonneg. intros i Hi. apply rsum_nonneg. intros j Hj. apply in_seq0 in Hi, Hj. auto. Qed.
Lemma msum_0 n A : (forall i j, (i < n)%nat -> (j < n)%nat -> 0 <= A i j) -> msum n A = 0 -> forall i j, (i < n)%nat -> (j < n)%nat -> A i j = 0.
Proof.
  intros P H i j Hi Hj.
  assert (G : forall (f : nat -> R) l, (forall x, In x l -> 0 <= f x) -> rsum f l = 0 -> forall x, In x l -> f x = 0).
  { intros f l. induction l as [|y l IH]; intros Q E x Hx; [destruct Hx|]. rewrite rsum_cons in E. pose proof (Q y (or_introl eq_refl)). assert (0 <= rsum f l) by (apply rsum_nonneg; intros; apply Q; now right).
    destruct Hx as [-> | Hx]; [lra|]. apply IH; [intros; apply Q; now right|lra|exact Hx]. }
  apply (G (fun j => A i j) (seq 0 n)); [intros; apply P; [assumption|now apply in_seq0]| |now apply in_seq0].
  apply (G (fun i => rsum (fun j => A i j) (seq 0 n)) (seq 0 n)); [|exact H|now apply in_seq0]. intros x Hx. apply rsum_nonneg. intros y Hy. apply in_seq0 in Hx, Hy. auto.
Qed.
Lemma msum_const n c : msum n (fun _ _ => c) = INR n * (INR n * c).
Proof. unfold msum. rewrite (rsum_ext _ (fun _ => INR n * c)) by (intros; rewrite rsum_const, seq_length; reflexivity). rewrite rsum_const, seq_length. reflexivity. Qed.
(** 1 - mu = the mean over the pairs of different samples of 1 - K. *)
Lemma one_minus_mu n K : (1 < n)%nat -> 1 - hsic_mu n K = / (INR n * (INR n - 1)) * msum n (fun i j => if Nat.eqb i j then 0 else 1 - K i j).
Proof.
  intros Hn. assert (N1 : 1 < INR n) by (change 1 with (INR 1); apply lt_INR; lia). unfold hsic_mu.
  assert (E : msum n (fun i j => if Nat.eqb i j then 0 else 1 - K i j) = INR n * (INR n - 1) - msum n (zero_diag K)).
  { transitivity (msum n (fun i j => (1 - (if Nat.eqb i j then 1 else 0)) - zero_diag K i j)).
    - unfold msum. apply rsum_ext. intros. apply rsum_ext. intros j _. unfold zero_diag. destruct (Nat.eqb _ j); ring.
    - rewrite (msum_sub n (fun i j => 1 - (if Nat.eqb i j then 1 else 0))), (msum_sub n (fun _ _ => 1)), msum_const. rewrite <- (mtrace_diag n (fun _ _ => 1)). unfold mtrace. rewrite rsum_const, seq_length. ring. }
  rewrite E. field. lra.
Qed.
Lemma mu_lt_1 n d X w : (1 < n)%nat -> w <> 0 -> ~ (forall a b c, (a < n)%nat -> (b < n)%nat -> (c < d)%nat -> X a c = X b c) -> hsic_mu n (rbf d X w) < 1.
Proof.
  intros Hn Hw HD. assert (N1 : 1 < INR n) by (change 1 with (INR 1); apply lt_INR; lia). pose proof (one_minus_mu n (rbf d X w) Hn) as E.
  assert (P : forall i j, (i < n)%nat -> (j < n)%nat -> 0 <= (if Nat.eqb i j then 0 else 1 - rbf d X w i j)) by (intros i j _ _; destruct (Nat.eqb i j); [lra|]; destruct (C194_kernel d X w i j Hw) as (_ & B & _); lra).
  pose proof (msum_nonneg n _ P) as Q. assert (I : 0 < / (INR n * (INR n - 1))) by (apply Rinv_0_lt_compat; nra). destruct Q as [Q|Q]; [nra|]. exfalso. apply HD. intros a b c Ha Hb Hc.
  pose proof (msum_0 n _ P (eq_sym Q) a b Ha Hb) as Z0. cbn beta in Z0. destruct (Nat.eqb_spec a b) as [-> |N]; [reflexivity|]. destruct (C194_kernel d X w a b Hw) as (_ & _ & [F _]). apply F; [lra|exact Hc].
Qed.
Lemma hsic_mean_factor n K L : hsic_mean n K L = (1 - hsic_mu n K) * (1 - hsic_mu n L) / INR n.
Proof. unfold hsic_mean, Rdiv. ring. Qed.
Lemma hsic_var_sign n A B : (6 <= n)%nat -> 0 <= hsic_var n A B /\ (hsic_var n A B = 0 -> forall i j, (i < n)%nat -> (j < n)%nat -> i <> j -> A i j * B i j = 0).
Proof.
  intros Hn. assert (N6 : 6 <= INR n) by (replace 6 with (INR 6) by (cbn; ring); apply le_INR; lia). unfold hsic_var. cbv zeta. set (v := fun i j => (1 / 6 * A i j * B i j) ^ 2).
  assert (E : msum n v - mtrace n v = msum n (fun i j => if Nat.eqb i j then 0 else v i j)).
  { rewrite mtrace_diag, <- msum_sub. unfold msum. apply rsum_ext. intros. apply rsum_ext. intros j _. destruct (Nat.eqb _ j); ring. }
  rewrite E. assert (P : forall i j, (i < n)%nat -> (j < n)%nat -> 0 <= (if Nat.eqb i j then 0 else v i j)) by (intros i j _ _; destruct (Nat.eqb i j); [lra|]; unfold v; apply pow2_ge_0).
  pose proof (msum_nonneg n _ P) as Q. set (S0 := msum n (fun i j => if Nat.eqb i j then 0 else v i j)) in *.
  assert (C : 0 < 72 * (INR n - 4) * (INR n - 5) / INR n / (INR n - 1) / (INR n - 2) / (INR n - 3) * (1 / INR n / (INR n - 1))).
  { unfold Rdiv. repeat apply Rmult_lt_0_compat; try (apply Rinv_0_lt_compat); lra. }
  rewrite <- Rmult_assoc. split; [apply Rmult_le_pos; lra|]. intros Z0 i j Hi Hj Hij. apply Rmult_integral in Z0. destruct Z0 as [Z0|Z0]; [lra|].
  pose proof (msum_0 n _ P Z0 i j Hi Hj) as F. cbn beta in F. destruct (Nat.eqb_spec i j); [contradiction|]. unfold v in F. cbn [pow] in F. rewrite Rmult_1_r in F. apply Rmult_integral in F.
  destruct F as [F|F]; lra.
Qed.
(** With at least 6 samples, and two different ones among the first 100 of each variable, the p-value is 1 minus the distribution function of a gamma distribution
    with positive parameters, a number between 0 and 1, unless the products of the entries off the diagonal of the centered matrices are all 0. *)
Theorem C197_p_value : forall cdf n dx dy X Y wx wy, (6 <= n)%nat -> get_kernel_width n dx X = Some wx -> get_kernel_width n dy Y = Some wy ->
  (exists i j, (i < n)%nat /\ (j < n)%nat /\ i <> j /\ hcenter n (rbf dx X wx) i j * hcenter n (rbf dy Y wy) i j <> 0) ->
  exists alpha beta, 0 < alpha /\ 0 < beta /\
    hsic_test_gamma cdf Mdbs n dx dy X Y = Some (Some (hsic_of n dx dy X Y wx wy), Some (1 - cdf (hsic_of n dx dy X Y wx wy) alpha beta)) /\
    alpha * beta = INR n * hsic_mean n (rbf dx X wx) (rbf dy Y wy) /\ alpha * beta ^ 2 = INR n ^ 2 * hsic_var n (hcenter n (rbf dx X wx)) (hcenter n (rbf dy Y wy)).
Proof.
  intros cdf n dx dy X Y wx wy Hn WX WY (i & j & Hi & Hj & Hij & HP). assert (N6 : 6 <= INR n) by (replace 6 with (INR 6) by (cbn; ring); apply le_INR; lia).
  assert (ND : forall d X0 w, get_kernel_width n d X0 = Some w -> ~ (forall a b c, (a < n)%nat -> (b < n)%nat -> (c < d)%nat -> X0 a c = X0 b c)).
  { intros d X0 w E F. assert (G : get_kernel_width n d X0 = None) by (apply (proj2 (proj1 (C197_width n d X0))); intros; now apply F). rewrite G in E. discriminate. }
  assert (PW : forall d X0 w, get_kernel_width n d X0 = Some w -> 0 < w) by (intros d X0 w E; unfold get_kernel_width in E; now apply width_pos in E).
  pose proof (PW _ _ _ WX) as PX. pose proof (PW _ _ _ WY) as PY.
  destruct (hsic_var_sign n (hcenter n (rbf dx X wx)) (hcenter n (rbf dy Y wy)) Hn) as [VN VZ]. set (var := hsic_var n (hcenter n (rbf dx X wx)) (hcenter n (rbf dy Y wy))) in *.
  assert (V : 0 < var) by (destruct VN as [V|V]; [exact V|]; exfalso; apply HP; apply VZ; auto).
  pose proof (mu_lt_1 n dx X wx ltac:(lia) ltac:(lra) (ND _ _ _ WX)) as MX. pose proof (mu_lt_1 n dy Y wy ltac:(lia) ltac:(lra) (ND _ _ _ WY)) as MY.
  set (mean := hsic_mean n (rbf dx X wx) (rbf dy Y wy)) in *. assert (M : 0 < mean) by (unfold mean; rewrite hsic_mean_factor; unfold Rdiv; apply Rmult_lt_0_compat; [nra|apply Rinv_0_lt_compat; lra]).
  assert (A : 0 < mean ^ 2 / var) by (unfold Rdiv; apply Rmult_lt_0_compat; [cbn [pow]; nra|now apply Rinv_0_lt_compat]).
  assert (B : 0 < var * INR n / mean) by (unfold Rdiv; apply Rmult_lt_0_compat; [nra|now apply Rinv_0_lt_compat]).
  exists (mean ^ 2 / var), (var * INR n / mean). split; [exact A|]. split; [exact B|]. split; [|split; field; lra].
  unfold hsic_test_gamma. destruct (Nat.ltb_spec n 4) as [|_]; [lia|]. cbn [width_by]. rewrite WX, WY, !usable_pos by assumption. cbv zeta. fold (hsic_of n dx dy X Y wx wy). fold var. fold mean. unfold gamma_sf.
  destruct (Req_EM_T var 0); [lra|]. destruct (Req_EM_T mean 0); [lra|]. cbv zeta. destruct (Rlt_dec 0 (mean ^ 2 / var)); [|contradiction]. destruct (Rlt_dec 0 (var * INR n / mean)); [reflexivity|contradiction].
Qed.
Theorem C197_p_range : forall cdf bw n dx dy X Y st p, (forall x a b, 0 <= cdf x a b <= 1) -> hsic_test_gamma cdf bw n dx dy X Y = Some (st, Some p) -> 0 <= p <= 1 /\ (6 <= n)%nat.
Proof.
  intros cdf bw n dx dy X Y st p HC H. split.
  - unfold hsic_test_gamma in H. destruct (Nat.ltb n 4); [discriminate|]. destruct (usable (width_by bw n dx X)) as [wx|]; [|discriminate]. destruct (usable (width_by bw n dy Y)) as [wy|]; [|discriminate].
    cbv zeta in H. injection H as _ H. unfold gamma_sf in H. destruct (Req_EM_T _ 0); [discriminate|]. destruct (Req_EM_T _ 0); [discriminate|]. cbv zeta in H. destruct (Rlt_dec _ _); [|discriminate]. destruct (Rlt_dec _ _); [|discriminate].
    injection H as <-. match goal with |- context [cdf ?x ?a ?b] => pose proof (HC x a b) end. lra.
  - destruct (C197_few_samples cdf bw n dx dy X Y) as [F G]. destruct (Nat.lt_ge_cases n 4) as [L|L]; [rewrite F in H by exact L; discriminate|]. destruct (Nat.lt_ge_cases n 6) as [M|M]; [|exact M].
    assert (E : Some p = None) by (apply (G ltac:(lia) st); exact H). discriminate.
Qed.
(** The hypothesis is met whenever a variable that is not constant is tested against itself. *)
Lemma C197_p_value_met n d X w : (6 <= n)%nat -> get_kernel_width n d X = Some w ->
  exists i j, (i < n)%nat /\ (j < n)%nat /\ i <> j /\ hcenter n (rbf d X w) i j * hcenter n (rbf d X w) i j <> 0.
Proof.
  intros Hn W. assert (PW : 0 < w) by (unfold get_kernel_width in W; now apply width_pos in W).
  destruct (Req_dec (hsic_var n (hcenter n (rbf d X w)) (hcenter n (rbf d X w))) 0) as [E|E].
  - exfalso. destruct (hsic_var_sign n (hcenter n (rbf d X w)) (hcenter n (rbf d X w)) Hn) as [_ VZ]. specialize (VZ E). set (A := hcenter n (rbf d X w)) in *.
    assert (OFF : forall i j, (i < n)%nat -> (j < n)%nat -> i <> j -> A i j = 0) by (intros i j Hi Hj Hij; pose proof (VZ i j Hi Hj Hij) as F; apply Rmult_integral in F; tauto).
    assert (DG : forall i, (i < n)%nat -> A i i = 0).
    { intros i Hi. destruct (C194_centering n (rbf d X w) ltac:(lia)) as (_ & _ & RS & _). specialize (RS i Hi). fold A in RS.
      rewrite (rsum_ext _ (fun j => eye i j * A i j)) in RS; [now rewrite (rsum_eye n i (fun j => A i j) Hi) in RS|].
      intros j Hj. apply in_seq0 in Hj. unfold eye. destruct (Nat.eqb_spec i j) as [->|N]; [ring|]. rewrite (OFF i j) by assumption. ring. }
    assert (Z0 : hsic_of n d d X X w w = 0).
    { unfold hsic_of, hsic_teststat. fold A. assert (M : msum n (fun i j => A j i * A i j) = 0); [|rewrite M; ring]. unfold msum. rewrite (rsum_ext _ (fun _ => 0 * 0)); [rewrite rsum_const; ring|].
      intros i Hi. rewrite (rsum_ext _ (fun _ => 0 * 0)); [rewrite rsum_const; ring|]. intros j Hj. apply in_seq0 in Hi, Hj. destruct (Nat.eq_dec i j) as [->|N]; [rewrite DG by exact Hj; ring|rewrite (OFF i j) by assumption; ring]. }
    assert (C : get_kernel_width n d X = None); [|rewrite C in W; discriminate].
    apply (proj2 (proj1 (C197_width n d X))). intros a b c Ha Hb _ _ Hc. apply (C195_self n d X w) with (a := a) (b := b); auto; [lia|lra].
  - destruct (hsic_var_sign n (hcenter n (rbf d X w)) (hcenter n (rbf d X w)) Hn) as [VN _]. set (A := hcenter n (rbf d X w)) in *.
    destruct (existsb (fun i => existsb (fun j => negb (Nat.eqb i j) && (if Req_EM_T (A i j * A i j) 0 then false else true)) (seq 0 n)) (seq 0 n)) eqn:EX.
    + apply existsb_exists in EX. destruct EX as (i & Hi & EX). apply existsb_exists in EX. destruct EX as (j & Hj & EX). apply andb_true_iff in EX. destruct EX as [E1 E2]. apply in_seq0 in Hi, Hj.
      exists i, j. split; [exact Hi|]. split; [exact Hj|]. split; [intros ->; now rewrite Nat.eqb_refl in E1|]. destruct (Req_EM_T (A i j * A i j) 0); [discriminate|assumption].
    + exfalso. apply E. unfold hsic_var. cbv zeta. set (v := fun i j => (1 / 6 * A i j * A i j) ^ 2).
      assert (Z0 : msum n v - mtrace n v = 0); [|rewrite Z0; ring]. rewrite mtrace_diag, <- msum_sub. unfold msum. rewrite (rsum_ext _ (fun _ => 0 * 0)); [rewrite rsum_const; ring|].
      intros i Hi. rewrite (rsum_ext _ (fun _ => 0 * 0)); [rewrite rsum_const; ring|]. intros j Hj. destruct (Nat.eqb_spec i j) as [->|N]; [ring|].
      assert (F : A i j * A i j = 0).
      { destruct (Req_EM_T (A i j * A i j) 0) as [F|F]; [exact F|]. exfalso. assert (T : existsb (fun i => existsb (fun j => negb (Nat.eqb i j) && (if Req_EM_T (A i j * A i j) 0 then false else true)) (seq 0 n)) (seq 0 n) = true); [|rewrite T in EX; discriminate].
        apply existsb_exists. exists i. split; [exact Hi|]. apply existsb_exists. exists j. split; [exact Hj|]. destruct (Nat.eqb_spec i j); [contradiction|]. destruct (Req_EM_T (A i j * A i j) 0); [contradiction|reflexivity]. }
      unfold v. replace (1 / 6 * A i j * A i j) with (1 / 6 * (A i j * A i j)) by ring. rewrite F. ring.
Qed.

(** ** C198: hsic2.hsic_gam (CAM-UV) against hsic.hsic_test_gamma *)
Lemma gam_stat_eq n A B A' B' : (0 < n)%nat -> (forall i j, (i < n)%nat -> (j < n)%nat -> A' i j = A i j) -> (forall i j, (i < n)%nat -> (j < n)%nat -> B' i j = B i j) -> gam_stat n A' B' = hsic_teststat n A B.
Proof.
  intros Hn HA HB. unfold gam_stat, hsic_teststat. rewrite (rel_msum n (fun i => i) (shuffle_id n) (fun i j => A' j i * B' i j) (fun i j => A j i * B i j)); [unfold Rdiv; ring|]. intros i j Hi Hj. now rewrite HA, HB.
Qed.
Lemma gam_var_eq n A B A' B' : (4 <= n)%nat -> (forall i j, (i < n)%nat -> (j < n)%nat -> A' i j = A i j) -> (forall i j, (i < n)%nat -> (j < n)%nat -> B' i j = B i j) -> gam_var n A' B' = hsic_var n A B.
Proof.
  intros Hn HA HB. assert (N4 : 4 <= INR n) by (replace 4 with (INR 4) by (cbn; ring); apply le_INR; lia). unfold gam_var, hsic_var. cbv zeta.
  assert (RV : related n (fun i => i) (fun i j => (A' i j * B' i j / 6) ^ 2) (fun i j => (1 / 6 * A i j * B i j) ^ 2)) by (intros i j Hi Hj; rewrite HA, HB by assumption; f_equal; field).
  rewrite (rel_msum n _ (shuffle_id n) _ _ RV), (rel_trace n _ (shuffle_id n) _ _ RV). field. lra.
Qed.
Lemma gam_mu_eq n K : gam_mu n K = hsic_mu n K.
Proof.
  unfold gam_mu, hsic_mu. rewrite (rel_msum n (fun i => i) (shuffle_id n) (fun i j => K i j - (if Nat.eqb i j then K i j else 0)) (zero_diag K)); [unfold Rdiv; ring|]. intros i j _ _. unfold zero_diag. destruct (Nat.eqb i j); ring.
Qed.
Lemma gam_mean_eq n K L : gam_mean n K L = hsic_mean n K L.
Proof. unfold gam_mean, hsic_mean. rewrite !gam_mu_eq. unfold Rdiv. ring. Qed.
Lemma hkh_center n K : (0 < n)%nat -> forall i j, (i < n)%nat -> (j < n)%nat -> hkh n K i j = hcenter n K i j.
Proof. intros Hn. apply (C194_centering n K Hn). Qed.
(** The same bandwidth in both: a rule of thumb, or the median distance with at most 100 samples. *)
Definition same_bandwidth (n : nat) (kw : kwidth) (bw : bandwidth) : Prop :=
  match kw, bw with KOther, Mdbs => (n <= 100)%nat | KBw f, Bw g => f = g | KFloat w, Bw g => forall X, g X = w | _, _ => False end.
Definition agreed (a : option (option R * option R)) (f : option R * option R -> option R) : option R := match a with Some r => f r | None => None end.
Theorem C198_same_test : forall cdf ppf n dx dy X Y alph kw bw, (4 <= n)%nat -> same_bandwidth n kw bw ->
  hsic_gam cdf ppf n dx dy X Y alph None None None None MPvalue kw = Number (agreed (hsic_test_gamma cdf bw n dx dy X Y) snd) /\
  hsic_gam cdf ppf n dx dy X Y alph None None None None MStat kw = Number (agreed (hsic_test_gamma cdf bw n dx dy X Y) fst).
Proof.
  intros cdf ppf n dx dy X Y alph kw bw Hn HB.
  assert (W : forall d X0, gam_width kw None None n d X0 = width_by bw n d X0).
  { intros d X0. destruct kw as [|w|f], bw as [|g]; cbn [same_bandwidth] in HB; try contradiction; cbn [gam_width width_by]; [|now rewrite HB|now rewrite HB]. unfold get_kernel_width, get_width. destruct (Nat.ltb_spec 100 n); [lia|reflexivity]. }
  unfold hsic_gam, gam_kernel, hsic_test_gamma, agreed. rewrite !W. destruct (Nat.ltb_spec n 4) as [|_]; [lia|].
  destruct (usable (width_by bw n dx X)) as [wx|]; [|split; reflexivity]. destruct (usable (width_by bw n dy Y)) as [wy|]; [|split; reflexivity]. cbv zeta. cbn [fst snd].
  rewrite (gam_stat_eq n (hcenter n (rbf dx X wx)) (hcenter n (rbf dy Y wy))), (gam_var_eq n (hcenter n (rbf dx X wx)) (hcenter n (rbf dy Y wy))), gam_mean_eq; try (exact Hn); try (intros; apply hkh_center; lia || assumption); [split; reflexivity|lia].
Qed.
(** Kernels given by the caller: those of get_K with the width that would be used change nothing. *)
Theorem C198_given_kernels : forall cdf ppf n dx dy X Y alph mode kw wx wy vx vy,
  usable (gam_width kw wx None n dx X) = Some vx -> usable (gam_width kw wy None n dy Y) = Some vy ->
  hsic_gam cdf ppf n dx dy X Y alph wx wy (Some (rbf dx X vx, hkh n (rbf dx X vx))) (Some (rbf dy Y vy, hkh n (rbf dy Y vy))) mode kw =
  hsic_gam cdf ppf n dx dy X Y alph wx wy None None mode kw.
Proof. intros cdf ppf n dx dy X Y alph mode kw wx wy vx vy HX HY. unfold hsic_gam, gam_kernel. now rewrite HX, HY. Qed.
(** The decision, the p-value and the statistic minus the threshold agree, if ppf is the inverse of the distribution function. *)
Theorem C198_decision : forall cdf ppf n dx dy X Y alph wx wy KKc LLc kw,
  (forall q x a b, 0 < a -> 0 < b -> (x < ppf q a b <-> cdf x a b < q)) ->
  (hsic_gam cdf ppf n dx dy X Y alph wx wy KKc LLc MDecision kw = Decision true <-> exists p, hsic_gam cdf ppf n dx dy X Y alph wx wy KKc LLc MPvalue kw = Number (Some p) /\ alph < p) /\
  (hsic_gam cdf ppf n dx dy X Y alph wx wy KKc LLc MDecision kw = Decision true <-> exists r, hsic_gam cdf ppf n dx dy X Y alph wx wy KKc LLc MMinusThres kw = Number (Some r) /\ r < 0).
Proof.
  intros cdf ppf n dx dy X Y alph wx wy KKc LLc kw HI. unfold hsic_gam. destruct (gam_kernel kw wx KKc n dx X) as [[K Kc]|]; [|split; split; try discriminate; intros (r & F & _); discriminate].
  destruct (gam_kernel kw wy LLc n dy Y) as [[L Lc]|]; [|split; split; try discriminate; intros (r & F & _); discriminate]. cbv zeta. destruct (Nat.ltb n 4); [split; split; try discriminate; intros (r & F & _); discriminate|].
  unfold gamma_sf, gamma_ppf. set (var := gam_var n Kc Lc). set (mean := gam_mean n K L). set (stat := gam_stat n Kc Lc).
  destruct (Req_EM_T var 0); [split; split; try discriminate; intros (r & F & _); discriminate|]. destruct (Req_EM_T mean 0); [split; split; try discriminate; intros (r & F & _); discriminate|]. cbv zeta.
  destruct (Rlt_dec 0 (mean ^ 2 / var)) as [A|A]; [|split; split; try discriminate; intros (r & F & _); discriminate]. destruct (Rlt_dec 0 (var * INR n / mean)) as [B|B]; [|split; split; try discriminate; intros (r & F & _); discriminate].
  specialize (HI (1 - alph) stat _ _ A B). cbn [option_map]. set (t := ppf (1 - alph) (mean ^ 2 / var) (var * INR n / mean)) in *. set (c := cdf stat (mean ^ 2 / var) (var * INR n / mean)) in *.
  destruct (Rlt_dec stat t) as [S0|S0].
  - split; split; try reflexivity; intros _; [exists (1 - c); split; [reflexivity|apply HI in S0; lra]|exists (stat - t); split; [reflexivity|lra]].
  - split; split; try discriminate; intros (p & E & F); injection E as <-; exfalso; apply S0; [apply HI; lra|lra].
Qed.
(** With fewer than 6 samples the decision is always "dependent" and the p-value NaN; with at most 3, hsic_test_gamma raises an exception instead. *)
Theorem C198_few_samples : forall cdf ppf n dx dy X Y alph wx wy KKc LLc kw, (n < 6)%nat ->
  hsic_gam cdf ppf n dx dy X Y alph wx wy KKc LLc MDecision kw = Decision false /\ hsic_gam cdf ppf n dx dy X Y alph wx wy KKc LLc MPvalue kw = Number None.
Proof.
  intros cdf ppf n dx dy X Y alph wx wy KKc LLc kw Hn. unfold hsic_gam. destruct (gam_kernel kw wx KKc n dx X) as [[K Kc]|]; [|split; reflexivity]. destruct (gam_kernel kw wy LLc n dy Y) as [[L Lc]|]; [|split; reflexivity]. cbv zeta.
  destruct (Nat.ltb_spec n 4); [split; reflexivity|]. assert (V : gam_var n Kc Lc = 0).
  { unfold gam_var. cbv zeta. assert (Z0 : (INR n - 4) * (INR n - 5) = 0) by (assert (E : n = 4%nat \/ n = 5%nat) by lia; destruct E as [-> | ->]; cbn [INR]; ring).
    unfold Rdiv. match goal with |- ?a * 72 * ?b * ?c * ?d * ?e * ?f * ?g = 0 => replace (a * 72 * b * c * d * e * f * g) with ((b * c) * (a * 72 * d * e * f * g)) by ring end. rewrite Z0. ring. }
  unfold gamma_sf, gamma_ppf. rewrite V. destruct (Req_EM_T 0 0); [split; reflexivity|contradiction].
Qed.
(** A constant variable: neither test calls it independent of anything. *)
Theorem C198_constant_refuted : forall cdf ppf n dx dy X Y alph, (4 <= n)%nat -> (forall a b c, (a < n)%nat -> (b < n)%nat -> (c < dx)%nat -> X a c = X b c) ->
  hsic_gam cdf ppf n dx dy X Y alph None None None None MDecision KOther = Decision false /\ hsic_gam cdf ppf n dx dy X Y alph None None None None MPvalue KOther = Number None /\
  hsic_test_gamma cdf Mdbs n dx dy X Y = Some (None, None).
Proof.
  intros cdf ppf n dx dy X Y alph Hn H. assert (G : get_width n dx X = None) by (apply width_none; exact H).
  split; [|split; [|apply nan_if_constant; [exact Hn|intros a b c Ha Hb _ _ Hc; now apply H]]]; unfold hsic_gam, gam_kernel; cbn [gam_width]; rewrite G; reflexivity.
Qed.

(** ** C199: the regression of RCD that minimises HSIC *)
Lemma fold_plus_nonneg {A} (f : A -> R) l a : 0 <= a -> (forall x, In x l -> 0 <= f x) -> 0 <= fold_left (fun o x => o + f x) l a.
Proof. revert a. induction l as [|x l IH]; intros a Ha H; [exact Ha|]. cbn [fold_left]. apply IH; [pose proof (H x (or_introl eq_refl)); lra|intros; apply H; now right]. Qed.
Definition ml_width (wi : R) (ys : list (rvec * R)) (coef : nat -> R) : R := wi - rsum (fun j => coef j * snd (nth j ys (fun _ => 0, 0))) (seq 0 (length ys)).
Definition ml_resid (yi : rvec) (ys : list (rvec * R)) (coef : nat -> R) (s : nat) : R := yi s - rsum (fun j => coef j * fst (nth j ys (fun _ => 0, 0)) s) (seq 0 (length ys)).
Lemma fold_minus (ys : list (rvec * R)) (g : rvec * R -> R) (coef : nat -> R) : forall k a,
  fold_left (fun r jy => r - coef (fst jy) * g (snd jy)) (combine (seq k (length ys)) ys) a = a - rsum (fun j => coef (k + j)%nat * g (nth j ys (fun _ => 0, 0))) (seq 0 (length ys)).
Proof.
  induction ys as [|y ys IH]; intros k a; [unfold rsum; cbn; ring|]. cbn [length seq combine fold_left fst snd]. rewrite IH. rewrite <- seq_shift. cbn [seq]. rewrite rsum_cons, rsum_mapf. cbn [nth]. rewrite Nat.add_0_r.
  rewrite (rsum_ext (fun j => coef (S k + j)%nat * g (nth j ys (fun _ => 0, 0))) (fun a0 => coef (k + S a0)%nat * g (nth a0 ys (fun _ => 0, 0)))) by (intros; now rewrite Nat.add_succ_r). ring.
Qed.
Lemma fold_sum {A} (f : A -> R) l a : fold_left (fun o x => o + f x) l a = a + rsum f l.
Proof. revert a. induction l as [|x l IH]; intros a; [unfold rsum; cbn; ring|]. cbn [fold_left]. rewrite IH, rsum_cons. ring. Qed.
Lemma rbf_col_ext f g w i j : (forall s, f s = g s) -> rbf 1 (col f) w i j = rbf 1 (col g) w i j.
Proof. intros H. unfold rbf. rewrite !dists_sqdist. unfold sqdist, col, rsum. cbn [seq map fold_right]. now rewrite !H. Qed.
(** The objective is the sum of the HSIC statistics of the residual with the regressors, with a width for the residual that is linear in the coefficients; never negative. *)
Theorem C199_objective : forall n yi wi ys coef, (0 < n)%nat ->
  mlhsicr n yi wi ys coef = rsum (fun yw => hsic_of n 1 1 (col (ml_resid yi ys coef)) (col (fst yw)) (ml_width wi ys coef) (snd yw)) ys /\
  (ml_width wi ys coef <> 0 -> (forall yw, In yw ys -> snd yw <> 0) -> 0 <= mlhsicr n yi wi ys coef).
Proof.
  intros n yi wi ys coef Hn.
  assert (E : mlhsicr n yi wi ys coef = rsum (fun yw => hsic_of n 1 1 (col (ml_resid yi ys coef)) (col (fst yw)) (ml_width wi ys coef) (snd yw)) ys).
  { unfold mlhsicr. cbv zeta. rewrite (fold_minus ys snd coef 0 wi). rewrite fold_sum, Rplus_0_l. apply rsum_ext. intros yw _. unfold hsic_of. fold (ml_width wi ys coef).
    assert (RE : forall i j, rbf 1 (col (fun s => fold_left (fun r jy => r - coef (fst jy) * fst (snd jy) s) (combine (seq 0 (length ys)) ys) (yi s))) (ml_width wi ys coef) i j = rbf 1 (col (ml_resid yi ys coef)) (ml_width wi ys coef) i j).
    { intros i j. apply rbf_col_ext. intros s. exact (fold_minus ys (fun p => fst p s) coef 0 (yi s)). }
    change (rsum (fun j => coef (0 + j)%nat * snd (nth j ys (fun _ => 0, 0))) (seq 0 (length ys))) with (rsum (fun j => coef j * snd (nth j ys (fun _ => 0, 0))) (seq 0 (length ys))). fold (ml_width wi ys coef).
    apply (rel_teststat n (fun i => i) (shuffle_id n)); [apply (rel_hcenter n _ (shuffle_id n)); intros i j _ _; apply RE|intros i j _ _; reflexivity]. }
  split; [exact E|]. intros HW HY. rewrite E. apply rsum_nonneg. intros yw Hin. apply C195_nonneg; auto.
Qed.
(** Two samples: the statistic. *)
Lemma hsic_two X Y wx wy : hsic_of 2 1 1 X Y wx wy = (1 - rbf 1 X wx 0%nat 1%nat) * (1 - rbf 1 Y wy 0%nat 1%nat) / 2.
Proof.
  assert (D : forall X w i, rbf 1 X w i i = 1) by (intros; unfold rbf; rewrite dists_sqdist, sqdist_refl; unfold Rdiv; rewrite Ropp_0, !Rmult_0_l; apply exp_0).
  unfold hsic_of, hsic_teststat, msum, hcenter, colsum, rowsum, msum, rsum. cbn [seq map fold_right INR]. rewrite !D, !(rbf_sym 1 _ _ 1%nat 0%nat). set (k := rbf 1 X wx 0%nat 1%nat). set (l := rbf 1 Y wy 0%nat 1%nat). field.
Qed.
(** The width of the residual depends on the sign of a regressor: measuring y_j with the opposite sign, with the opposite coefficient, leaves the residual and the statistic as a
    function of the widths unchanged, but not the objective. *)
Theorem C199_sign_refuted : exists n yi wi yj wj c,
  get_kernel_width n 1 (col yi) = Some wi /\ get_kernel_width n 1 (col yj) = Some wj /\ get_kernel_width n 1 (col (fun s => - yj s)) = Some wj /\
  (forall s, ml_resid yi [(fun s => - yj s, wj)] (fun _ => - c) s = ml_resid yi [(yj, wj)] (fun _ => c) s) /\
  mlhsicr n yi wi [(fun s => - yj s, wj)] (fun _ => - c) <> mlhsicr n yi wi [(yj, wj)] (fun _ => c).
Proof.
  set (yi := (fun s : nat => match s with 0%nat => 0 | _ => 2 end) : rvec). set (yj := (fun s : nat => match s with 0%nat => 0 | _ => 1 end) : rvec). set (mj := (fun s : nat => - yj s) : rvec).
  assert (SQ : forall y : rvec, sqdist 1 (col y) 0%nat 1%nat = (y 0%nat - y 1%nat) * (y 0%nat - y 1%nat)) by (intros; unfold sqdist, col, rsum; cbn [seq map fold_right]; ring).
  assert (W : forall y : rvec, y 0%nat <> y 1%nat -> get_kernel_width 2 1 (col y) = Some (sqrt (1 / 2 * ((y 0%nat - y 1%nat) * (y 0%nat - y 1%nat))))).
  { intros y Hy. unfold get_kernel_width, width_of. cbn [Nat.ltb Nat.leb]. rewrite upper_keep. cbn [seq flat_map Nat.leb app]. rewrite SQ. unfold keep. destruct (Rlt_dec 0 ((y 0%nat - y 1%nat) * (y 0%nat - y 1%nat))) as [P|P].
    - cbn [app]. f_equal.
    - exfalso. apply P. assert (y 0%nat - y 1%nat <> 0) by lra. destruct (Rtotal_order (y 0%nat - y 1%nat) 0) as [|[|]]; [nra|contradiction|nra]. }
  set (wj := sqrt (1 / 2)). assert (PJ : 0 < wj) by (apply sqrt_lt_R0; lra).
  assert (WI : sqrt (1 / 2 * ((yi 0%nat - yi 1%nat) * (yi 0%nat - yi 1%nat))) = 2 * wj).
  { unfold yi, wj. replace (1 / 2 * ((0 - 2) * (0 - 2))) with (2 ^ 2 * (1 / 2)) by field. rewrite sqrt_mult_alt by lra. f_equal. apply sqrt_pow2. lra. }
  exists 2%nat, yi, (2 * wj), yj, wj, 1. split; [rewrite W by (unfold yi; lra); now rewrite WI|]. split; [rewrite W by (unfold yj; lra); unfold yj, wj; f_equal; f_equal; field|].
  split; [rewrite W by (unfold yj; lra); unfold yj, wj; f_equal; f_equal; field|]. split.
  - intros s. unfold ml_resid, rsum. cbn [length seq map fold_right nth fst]. ring.
  - change (mlhsicr 2 yi (2 * wj) [(mj, wj)] (fun _ => - (1)) <> mlhsicr 2 yi (2 * wj) [(yj, wj)] (fun _ => 1)). assert (L2 : (0 < 2)%nat) by lia. rewrite (proj1 (C199_objective 2 yi (2 * wj) [(mj, wj)] (fun _ => - (1)) L2)), (proj1 (C199_objective 2 yi (2 * wj) [(yj, wj)] (fun _ => 1) L2)). unfold rsum at 1 2. cbn [map fold_right fst snd].
    assert (WA : ml_width (2 * wj) [(mj, wj)] (fun _ => - (1)) = 3 * wj) by (unfold ml_width, rsum; cbn [length seq map fold_right nth snd]; ring).
    assert (WB : ml_width (2 * wj) [(yj, wj)] (fun _ => 1) = wj) by (unfold ml_width, rsum; cbn [length seq map fold_right nth snd]; ring).
    rewrite WA, WB, !hsic_two. unfold rbf. rewrite !dists_sqdist, !SQ.
    assert (RA : ml_resid yi [(mj, wj)] (fun _ => - (1)) 0%nat = 0) by (unfold ml_resid, rsum, yi, mj, yj; cbn [length seq map fold_right nth fst]; ring).
    assert (RB : ml_resid yi [(mj, wj)] (fun _ => - (1)) 1%nat = 1) by (unfold ml_resid, rsum, yi, mj, yj; cbn [length seq map fold_right nth fst]; ring).
    assert (RC : ml_resid yi [(yj, wj)] (fun _ => 1) 0%nat = 0) by (unfold ml_resid, rsum, yi, mj, yj; cbn [length seq map fold_right nth fst]; ring).
    assert (RD : ml_resid yi [(yj, wj)] (fun _ => 1) 1%nat = 1) by (unfold ml_resid, rsum, yi, mj, yj; cbn [length seq map fold_right nth fst]; ring).
    rewrite RA, RB, RC, RD. unfold mj, yj. assert (W2 : wj ^ 2 = 1 / 2) by (unfold wj; cbn [pow]; rewrite Rmult_1_r; apply sqrt_sqrt; lra).
    replace ((3 * wj) ^ 2) with (9 * wj ^ 2) by ring. rewrite W2.
    replace (- ((0 - 1) * (0 - 1)) / 2 / (9 * (1 / 2))) with (- (1 / 9)) by field. replace (- ((- (0) - - (1)) * (- (0) - - (1))) / 2 / (1 / 2)) with (- (1)) by field. replace (- ((0 - 1) * (0 - 1)) / 2 / (1 / 2)) with (- (1)) by field.
    pose proof (exp_increasing (- (1)) (- (1 / 9)) ltac:(lra)). pose proof (exp_increasing (- (1)) 0 ltac:(lra)) as E1. rewrite exp_0 in E1.
    set (u := exp (- (1 / 9))) in *. set (v := exp (- (1))) in *. intros E. assert (F : (u - v) * (1 - v) = 0) by lra. apply Rmult_integral in F. destruct F; lra.
Qed.
