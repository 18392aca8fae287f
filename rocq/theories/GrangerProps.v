(** C181 granger_test_2d, C182 granger_lasso. *)
From Verif Require Import Base GrangerModel.
Local Open Scope Z_scope.

Lemma round4_near z : 100 * (round4 z / 100) = round4 z /\ z - 50 <= round4 z <= z + 50.
Proof.
  unfold round4. cbn zeta. pose proof (Z.div_mod z 100 ltac:(lia)). pose proof (Z.mod_pos_bound z 100 ltac:(lia)).
  set (q := z / 100) in *. set (r := z mod 100) in *.
  destruct ((r <? 50) || ((r =? 50) && Z.even q)) eqn:E; (split; [rewrite Z.mul_comm with (m := _ / 100); rewrite Z.mul_comm with (n := 100), Z.div_mul by lia; lia|]).
  - apply orb_prop in E. destruct E as [E|E]; [apply Z.ltb_lt in E; lia|]. apply andb_prop in E. destruct E as [E _]. apply Z.eqb_eq in E. lia.
  - apply orb_false_iff in E. destruct E as [E _]. apply Z.ltb_ge in E. lia.
Qed.

Section P.
Variable value : Type.
Variable gtest : (nat -> value) -> (nat -> value) -> nat -> Z.
Notation gp := (granger_p value gtest).
Notation gadj := (granger_adj value gtest).
Lemma tset_spec P i j v a b : tset P i j v a b = if (Nat.eqb a i && Nat.eqb b j)%bool then v else P a b.
Proof. reflexivity. Qed.
Lemma write_lags (f : nat -> Z) r c m P a b : (c < 2)%nat ->
  fold_left (fun P i => tset P r (c + 2 * i)%nat (f i)) (seq 0 m) P a b =
  if (Nat.eqb a r && Nat.eqb (Nat.modulo b 2) c && Nat.ltb (Nat.div b 2) m)%bool then f (Nat.div b 2) else P a b.
Proof.
  intros Hc. induction m as [|m IH]; [cbn [seq fold_left]; rewrite andb_false_r; reflexivity|].
  rewrite seq_S, fold_left_app. cbn [fold_left]. rewrite tset_spec, IH. cbn [Nat.add].
  pose proof (Nat.div_mod b 2 ltac:(lia)) as D. pose proof (Nat.mod_upper_bound b 2 ltac:(lia)) as U.
  destruct (Nat.eqb_spec a r); cbn [andb]; [|reflexivity].
  destruct (Nat.eqb_spec b (c + 2 * m)%nat) as [->|N].
  - assert (E : Nat.modulo (c + 2 * m) 2 = c /\ Nat.div (c + 2 * m) 2 = m) by lia. destruct E as [-> ->]. rewrite Nat.eqb_refl. cbn [andb].
    destruct (Nat.ltb_spec m (S m)); [reflexivity|lia].
  - destruct (Nat.eqb_spec (Nat.modulo b 2) c); cbn [andb]; [|reflexivity]. destruct (Nat.ltb_spec (Nat.div b 2) m), (Nat.ltb_spec (Nat.div b 2) (S m)); try reflexivity; lia.
Qed.
Lemma lag_col c i : (c < 2)%nat -> Nat.modulo (c + 2 * i) 2 = c /\ Nat.div (c + 2 * i) 2 = i.
Proof. intros Hc. pose proof (Nat.div_mod (c + 2 * i) 2 ltac:(lia)). pose proof (Nat.mod_upper_bound (c + 2 * i) 2 ltac:(lia)). lia. Qed.
Lemma gp_spec maxlag data a b : (a < 2)%nat -> (b < 2 * maxlag)%nat ->
  gp maxlag data a b = if Nat.eqb a (Nat.modulo b 2) then 0 else round4 (gtest (fun t => data t a) (fun t => data t (Nat.modulo b 2)) (S (Nat.div b 2))).
Proof.
  intros Ha Hb. unfold granger_p. cbn [seq fold_left Nat.eqb].
  rewrite !write_lags by lia. pose proof (Nat.div_mod b 2 ltac:(lia)) as D. pose proof (Nat.mod_upper_bound b 2 ltac:(lia)) as U.
  assert (L : Nat.ltb (Nat.div b 2) maxlag = true) by (apply Nat.ltb_lt; lia). rewrite L, !andb_true_r. rewrite !Nat.add_1_r.
  destruct a as [|[|a]]; [| |lia]; destruct (Nat.modulo b 2) as [|[|m]]; try lia; cbn [Nat.eqb andb]; reflexivity.
Qed.

(** ** C181 *)
(** Where the p-values are: entry (r, c + 2 i), r <> c, is the rounded p-value of the test of "c does not cause r" with the lags 1 .. i + 1. *)
Theorem C181_layout_partial : forall maxlag data r c i, (r < 2)%nat -> (c < 2)%nat -> r <> c -> (i < maxlag)%nat ->
  gp maxlag data r (c + 2 * i)%nat = round4 (gtest (fun t => data t r) (fun t => data t c) (i + 1)%nat).
Proof.
  intros maxlag data r c i Hr Hc N Hi. rewrite gp_spec by lia. destruct (lag_col c i Hc) as [E1 E2]. destruct (conj E1 E2) as [-> ->].
  destruct (Nat.eqb_spec r c); [contradiction|]. now rewrite Nat.add_1_r.
Qed.
(** For a significance level with four decimals, a reported influence between the two variables has a p-value below the level. *)
Theorem C181_reported_is_significant_partial : forall maxlag level data r c i, (r < 2)%nat -> (c < 2)%nat -> r <> c -> (i < maxlag)%nat -> level mod 100 = 0 ->
  gadj maxlag level data r (c + 2 * i)%nat = 1 -> gtest (fun t => data t r) (fun t => data t c) (i + 1)%nat < level.
Proof.
  intros maxlag level data r c i Hr Hc N Hi HL. unfold granger_adj. rewrite C181_layout_partial by assumption.
  destruct (Z.ltb_spec (round4 (gtest (fun t => data t r) (fun t => data t c) (i + 1)%nat)) level) as [H|H]; [|discriminate]. intros _.
  destruct (round4_near (gtest (fun t => data t r) (fun t => data t c) (i + 1)%nat)) as [R1 R2]. pose proof (Z.div_mod level 100 ltac:(lia)). lia.
Qed.
(** A p-value at least half a unit of the fourth decimal below the level is reported. *)
Theorem C181_significant_is_reported_partial : forall maxlag level data r c i, (r < 2)%nat -> (c < 2)%nat -> r <> c -> (i < maxlag)%nat ->
  gtest (fun t => data t r) (fun t => data t c) (i + 1)%nat < level - 50 -> gadj maxlag level data r (c + 2 * i)%nat = 1.
Proof.
  intros maxlag level data r c i Hr Hc N Hi H. unfold granger_adj. rewrite C181_layout_partial by assumption.
  destruct (round4_near (gtest (fun t => data t r) (fun t => data t c) (i + 1)%nat)) as [_ R2].
  destruct (Z.ltb_spec (round4 (gtest (fun t => data t r) (fun t => data t c) (i + 1)%nat)) level); [reflexivity|lia].
Qed.
(** Every variable is reported to influence itself at every lag, with p-value 0, whatever the data: nothing was tested. *)
Theorem C181_self_influence_refuted : forall maxlag level data r i, 0 < level -> (r < 2)%nat -> (i < maxlag)%nat ->
  gp maxlag data r (r + 2 * i)%nat = 0 /\ gadj maxlag level data r (r + 2 * i)%nat = 1.
Proof.
  intros maxlag level data r i HL Hr Hi. assert (E : gp maxlag data r (r + 2 * i)%nat = 0).
  { rewrite gp_spec by lia. rewrite (proj1 (lag_col r i Hr)), Nat.eqb_refl. reflexivity. }
  split; [exact E|]. unfold granger_adj. rewrite E. destruct (Z.ltb_spec 0 level); [reflexivity|lia].
Qed.
End P.
(** p = 0.00996 is below the level 0.01, but it is rounded up to it: no influence is reported. *)
Theorem C181_rounding_refuted : exists gtest data, gtest (fun t => data t 0%nat) (fun t => data t 1%nat) 1%nat < 10000 /\ granger_adj nat gtest 1 10000 data 0%nat 1%nat = 0.
Proof. exists (fun _ _ _ => 9960), (fun _ _ => 0%nat). split; [lia|reflexivity]. Qed.

(** ** C182 *)
Section L.
Variable value : Type.
Variable dflt : value.
Notation row := (fun (A : list (list value)) t => nth t A []).
Lemma nth_firstn_lt {A} (d : A) l : forall n k, (k < n)%nat -> nth k (firstn n l) d = nth k l d.
Proof. induction l as [|a l IH]; intros [|n] [|k] H; cbn; try lia; auto. apply IH. lia. Qed.
Lemma nth_skipn_add {A} (d : A) l : forall n k, nth k (skipn n l) d = nth (n + k) l d.
Proof. induction l as [|a l IH]; intros [|n] k; cbn; auto. destruct k; reflexivity. Qed.
Lemma pyslice_length maxlag k (data : list (list value)) : (1 <= k <= maxlag)%nat -> length (pyslice value (maxlag - k) k data) = (length data - maxlag)%nat.
Proof. intros H. unfold pyslice. rewrite skipn_length, firstn_length. lia. Qed.
Lemma pyslice_row maxlag k (data : list (list value)) t : (1 <= k <= maxlag)%nat -> (t < length data - maxlag)%nat -> nth t (pyslice value (maxlag - k) k data) [] = nth (t + maxlag - k) data [].
Proof. intros H Ht. unfold pyslice. rewrite nth_skipn_add, nth_firstn_lt by lia. f_equal. lia. Qed.
Lemma hstack2_length A : forall B, length A = length B -> length (hstack2 value A B) = length A.
Proof. induction A as [|a A IH]; intros [|b B] H; cbn in *; try lia. rewrite IH; lia. Qed.
Lemma hstack2_row A : forall B t, length A = length B -> nth t (hstack2 value A B) [] = nth t A [] ++ nth t B [].
Proof. induction A as [|a A IH]; intros [|b B] [|t] H; cbn in *; try lia; auto. Qed.
Lemma hstack_rows m bs : forall B, length B = m -> (forall C, In C bs -> length C = m) ->
  length (fold_left (hstack2 value) bs B) = m /\ forall t, nth t (fold_left (hstack2 value) bs B) [] = nth t B [] ++ concat (map (fun C => nth t C []) bs).
Proof.
  induction bs as [|C bs IH]; intros B HB HC; cbn [fold_left map concat]; [split; [exact HB|]; intros; now rewrite app_nil_r|].
  destruct (IH (hstack2 value B C)) as [H1 H2]; [rewrite hstack2_length; rewrite ?(HC C (or_introl eq_refl)); exact HB|intros; apply HC; now right|].
  split; [exact H1|]. intros t. rewrite H2, hstack2_row by (rewrite (HC C (or_introl eq_refl)); exact HB). now rewrite <- app_assoc.
Qed.
Lemma concat_block dim (bs : list (list value)) : forall k j, (forall b, In b bs -> length b = dim) -> (j < dim)%nat -> (k < length bs)%nat -> nth (k * dim + j) (concat bs) dflt = nth j (nth k bs []) dflt.
Proof.
  induction bs as [|b bs IH]; intros k j H Hj Hk; cbn [length concat] in *; [lia|]. destruct k as [|k].
  - cbn [Nat.mul Nat.add nth]. rewrite app_nth1; [reflexivity|]. now rewrite (H b (or_introl eq_refl)).
  - rewrite app_nth2 by (rewrite (H b (or_introl eq_refl)); lia). rewrite (H b (or_introl eq_refl)). replace (S k * dim + j - dim)%nat with (k * dim + j)%nat by lia. cbn [nth]. apply IH; [intros; apply H; now right|exact Hj|lia].
Qed.

(** The regressions: for at least one lag and data with dim columns, granger_lasso returns one row of coefficients per variable, that of a regression
    whose t-th target is the variable at time maxlag + t and whose column (k - 1) * dim + j, k = 1 .. maxlag, is the variable j at time maxlag + t - k. *)
Theorem C182_granger_lasso : forall lasso maxlag dim (data : list (list value)), (0 < maxlag)%nat -> (forall r, In r data -> length r = dim) ->
  exists X, length X = (length data - maxlag)%nat /\
    (forall t k j, (t < length data - maxlag)%nat -> (1 <= k <= maxlag)%nat -> (j < dim)%nat -> nth ((k - 1) * dim + j) (nth t X []) dflt = nth j (nth (maxlag + t - k) data []) dflt) /\
    (forall t, (t < length data - maxlag)%nat -> length (nth t X []) = (dim * maxlag)%nat) /\
    exists C, granger_lasso value lasso dflt maxlag dim data = Some C /\ length C = dim /\
      forall i, (i < dim)%nat -> exists Y, nth i C [] = lasso X Y /\ length Y = length X /\ forall t, (t < length X)%nat -> nth t Y dflt = nth i (nth (maxlag + t) data []) dflt.
Proof.
  intros lasso maxlag dim data HM HD. unfold granger_lasso.
  assert (HB : forall B, In B (lagged value maxlag data) -> length B = (length data - maxlag)%nat).
  { intros B HB. unfold lagged in HB. apply in_map_iff in HB. destruct HB as (k & <- & Hk). apply in_seq in Hk. apply pyslice_length. lia. }
  assert (NE : length (lagged value maxlag data) = maxlag) by (unfold lagged; rewrite map_length; apply seq_length).
  destruct (lagged value maxlag data) as [|B r] eqn:E; [cbn in NE; lia|]. unfold hstack.
  assert (F : forallb (fun C => Nat.eqb (length C) (length B)) r = true).
  { apply forallb_forall. intros C HC. apply Nat.eqb_eq. rewrite (HB C) by (now right). now rewrite (HB B) by (now left). }
  rewrite F. destruct (hstack_rows (length data - maxlag) r B (HB B (or_introl eq_refl)) (fun C HC => HB C (or_intror HC))) as [XL XR].
  set (X := fold_left (hstack2 value) r B) in *.
  assert (XR' : forall t, nth t X [] = concat (map (fun k => nth t (pyslice value (maxlag - k) k data) []) (seq 1 maxlag))).
  { intros t. rewrite XR. change (nth t B [] ++ concat (map (fun C => nth t C []) r)) with (concat (map (fun C => nth t C []) (B :: r))). rewrite <- E. unfold lagged. now rewrite map_map. }
  assert (BL : forall t b, (t < length data - maxlag)%nat -> In b (map (fun k => nth t (pyslice value (maxlag - k) k data) []) (seq 1 maxlag)) -> length b = dim).
  { intros t b Ht Hb. apply in_map_iff in Hb. destruct Hb as (k & <- & Hk). apply in_seq in Hk. rewrite pyslice_row by lia. apply HD. apply nth_In. lia. }
  exists X. split; [exact XL|]. split; [|split].
  - intros t k j Ht Hk Hj. rewrite XR'. rewrite concat_block with (dim := dim).
    + assert (K : nth (k - 1) (map (fun k0 => nth t (pyslice value (maxlag - k0) k0 data) []) (seq 1 maxlag)) [] = nth t (pyslice value (maxlag - k) k data) []).
      { rewrite (nth_indep _ [] (nth t (pyslice value (maxlag - 0) 0 data) [])) by (rewrite map_length, seq_length; lia).
        rewrite (map_nth (fun k0 => nth t (pyslice value (maxlag - k0) k0 data) [])). rewrite seq_nth by lia. now replace (1 + (k - 1))%nat with k by lia. }
      rewrite K, pyslice_row by lia. now rewrite (Nat.add_comm maxlag t).
    + intros b Hb. now apply (BL t).
    + exact Hj.
    + rewrite map_length, seq_length. lia.
  - intros t Ht. rewrite XR'. pose proof (fun b => BL t b Ht) as B'. revert B'. replace (dim * maxlag)%nat with (dim * length (map (fun k => nth t (pyslice value (maxlag - k) k data) []) (seq 1 maxlag)))%nat by (rewrite map_length, seq_length; reflexivity).
    generalize (map (fun k => nth t (pyslice value (maxlag - k) k data) []) (seq 1 maxlag)). clear. induction l as [|b l IH]; intros H; cbn [concat length]; [lia|]. rewrite app_length, IH by (intros; apply H; now right). rewrite (H b (or_introl eq_refl)). lia.
  - eexists. split; [reflexivity|]. split; [now rewrite map_length, seq_length|]. intros i Hi.
    exists (map (fun row => nth i row dflt) (skipn maxlag data)). split; [|split].
    + rewrite (nth_indep _ [] (lasso X (map (fun row => nth 0 row dflt) (skipn maxlag data)))) by (rewrite map_length, seq_length; exact Hi).
      rewrite (map_nth (fun i => lasso X (map (fun row => nth i row dflt) (skipn maxlag data)))). now rewrite seq_nth by exact Hi.
    + now rewrite map_length, skipn_length, XL.
    + intros t Ht. rewrite XL in Ht. rewrite (nth_indep _ dflt (nth i [] dflt)) by (rewrite map_length, skipn_length; lia).
      rewrite (map_nth (fun row => nth i row dflt)). now rewrite nth_skipn_add.
Qed.
End L.
Example C182_nonvacuous : (0 < 2)%nat /\ (forall r, In r [[1;2];[3;4];[5;6]] -> length r = 2%nat) /\
  hstack Z (lagged Z 2 [[1;2];[3;4];[5;6]]) = Some [[3;4;1;2]].
Proof. split; [lia|]. split; [|reflexivity]. intros r [<-|[<-|[<-|[]]]]; reflexivity. Qed.
