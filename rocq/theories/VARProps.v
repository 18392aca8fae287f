(** Properties of VARLiNGAM. *)
From Verif Require Import Base UtilsModel UtilsProofs GraphSpec BICModel BICProofs LingamModel LingamSpec LingamProofs EffectModel EffectSpec EffectProofs VARModel VARSpec VARProofs.
From Coq Require Import Permutation Reals Lra.
Local Open Scope R_scope.

(** An instance used in the examples: autoregression with unit coefficients, a full lower triangular LiNGAM matrix, constant regressions. *)
Definition demo (p : nat) (w : R) : externals :=
  mkExt (fun _ X lag => mkVR (repeat eye lag) (calc_residuals p X (repeat eye lag) lag)) (fun _ _ lag => if Nat.eqb lag 1 then Some 0 else Some 1)
        (fun _ _ => (seq 0 p, fun i j => if Nat.ltb j i then 1 else 0)) (fun _ _ _ _ _ => w) (fun _ _ _ _ => [w]).
Lemma demo_regresses p w : var_regresses (demo p w) p.
Proof.
  intros N X lag. split; [apply repeat_length|]. intros t i Ht Hi. cbn [demo x_var vr_resid vr_coefs]. unfold calc_residuals. replace (t - lag + lag)%nat with t by lia. now rewrite estimated_sum.
Qed.
Lemma before_seq p a b : (a < b)%nat -> (b < p)%nat -> before (seq 0 p) a b.
Proof.
  intros H1 H2. pose proof (before_nth (seq 0 p) a b 0%nat H1) as H. rewrite seq_length in H. specialize (H H2). now rewrite !seq_nth in H by lia.
Qed.
Lemma demo_ordered p w : lingam_ordered (demo p w) p.
Proof. intros rows U. cbn [demo x_lingam fst snd]. split; [reflexivity|]. intros i j Hi Hj. destruct (Nat.ltb_spec j i); [|intros Q; exfalso; now apply Q]. intros _. now apply before_seq. Qed.

(** ** C158: without pruning, the errors are what the estimated matrices leave of the data *)
Lemma v_fit_inv E p st N X st' : v_fit E p st N X = Some st' -> exists Ms resid, 
  v_coefs st' = Some Ms /\ v_lags st' = length Ms /\ v_resid st' = resid /\ v_crit st' = v_crit st /\ v_prune st' = v_prune st /\
  v_order st' = fst (x_lingam E (N - length Ms) resid) /\
  (match v_coefs st with None => exists r, estimate_var E (v_lags st) (v_crit st) N X = Some r /\ Ms = vr_coefs r /\ resid = vr_resid r
   | Some Ms0 => Ms = Ms0 /\ resid = calc_residuals p X Ms0 (length Ms0) end) /\
  (if v_prune st then pruning E p N X (v_lags st) (v_order st') (calc_b p (snd (x_lingam E (N - length Ms) resid)) Ms) = Some (v_adj st')
   else v_adj st' = calc_b p (snd (x_lingam E (N - length Ms) resid)) Ms).
Proof.
  unfold v_fit. destruct (v_coefs st) as [Ms0|].
  - set (resid := calc_residuals p X Ms0 (length Ms0)). destruct (x_lingam E (N - length Ms0) resid) as [order B0] eqn:EL. destruct (v_prune st) eqn:EP.
    + destruct (pruning _ _ _ _ _ _ _) as [Bs|] eqn:EB; [|discriminate]. intros Q. injection Q as <-. exists Ms0, resid. cbn [v_coefs v_lags v_resid v_crit v_prune v_order v_adj]. rewrite EL. cbn [fst snd]. rewrite ?EP. repeat split; auto.
    + intros Q. injection Q as <-. exists Ms0, resid. cbn [v_coefs v_lags v_resid v_crit v_prune v_order v_adj]. rewrite EL. cbn [fst snd]. rewrite ?EP. repeat split; auto.
  - destruct (estimate_var _ _ _ _ _) as [r|]; [|discriminate]. cbn [option_map]. destruct (x_lingam E (N - length (vr_coefs r)) (vr_resid r)) as [order B0] eqn:EL. destruct (v_prune st) eqn:EP.
    + destruct (pruning _ _ _ _ _ _ _) as [Bs|] eqn:EB; [|discriminate]. intros Q. injection Q as <-. exists (vr_coefs r), (vr_resid r). cbn [v_coefs v_lags v_resid v_crit v_prune v_order v_adj]. rewrite EL. cbn [fst snd]. rewrite ?EP. repeat split; auto. exists r. auto.
    + intros Q. injection Q as <-. exists (vr_coefs r), (vr_resid r). cbn [v_coefs v_lags v_resid v_crit v_prune v_order v_adj]. rewrite EL. cbn [fst snd]. rewrite ?EP. repeat split; auto. exists r. auto.
Qed.
Lemma estimate_is_fit E lags crit N X r : estimate_var E lags crit N X = Some r -> exists lag, (lag <= lags)%nat /\ r = x_var E N X lag.
Proof.
  unfold estimate_var. destruct crit; [|intros Q; injection Q as <-; eauto]. pose proof (select_spec E N X lags) as H. set (f := fold_left _ (seq 1 lags) None) in *. destruct f as [[v q]|]; [|discriminate].
  cbn. intros Q. injection Q as <-. destruct H as (l & Hl & _ & -> & _). exists l. split; [lia|reflexivity].
Qed.
Theorem C158_errors_are_structural : forall E p st N X st', (v_coefs st = None -> var_regresses E p) -> v_prune st = false -> v_fit E p st N X = Some st' ->
  length (v_adj st') = S (v_lags st') /\
  forall t i, (v_lags st' <= t)%nat -> (i < p)%nat -> X t i = predicted p (v_adj st') X t i + v_errors p st' (t - v_lags st')%nat i.
Proof.
  intros E p st N X st' HV HP EF. destruct (v_fit_inv _ _ _ _ _ _ EF) as (Ms & resid & _ & EL & ER & _ & _ & _ & HM & HB). rewrite HP in HB.
  assert (HR : forall t i, (length Ms <= t)%nat -> (i < p)%nat -> resid (t - length Ms)%nat i = X t i - rsum (fun tau => rsum (fun j => nth (tau - 1) Ms zmat i j * X (t - tau)%nat j) (seq 0 p)) (seq 1 (length Ms))).
  { intros t i Ht Hi. destruct (v_coefs st) as [Ms0|].
    - destruct HM as [-> ->]. unfold calc_residuals. replace (t - length Ms0 + length Ms0)%nat with t by lia. now rewrite estimated_sum.
    - destruct HM as (r & EE & -> & ->). destruct (estimate_is_fit _ _ _ _ _ _ EE) as (lag & _ & ->). destruct (HV eq_refl N X lag) as [H1 H2]. rewrite H1 in *. now apply H2. }
  rewrite HB, EL. split; [unfold calc_b; cbn [length]; now rewrite map_length|]. intros t i Ht Hi. unfold v_errors. rewrite HB, ER. cbn [calc_b nth].
  apply structural; [exact Ht| |exact Hi]. intros k Hk. now apply HR.
Qed.
(** The criterion picks the first of the best lag orders 1 .. lags; fit fails exactly when no value is a number. *)
Theorem C158_lag_selection : forall E lags N X,
  match estimate_var E lags true N X with
  | None => forall l, (1 <= l <= lags)%nat -> x_value E N X l = None
  | Some r => exists l v, (1 <= l <= lags)%nat /\ r = x_var E N X l /\ x_value E N X l = Some v /\
      forall l' v', (1 <= l' <= lags)%nat -> x_value E N X l' = Some v' -> v <= v' /\ ((l' < l)%nat -> v < v')
  end.
Proof.
  intros E lags N X. unfold estimate_var. pose proof (select_spec E N X lags) as H. set (f := fold_left _ (seq 1 lags) None) in *. destruct f as [[v q]|]; cbn; [|exact H].
  destruct H as (l & Hl & E1 & E2 & H). exists l, v. auto.
Qed.
Example C158_nonvacuous : exists st', v_fit (demo 2 0) 2 (v_init 3 true false None) 5 (fun t i => INR (t + i)) = Some st' /\ v_lags st' = 1%nat /\ v_coefs (v_init 3 true false None) = None.
Proof.
  unfold v_fit. cbn [v_init v_coefs v_lags v_crit v_prune]. assert (Q : estimate_var (demo 2 0) 3 true 5 (fun t i => INR (t + i)) = Some (x_var (demo 2 0) 5 (fun t i => INR (t + i)) 1)).
  { unfold estimate_var. cbn. destruct (Rlt_dec 1 0); [lra|]. destruct (Rlt_dec 1 0); [lra|]. reflexivity. }
  rewrite Q. cbn. eexists. split; [reflexivity|]. split; reflexivity.
Qed.

(** ** C159: with pruning they are not *)
Theorem C159_pruned_errors_refuted : exists E p st N X st', var_regresses E p /\ lingam_ordered E p /\ v_prune st = true /\ v_coefs st = None /\ v_fit E p st N X = Some st' /\
  exists t i, (v_lags st' <= t < N)%nat /\ (i < p)%nat /\ X t i <> predicted p (v_adj st') X t i + v_errors p st' (t - v_lags st')%nat i.
Proof.
  exists (demo 1 0), 1%nat, (v_init 1 false true None), 3%nat, (fun _ _ => 1). eexists. split; [apply demo_regresses|]. split; [apply demo_ordered|]. split; [reflexivity|]. split; [reflexivity|].
  split; [reflexivity|]. exists 2%nat, 0%nat. cbn [v_lags]. split; [cbn; lia|]. split; [lia|].
  unfold predicted, v_errors, mvec, rdot, calc_b, eye_minus, calc_residuals, estimated, mmul, rsum, eye; cbn.
  unfold calc_residuals. rewrite estimated_sum. unfold rsum, eye; cbn. lra.
Qed.

(** ** C160: the instantaneous coefficients follow the causal order, pruned or not *)
Lemma ordered_nodup p B order : follows p B order -> NoDup order /\ forall i, In i order <-> (i < p)%nat.
Proof. intros [HP _]. split; [apply (Permutation_NoDup (Permutation_sym HP)), seq_NoDup|]. intros i. rewrite <- in_seq0. split; apply Permutation_in; [exact HP|now apply Permutation_sym]. Qed.
Theorem C160_instantaneous_order : forall E p st N X st', lingam_ordered E p -> v_fit E p st N X = Some st' ->
  follows p (nth 0 (v_adj st') zmat) (v_order st') /\ triangular p (nth 0 (v_adj st') zmat).
Proof.
  intros E p st N X st' HL EF. destruct (v_fit_inv _ _ _ _ _ _ EF) as (Ms & resid & _ & EL & ER & _ & _ & EO & HM & HB). pose proof (HL (N - length Ms)%nat resid) as HF. rewrite <- EO in HF.
  enough (Q : follows p (nth 0 (v_adj st') zmat) (v_order st')) by (split; [exact Q|now apply follows_triangular with (v_order st')]).
  destruct (v_prune st); [|rewrite HB; exact HF].
  destruct (ordered_nodup _ _ _ HF) as [ND HI]. split; [apply HF|]. intros i j Hi Hj N0.
  destruct (pruned_entries E p N X (v_lags st) (v_order st') _ _ _ ND (fun i H => proj2 (HI i) H) HB) as (_ & _ & HE). destruct (HE i Hi) as (E1 & _).
  destruct (in_dec Nat.eq_dec j (firstn (index_of i (v_order st')) (v_order st'))) as [I|I].
  - apply anc_in; [exact ND|now apply HI|exact I].
  - rewrite E1 in N0 by (intros Q; apply I, anc_in; [exact ND|now apply HI|exact Q]). now apply HF.
Qed.
Example C160_nonvacuous : exists st', v_fit (demo 2 7) 2 (v_init 1 false true None) 4 (fun t i => INR (t + i)) = Some st' /\ nth 0 (v_adj st') zmat 1%nat 0%nat = 7.
Proof. eexists. split; reflexivity. Qed.

(** ** C161: the regressions of the pruning *)
Theorem C161_pruned_coefficients : forall E p st N X st', lingam_ordered E p -> v_prune st = true -> (0 < v_lags st)%nat -> v_fit E p st N X = Some st' ->
  length (v_adj st') = S (v_lags st') /\ (v_lags st' <= v_lags st)%nat /\
  let rows := (N - v_lags st)%nat in let order := v_order st' in
  forall i, (i < p)%nat -> exists cols D y, let coef := x_lasso E rows cols D y in
    (forall r, (r < rows)%nat -> y r = X (N - 1 - r)%nat i) /\
    (forall j, before order j i -> exists c, (c < cols)%nat /\ (forall r, (r < rows)%nat -> D r c = X (N - 1 - r)%nat j) /\ nth 0 (v_adj st') zmat i j = coef c) /\
    (forall tau j, (1 <= tau <= v_lags st')%nat -> (j < p)%nat ->
       exists c, (c < cols)%nat /\ (forall r, (r < rows)%nat -> D r c = X (N - 1 - r - tau)%nat j) /\ nth tau (v_adj st') zmat i j = coef c) /\
    (forall c, (c < cols)%nat -> exists tau j, (tau <= v_lags st)%nat /\ (j < p)%nat /\ (tau = 0%nat -> before order j i) /\ forall r, (r < rows)%nat -> D r c = X (N - 1 - r - tau)%nat j).
Proof.
  intros E p st N X st' HL HP HLags EF. destruct (v_fit_inv _ _ _ _ _ _ EF) as (Ms & resid & _ & EL & ER & _ & _ & EO & HM & HB). rewrite HP in HB. pose proof (HL (N - length Ms)%nat resid) as HF. rewrite <- EO in HF.
  destruct (ordered_nodup _ _ _ HF) as [ND HI].
  destruct (pruned_entries E p N X (v_lags st) (v_order st') _ _ _ ND (fun i H => proj2 (HI i) H) HB) as (H1 & H2 & HE). rewrite map_length in H1, H2. rewrite EL. split; [exact H2|]. split; [exact H1|].
  assert (ER' : prune_rows N (v_lags st) = (N - v_lags st)%nat) by (unfold prune_rows; destruct (Nat.eqb_spec (v_lags st) 0); [lia|reflexivity]).
  cbn zeta. intros i Hi. set (anc := firstn (index_of i (v_order st')) (v_order st')).
  exists (length anc + p * v_lags st)%nat, (design p N X (v_lags st) anc), (fun r => block N X (v_lags st) r 0 i). specialize (HE i Hi). cbn zeta in HE. fold anc in HE. rewrite ER' in HE. rewrite map_length in HE. destruct HE as (E1 & E2 & E3). rewrite <- ER' in E2, E3 |- *.
  split; [|split; [|split]].
  - intros r Hr. apply rows_lt in Hr. rewrite block_time by lia. f_equal. lia.
  - intros j Hj. apply anc_in in Hj; [|exact ND|now apply HI]. fold anc in Hj. apply (In_nth _ _ 0%nat) in Hj. destruct Hj as (c & Hc & <-). exists c. split; [lia|]. split; [|now apply E2].
    intros r Hr. now apply design_instant.
  - intros tau j Ht Hj. exists (length anc + p * (tau - 1) + j)%nat. split; [nia|]. split; [|now apply E3]. intros r Hr. apply design_lagged; lia.
  - intros c Hc. destruct (le_lt_dec (length anc) c) as [Q|Q].
    + assert (Hp : (0 < p)%nat) by lia. set (d := (c - length anc)%nat). assert (Hd : (d < p * v_lags st)%nat) by (unfold d; lia).
      exists (S (d / p)), (d mod p)%nat. assert (Hq : (d / p < v_lags st)%nat) by (apply Nat.div_lt_upper_bound; lia). split; [lia|]. split; [apply Nat.mod_upper_bound; lia|]. split; [discriminate|].
      intros r Hr. rewrite <- (design_lagged p N X (v_lags st) anc) by (try lia; apply Nat.mod_upper_bound; lia). f_equal. pose proof (Nat.div_mod d p). replace (S (d / p) - 1)%nat with (d / p)%nat by lia. unfold d in *. lia.
    + exists 0%nat, (nth c anc 0%nat). assert (I : In (nth c anc 0%nat) anc) by now apply nth_In. assert (IB : before (v_order st') (nth c anc 0%nat) i) by (apply anc_in; [exact ND|now apply HI|exact I]).
      split; [lia|]. split; [apply HI; apply before_in in IB; apply IB|]. split; [intros _; exact IB|]. intros r Hr. rewrite design_instant by assumption. f_equal. lia.
Qed.
(** When the criterion chose fewer lags than the object had, the regressions use lagged values the matrices have no room for: the fitted
    values of the regression are not those of the matrices. *)
Theorem C161_dropped_lags_refuted : exists E p N X st', var_regresses E p /\ lingam_ordered E p /\ v_fit E p (v_init 2 true true None) N X = Some st' /\ v_lags st' = 1%nat /\
  exists i r, (i < p)%nat /\ (r < N - 2)%nat /\ let anc := firstn (index_of i (v_order st')) (v_order st') in let cols := (length anc + p * 2)%nat in let D := design p N X 2 anc in
    rsum (fun c => x_lasso E (N - 2) cols D (fun r => X (N - 1 - r)%nat i) c * D r c) (seq 0 cols) <> predicted p (v_adj st') X (N - 1 - r) i.
Proof.
  exists (demo 1 1), 1%nat, 4%nat, (fun _ _ => 1). eexists. split; [apply demo_regresses|]. split; [apply demo_ordered|].
  assert (Q : estimate_var (demo 1 1) 2 true 4 (fun _ _ => 1) = Some (x_var (demo 1 1) 4 (fun _ _ => 1) 1)) by (unfold estimate_var; cbn; destruct (Rlt_dec 1 0); [lra|reflexivity]).
  split; [unfold v_fit; cbn [v_init v_coefs v_lags v_crit v_prune]; rewrite Q; reflexivity|]. split; [reflexivity|]. exists 0%nat, 0%nat. split; [lia|]. split; [lia|].
  unfold predicted, rsum, design, block, flipped; cbn.
  unfold roll_up. lra.
Qed.

(** ** C162: a fitted object keeps its autoregressive coefficients for ever *)
(** Fitting one object to several data sets in turn. *)
Fixpoint fit_all (E : externals) (p : nat) (st : vstate) (data : list (nat * series)) : option vstate :=
  match data with
  | [] => Some st
  | (N, X) :: r => match v_fit E p st N X with None => None | Some st' => fit_all E p st' r end
  end.
Theorem C162_refit_keeps_coefficients_refuted : forall E p st N X st1, v_fit E p st N X = Some st1 -> exists Ms, v_coefs st1 = Some Ms /\
  forall data st2, fit_all E p st1 data = Some st2 ->
    v_coefs st2 = Some Ms /\ v_lags st2 = length Ms /\ v_prune st2 = v_prune st /\ (v_prune st = false -> exists B0, v_adj st2 = calc_b p B0 Ms).
Proof.
  intros E p st N X st1 EF. destruct (v_fit_inv _ _ _ _ _ _ EF) as (Ms & resid & EC & EL & _ & _ & EP & _ & _ & HB). exists Ms. split; [exact EC|].
  assert (H0 : v_prune st = false -> exists B0, v_adj st1 = calc_b p B0 Ms) by (intros Q; rewrite Q in HB; eauto). clear HB EF.
  intros data. revert st1 EC EL EP H0. induction data as [|[M Y] data IH]; intros st1 EC EL EP H0 st2 EQ; [injection EQ as <-; auto|]. cbn [fit_all] in EQ. destruct (v_fit E p st1 M Y) as [st'|] eqn:EF; [|discriminate].
  destruct (v_fit_inv _ _ _ _ _ _ EF) as (Ms' & resid' & EC' & EL' & _ & _ & EP' & _ & HM' & HB'). rewrite EC in HM'. destruct HM' as [-> ->]. apply (IH st'); auto; [congruence|]. intros Q. rewrite EP, Q in HB'. eauto.
Qed.
(** Two data sets, one object: the second result is not the result of a new object. *)
Theorem C162_not_a_function_of_the_data_refuted : exists E p st N X Y st1 st2 st3, var_regresses E p /\ lingam_ordered E p /\ v_coefs st = None /\
  v_fit E p st N X = Some st1 /\ v_fit E p st1 N Y = Some st2 /\ v_fit E p st N Y = Some st3 /\ nth 1 (v_adj st2) zmat 0%nat 0%nat <> nth 1 (v_adj st3) zmat 0%nat 0%nat.
Proof.
  set (E := mkExt (fun _ X lag => mkVR (repeat (fun _ _ => X 0%nat 0%nat) lag) (calc_residuals 1 X (repeat (fun _ _ => X 0%nat 0%nat) lag) lag)) (fun _ _ _ => Some 0) (x_lingam (demo 1 0)) (x_lasso (demo 1 0)) (x_alasso (demo 1 0))).
  exists E, 1%nat, (v_init 1 false false None), 3%nat, (fun _ _ => 1), (fun _ _ => 2). do 3 eexists. split; [|split; [|split; [|split; [|split; [|split]]]]]; try reflexivity.
  - intros N X lag. split; [apply repeat_length|]. intros t i Ht Hi. cbn [E x_var vr_resid vr_coefs]. unfold calc_residuals. replace (t - lag + lag)%nat with t by lia. now rewrite estimated_sum.
  - apply (demo_ordered 1 0).
  - cbn [v_adj nth calc_b map repeat vr_coefs]. unfold mmul, rsum, eye_minus, eye; cbn. lra.
Qed.

(** ** C163: the bootstrap *)
Lemma samples_spec E p N Ms resid : forall draws st out st', v_coefs st = Some Ms -> v_prune st = false -> v_samples E p N (length Ms) Ms resid st draws = Some (out, st') ->
  length out = length draws /\ v_coefs st' = Some Ms /\ forall s d, nth_error draws s = Some d -> exists U order B0 st1,
    (forall r i, (r < N - length Ms)%nat -> U r i = resid (d (r + length Ms)%nat) i) /\ x_lingam E (N - length Ms) U = (order, B0) /\
    v_adj st1 = calc_b p B0 Ms /\ v_order st1 = order /\ v_lags st1 = length Ms /\
    nth_error out s = Some (calc_b p B0 Ms, sample_effects p (length Ms) order (v_total_effect E p st1 N (simulate p N (length Ms) Ms (fun j => resid (d j))))).
Proof.
  induction draws as [|d draws IH]; intros st out st' EC EP ES; cbn [v_samples] in ES.
  - injection ES as <- <-. split; [reflexivity|]. split; [exact EC|]. intros [|s] d; discriminate.
  - set (X := simulate p N (length Ms) Ms (fun j => resid (d j))) in *. destruct (v_fit E p st N X) as [st1|] eqn:EF; [|discriminate]. destruct (v_samples E p N (length Ms) Ms resid st1 draws) as [[out1 st2]|] eqn:ES1; [|discriminate].
    injection ES as <- <-. destruct (v_fit_inv _ _ _ _ _ _ EF) as (Ms' & U & EC' & EL' & _ & _ & EP' & EO & HM' & HB'). rewrite EC in HM'. destruct HM' as [-> EU]. rewrite EP in HB'.
    destruct (IH st1 out1 st2 EC') as (H1 & H2 & H3); [congruence|exact ES1|]. split; [cbn; lia|]. split; [exact H2|]. intros [|s] d' Q.
    + cbn in Q. injection Q as <-. exists U, (fst (x_lingam E (N - length Ms) U)), (snd (x_lingam E (N - length Ms) U)), st1. split; [|split; [|split; [|split; [|split]]]].
      * intros r i Hr. rewrite EU. apply resimulated. lia.
      * apply surjective_pairing.
      * exact HB'.
      * exact EO.
      * exact EL'.
      * cbn. now rewrite HB', EL', EO.
    + apply H3. exact Q.
Qed.
(** Without pruning, LiNGAM is applied to the drawn residuals, and the lagged matrices of every sample are computed from the autoregressive
    coefficients of the first fit: these are never estimated again. *)
Theorem C163_bootstrap_lagged_refuted : forall E p st N X draws out st', v_prune st = false -> (forall Ms, v_coefs st = Some Ms -> length Ms = v_lags st) -> (v_coefs st = None -> var_regresses E p) ->
  v_bootstrap E p st N X draws = Some (out, st') ->
  exists Ms resid, length Ms = v_lags st /\ length out = length draws /\ (forall Ms0, v_coefs st = Some Ms0 -> Ms = Ms0) /\
    forall s d, nth_error draws s = Some d -> exists U B0 T,
      (forall r i, (r < N - length Ms)%nat -> U r i = resid (d (r + length Ms)%nat) i) /\ B0 = snd (x_lingam E (N - length Ms) U) /\ nth_error out s = Some (calc_b p B0 Ms, T).
Proof.
  intros E p st N X draws out st' HP HC HV. unfold v_bootstrap. destruct (v_fit E p (set_crit false st) N X) as [st1|] eqn:EF; [|discriminate].
  destruct (v_fit_inv _ _ _ _ _ _ EF) as (Ms & resid & EC & EL & ER & _ & EP & _ & HM & _). cbn [set_crit v_prune v_coefs v_crit v_lags] in *. rewrite EC.
  assert (HLen : length Ms = v_lags st).
  { destruct (v_coefs st) as [Ms0|]; [destruct HM as [-> _]; now apply HC|]. destruct HM as (r & EE & -> & _). unfold estimate_var in EE. injection EE as <-. apply HV. reflexivity. }
  rewrite ER. destruct (v_samples E p N (v_lags st) Ms resid st1 draws) as [[o s2]|] eqn:ES; [|discriminate]. cbn. intros Q. injection Q as <- <-. rewrite <- HLen in ES.
  destruct (samples_spec E p N Ms resid draws st1 o s2 EC) as (H1 & _ & H3); [congruence|exact ES|]. exists Ms, resid. split; [exact HLen|]. split; [exact H1|]. split; [intros Ms0 Q; rewrite Q in HM; apply HM|].
  intros s d Hd. destruct (H3 s d Hd) as (U & order & B0 & st0 & HU & HX & _ & _ & _ & HO). eexists U, B0, _. split; [exact HU|]. split; [now rewrite HX|exact HO].
Qed.
Example C163_nonvacuous : exists out st', v_bootstrap (demo 1 0) 1 (v_init 1 true false None) 3 (fun _ _ => 1) [fun j => j; fun _ => 0%nat] = Some (out, st') /\ length out = 2%nat.
Proof. do 2 eexists. split; reflexivity. Qed.

(** ** C164: the table of total effects of a sample *)
(** Instantaneous effects are where they belong. *)
Theorem C164_instantaneous_effects : forall p lags order eff to from, Permutation order (seq 0 p) -> (to < p)%nat -> (from < p)%nat -> let T := sample_effects p lags order eff in
  (before order from to -> T to from = eff from to 0%nat) /\ (~ before order from to -> T to from = 0).
Proof. intros p lags order eff to from HP Ht Hf. now apply (sample_effects_spec p lags order eff to from HP Ht). Qed.
(** The columns p*lag .. p*lag+p-1 should hold the effects at that lag.  Those of lag 1 hold the effects at the last lag, the others zero. *)
Theorem C164_lagged_effects_refuted : forall p lags order eff to from, Permutation order (seq 0 p) -> (to < p)%nat -> (from < p)%nat -> (1 <= lags)%nat -> let T := sample_effects p lags order eff in
  T to (p * 1 + from)%nat = eff from to lags /\ forall lag, (2 <= lag)%nat -> T to (p * lag + from)%nat = 0.
Proof.
  intros p lags order eff to from HP Ht Hf HL T. split.
  - destruct (sample_effects_spec p lags order eff to (p * 1 + from)%nat HP Ht) as (_ & H & _). unfold T. rewrite H by lia. destruct (Nat.eqb_spec lags 0); [lia|]. f_equal. lia.
  - intros lag Hl. destruct (sample_effects_spec p lags order eff to (p * lag + from)%nat HP Ht) as (_ & _ & H). apply H. nia.
Qed.

(** ** C165: the regression behind a total effect *)
(** Its columns are lagged values, except in the first rows, where the end of the series is put in place of the missing past. *)
Theorem C165_columns : forall p N X r lag j, (j < p)%nat -> (r < N)%nat -> (lag <= r)%nat -> joined p N X r (p * lag + j) = X (r - lag)%nat j.
Proof.
  intros p N X r lag j Hj Hr Hl. unfold joined. replace (p * lag + j)%nat with (j + lag * p)%nat by lia. rewrite Nat.div_add, Nat.mod_add by lia. rewrite Nat.div_small, (Nat.mod_small j) by lia. rewrite Nat.add_0_l, (Nat.mod_small lag) by lia.
  replace (r + (N - lag))%nat with (r - lag + 1 * N)%nat by lia. rewrite Nat.mod_add, Nat.mod_small by lia. reflexivity.
Qed.
Theorem C165_first_rows_wrap_refuted : forall p N X r lag j, (j < p)%nat -> (lag < N)%nat -> (r < lag)%nat -> joined p N X r (p * lag + j) = X (N + r - lag)%nat j.
Proof.
  intros p N X r lag j Hj Hr Hl. unfold joined. replace (p * lag + j)%nat with (j + lag * p)%nat by lia. rewrite Nat.div_add, Nat.mod_add by lia. rewrite Nat.div_small, (Nat.mod_small j) by lia. rewrite Nat.add_0_l, (Nat.mod_small lag) by lia.
  rewrite Nat.mod_small by lia. f_equal. lia.
Qed.
(** The predictors are the cause at its lag, and its parents shifted by this lag. *)
Theorem C165_predictors : forall p st from lag, (from < p)%nat ->
  hd_error (v_predictors p st from lag) = Some (p * lag + from)%nat /\
  forall c, In c (tl (v_predictors p st from lag)) <-> exists tau j, (tau < length (v_adj st))%nat /\ (j < p)%nat /\ nth tau (v_adj st) zmat from j <> 0 /\ c = (p * (tau + lag) + j)%nat.
Proof.
  intros p st from lag Hf. unfold v_predictors. cbn [map hd_error tl]. split; [f_equal; lia|]. intros c. rewrite in_map_iff. split.
  - intros (q & <- & H). apply filter_In in H. destruct H as [H1 H2]. apply in_seq0 in H1. unfold row_of, nonzerob in H2. destruct (Rlt_dec 0 _) as [L|]; [|discriminate].
    exists (q / p)%nat, (q mod p)%nat. split; [apply Nat.div_lt_upper_bound; lia|]. split; [apply Nat.mod_upper_bound; lia|]. split.
    + intros Q. rewrite Q, Rabs_R0 in L. lra.
    + pose proof (Nat.div_mod q p). lia.
  - intros (tau & j & Ht & Hj & N0 & ->). exists (p * tau + j)%nat. split; [lia|]. apply filter_In. split; [apply in_seq0; nia|]. unfold row_of. replace (p * tau + j)%nat with (j + tau * p)%nat by lia.
    rewrite Nat.div_add, Nat.mod_add by lia. rewrite Nat.div_small, Nat.mod_small by lia. cbn [Nat.add]. unfold nonzerob. destruct (Rlt_dec 0 _) as [|L]; [reflexivity|]. exfalso. apply L. now apply Rabs_pos_lt.
Qed.
