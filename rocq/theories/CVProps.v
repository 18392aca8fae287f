(** C200: the centering of the kernel matrices; C201: the folds; C202: what the cross-validated score is; C203: what it depends on. *)
From Verif Require Import Base UtilsModel BICModel BICProofs ChisqProps EffectModel EffectProofs VARModel VARProofs CALMProofs KCIModel KCIProofs KCIProps HSICModel HSICProofs HSICMedian HSICProps HSICTestProps CVModel CVProofs CVResid.
From Coq Require Import Permutation Reals Lra Psatz FunctionalExtensionality.
Local Open Scope R_scope.

(** ** C200: H0 * K * H0.  The features are centered when the matrix is H K H (C194_centering), so that its rows sum to 0. *)
(** The kernel matrices before the step: entries in (0, 1], 1 on the diagonal.  The step turns them into (1 - 2/T) I + K / T^2. *)
Definition kernel_matrix (T : nat) (D : data) (K : rmat) : Prop := (exists c, column_kernel T D c = Some K) \/ (exists pa, parents_kernel T D pa = Some K).
Lemma kernel_matrix_good T D K : kernel_matrix T D K -> good_kernel K.
Proof. intros [[c H]|[pa H]]; [now apply (column_kernel_good T D c) | now apply (parents_kernel_good T D pa)]. Qed.
Theorem C200_centering_refuted : forall T D K, (2 <= T)%nat -> kernel_matrix T D K ->
  (forall i j, h0k T K i j = (1 - 2 / INR T) * eye i j + 1 / INR T ^ 2 * K i j) /\
  (forall i, (i < T)%nat -> 0 < rsum (fun j => h0k T K i j) (seq 0 T) /\ rsum (fun j => hkh T K i j) (seq 0 T) = 0) /\
  (forall D' K', kernel_matrix T D' K' -> forall i j, h0k T K i i = h0k T K' i i /\ Rabs (h0k T K i j - h0k T K' i j) < 1 / INR T ^ 2).
Proof.
  intros T D K HT HK. apply kernel_matrix_good in HK. destruct HK as (_ & _ & H1 & HR). assert (HT' : 2 <= INR T) by (replace 2 with (INR 2) by reflexivity; now apply le_INR).
  assert (HI : 0 < 1 / INR T ^ 2) by (apply Rdiv_lt_0_compat; [lra | apply pow_lt; lra]).
  assert (HZ : 0 <= 1 - 2 / INR T). { assert (2 / INR T <= 1); [|lra]. apply (Rmult_le_reg_r (INR T)); [lra|]. unfold Rdiv. rewrite Rmult_assoc, Rinv_l by lra. lra. }
  assert (F : forall i j, h0k T K i j = (1 - 2 / INR T) * eye i j + 1 / INR T ^ 2 * K i j) by (intros; apply h0k_formula; [lia | exact H1]).
  split; [exact F|]. split.
  - intros i Hi. split.
    + rewrite (rsum_ext _ (fun j => (1 - 2 / INR T) * eye i j + 1 / INR T ^ 2 * K i j)) by (intros; apply F). rewrite rsum_plus, !rsum_mult.
      rewrite (rsum_ext (fun j => eye i j) (fun j => eye i j * 1)) by (intros; ring). rewrite (rsum_eye T i (fun _ => 1) Hi).
      assert (0 < rsum (fun j => K i j) (seq 0 T)).
      { apply Rlt_le_trans with (K i i); [rewrite H1; lra|]. rewrite <- (rsum_eye T i (K i) Hi). rewrite <- (Rplus_0_r (rsum _ _)).
        apply Rle_trans with (rsum (fun k => eye i k * K i k) (seq 0 T) + rsum (fun k => (1 - eye i k) * K i k) (seq 0 T)).
        - apply Rplus_le_compat_l, rsum_nonneg. intros k _. specialize (HR i k). unfold eye. destruct (Nat.eqb i k); lra.
        - rewrite <- rsum_plus. right. apply rsum_ext. intros; ring. }
      assert (0 < 1 / INR T ^ 2 * rsum (fun j => K i j) (seq 0 T)) by (apply Rmult_lt_0_compat; assumption). apply Rplus_le_lt_0_compat; [rewrite Rmult_1_r; exact HZ | assumption].
    + rewrite (rsum_ext _ (fun j => hcenter T K i j)); [apply C194_centering; [lia | exact Hi]|]. intros j Hj. apply in_seq0 in Hj. apply C194_centering; lia || assumption.
  - intros D' K' HK'. apply kernel_matrix_good in HK'. destruct HK' as (_ & _ & H1' & HR'). intros i j. rewrite F, F, !(h0k_formula T K') by (lia || exact H1').
    split; [now rewrite H1, H1'|]. set (z := (1 - 2 / INR T) * eye i j) in *. set (t := 1 / INR T ^ 2) in *.
    replace (z + t * K i j - (z + t * K' i j)) with ((K i j - K' i j) * t) by ring. rewrite Rabs_mult, (Rabs_pos_eq t) by lra.
    specialize (HR i j). specialize (HR' i j). assert (Rabs (K i j - K' i j) < 1) by (apply Rabs_def1; lra). nra.
Qed.
Definition ramp : data := fun s c => INR s * INR (c + 1).
Lemma ramp_width T c : (2 <= T)%nat -> exists K, column_kernel T ramp c = Some K.
Proof.
  intros HT. unfold column_kernel. destruct (width_of T 1 _) as [w|] eqn:E; [eauto|]. exfalso. apply (proj1 (width_none _ _ _)) with (a := 0%nat) (b := 1%nat) (c := 0%nat) in E; try lia.
  unfold col, variable, ramp in E. cbn [INR] in E. assert (0 < INR (c + 1)) by (apply lt_0_INR; lia). lra.
Qed.
Theorem C200_met : forall T, (2 <= T)%nat -> exists K K', kernel_matrix T ramp K /\ parents_kernel T ramp [0; 1]%nat = Some K'.
Proof.
  intros T HT. destruct (ramp_width T 0 HT) as [K E]. destruct (ramp_width T 1 HT) as [K1 E1]. exists K. eexists. split; [left; eauto|].
  unfold parents_kernel. cbn [fold_left]. rewrite E, E1. reflexivity.
Qed.

(** ** C201: the folds *)
Lemma tests_concat T k : forall m, (m <= k)%nat -> (0 < k)%nat ->
  flat_map (fun kk => match cv_fold T k kk with Some (_, te, _) => te | None => [] end) (seq 0 m) = arange 0 (if Nat.eqb m k && negb (Nat.eqb k 1) then T else m * Nat.div T k)%nat.
Proof.
  intros m Hm Hk. induction m as [|m IH]; [destruct (Nat.eqb_spec 0 k); [lia | reflexivity]|]. rewrite seq_S, flat_map_app, IH by lia. cbn [plus flat_map]. rewrite app_nil_r.
  destruct (cv_fold_spec T k m ltac:(lia)) as (a & b & Hab & Ea & Eb & ->). rewrite Ea, Eb in *.
  destruct (Nat.eqb_spec m k); [lia|]. cbn [andb]. rewrite arange_split by lia. f_equal.
  destruct (Nat.eqb_spec (S m) k) as [<- | N].
  - replace (S m - 1)%nat with m by lia. rewrite Nat.eqb_refl. cbn [andb]. destruct m as [|m]; cbn [Nat.eqb negb]; lia.
  - destruct (Nat.eqb_spec m (k - 1)); [lia|]. cbn [andb]. lia.
Qed.
(** Each of the k folds has a branch; every sample is validated exactly once, and each time the model is trained on all the other samples. *)
Theorem C201_folds : forall T k, (0 < k)%nat ->
  (forall kk, (kk < k)%nat -> exists tr te nv, cv_fold T k kk = Some (tr, te, nv) /\ length te = nv /\ length tr = (T - nv)%nat /\ Permutation (tr ++ te) (seq 0 T)) /\
  flat_map (fun kk => match cv_fold T k kk with Some (_, te, _) => te | None => [] end) (seq 0 k) = seq 0 T.
Proof.
  intros T k Hk. split.
  - intros kk H. destruct (cv_fold_spec T k kk H) as (a & b & Hab & _ & _ & E). exists (arange 0 a ++ arange b T), (arange a b), (b - a)%nat. split; [exact E|].
    rewrite app_length, !arange_length. repeat split; [lia|]. transitivity (arange 0 a ++ arange a b ++ arange b T).
    + rewrite <- app_assoc. apply Permutation_app_head, Permutation_app_comm.
    + rewrite !arange_split by lia. unfold arange. now rewrite Nat.sub_0_r.
  - rewrite tests_concat by lia. rewrite Nat.eqb_refl. cbn [andb]. destruct (Nat.eqb_spec k 1) as [-> | N]; cbn [negb]; unfold arange; rewrite Nat.sub_0_r; [|reflexivity].
    rewrite Nat.div_1_r. now rewrite Nat.mul_1_l.
Qed.
(** Sizes: all folds but the last have floor(T / k) samples; the last has what remains, fewer than 2 floor(T/k) + k. *)
Theorem C201_sizes : forall T k kk tr te nv, (kk < k)%nat -> cv_fold T k kk = Some (tr, te, nv) ->
  nv = (if Nat.eqb (S kk) k then Nat.div T k + Nat.modulo T k else Nat.div T k)%nat.
Proof.
  intros T k kk tr te nv H E. destruct (cv_fold_spec T k kk H) as (a & b & Hab & Ea & Eb & E'). rewrite E' in E. injection E as _ _ <-. rewrite Ea, Eb in *.
  pose proof (Nat.div_mod T k ltac:(lia)) as DM. destruct (Nat.eqb_spec (S kk) k) as [Ek|N].
  - replace (Nat.eqb kk (k - 1)) with true by (symmetry; apply Nat.eqb_eq; lia). cbn [andb]. destruct (Nat.eqb_spec kk 0) as [-> | N0]; cbn [negb].
    + replace k with 1%nat in * by lia. rewrite Nat.div_1_r, Nat.mod_1_r. lia.
    + subst k. nia.
  - destruct (Nat.eqb_spec kk (k - 1)); [lia|]. cbn [andb]. nia.
Qed.
(** Without parents the score divides by the number of training samples.  It is 0 when k = 1, and when k > T: ZeroDivisionError; never otherwise. *)
Lemma cv_loop_stop T k f kk0 r : (kk0 < k)%nat -> (forall s, r <> Score s) ->
  (forall kk tr te nv, (kk < kk0)%nat -> cv_fold T k kk = Some (tr, te, nv) -> exists v, f tr te nv (T - nv)%nat = Score v) ->
  (forall tr te nv, cv_fold T k kk0 = Some (tr, te, nv) -> f tr te nv (T - nv)%nat = r) -> cv_loop T k f = r.
Proof.
  intros Hk Hr H1 H2. unfold cv_loop. replace (seq 0 k) with (seq 0 kk0 ++ kk0 :: seq (S kk0) (k - kk0 - 1)) by (replace k with (kk0 + S (k - kk0 - 1))%nat at 2 by lia; rewrite seq_app; reflexivity).
  rewrite fold_left_app. cbn [fold_left].
  set (step := fun acc kk => match acc with Score cv => match cv_fold T k kk with Some (tr, te, nv) => match f tr te nv (T - nv)%nat with Score v => Score (cv + v) | r => r end | None => NoNumber end | r => r end).
  assert (E : forall l s, (forall x, In x l -> (x < kk0)%nat) -> exists s', fold_left step l (Score s) = Score s').
  { induction l as [|x l IH]; intros s Hl; [eexists; reflexivity|]. cbn [fold_left]. destruct (cv_fold_spec T k x) as (a & b & _ & _ & _ & F); [specialize (Hl x (or_introl eq_refl)); lia|].
    unfold step at 2. rewrite F. destruct (H1 x _ _ _ (Hl x (or_introl eq_refl)) F) as [v ->]. apply IH. intros; apply Hl; now right. }
  destruct (E (seq 0 kk0) 0) as [s' ->]; [intros x Hx; now apply in_seq0 in Hx|].
  destruct (cv_fold_spec T k kk0 Hk) as (a & b & _ & _ & _ & F). cbn beta iota. rewrite F, (H2 _ _ _ F).
  assert (G : forall l, fold_left step l r = r) by (induction l as [|x l IH]; [reflexivity|]; cbn [fold_left]; replace (step r x) with r; [exact IH | destruct r; [exfalso; now apply (Hr r) | reflexivity | reflexivity]]).
  replace (match r with Score v => Score (s' + v) | NoNumber => NoNumber | ZeroDivision => ZeroDivision end) with r by (destruct r; [exfalso; now apply (Hr r) | reflexivity | reflexivity]).
  rewrite G. destruct r; [exfalso; now apply (Hr r) | reflexivity | reflexivity].
Qed.
Theorem C201_no_training : forall pd lg lam k T D x, (forall n M, lg n M <> None) -> column_kernel T D x <> None ->
  ((k <= 1 \/ T < k)%nat -> score_cv_general pd lg lam k T D x [] = ZeroDivision) /\
  ((2 <= k <= T)%nat -> exists r, score_cv_general pd lg lam k T D x [] = Score r) /\
  (forall p pa, parents_kernel T D (p :: pa) <> None -> (0 < k)%nat -> exists r, score_cv_general pd lg lam k T D x (p :: pa) = Score r).
Proof.
  intros pd lg lam k T D x HL HC. unfold score_cv_general. assert (HT : (2 <= T)%nat).
  { destruct (le_lt_dec 2 T) as [L|L]; [exact L|]. exfalso. apply HC. unfold column_kernel. replace (width_of T 1 (col (variable D x))) with (@None R); [reflexivity|].
    symmetry. apply width_none. intros a b c Ha Hb _. replace a with b by lia. reflexivity. }
  destruct (column_kernel T D x) as [K0|]; [clear HC | contradiction].
  assert (FA : forall nv n1 a b c, n1 <> 0%nat -> exists v, fold_alone pd lg nv n1 a b c = Score v).
  { intros nv n1 a b c Hn. unfold fold_alone. destruct (Nat.eqb_spec n1 0); [contradiction|]. destruct (lg n1 (b_alone n1 b)) eqn:E; [eauto | now apply HL in E]. }
  assert (MEAN : forall f, (forall kk tr te nv, (kk < k)%nat -> cv_fold T k kk = Some (tr, te, nv) -> exists v, f tr te nv (T - nv)%nat = Score v) -> exists r, cv_loop T k f = Score r).
  { intros f Hf. eexists. apply (cv_loop_mean T k f (fun kk => match cv_fold T k kk with Some (tr, te, nv) => match f tr te nv (T - nv)%nat with Score v => v | _ => 0 end | None => 0 end)).
    intros kk Hkk. destruct (cv_fold_spec T k kk Hkk) as (a & b & _ & _ & _ & F). do 3 eexists. split; [exact F|]. rewrite F. destruct (Hf kk _ _ _ Hkk F) as [v ->]. reflexivity. }
  split; [|split].
  - intros H. destruct (Nat.eqb_spec k 0) as [-> | Nk]; [reflexivity|]. apply (cv_loop_stop T k _ (k - 1)%nat); [lia | discriminate | |].
    + intros kk tr te nv Hkk E. apply FA. apply C201_sizes in E; [|lia]. destruct (Nat.eqb_spec (S kk) k); [lia|]. rewrite Nat.div_small in E by lia.
      lia.
    + intros tr te nv E. apply C201_sizes in E; [|lia]. replace (Nat.eqb (S (k - 1)) k) with true in E by (symmetry; apply Nat.eqb_eq; lia).
      assert (nv = T). { destruct H as [H|H]; [replace k with 1%nat in E by lia; rewrite Nat.div_1_r, Nat.mod_1_r in E; lia | rewrite Nat.div_small, Nat.mod_small in E by lia; lia]. }
      unfold fold_alone. replace (T - nv)%nat with 0%nat by lia. reflexivity.
  - intros H. destruct (Nat.eqb_spec k 0); [lia|]. apply MEAN. intros kk tr te nv Hkk E. apply FA. apply C201_sizes in E; [|exact Hkk].
    pose proof (Nat.div_mod T k ltac:(lia)). pose proof (Nat.div_str_pos T k ltac:(lia)). destruct (Nat.eqb (S kk) k); nia.
  - intros p pa HP Hk. destruct (Nat.eqb_spec k 0); [lia|]. destruct (parents_kernel T D (p :: pa)) as [K1|]; [|contradiction]. apply MEAN. intros kk tr te nv _ _. unfold fold_parents.
    destruct (lg _ _) eqn:E; [eauto | now apply HL in E].
Qed.
