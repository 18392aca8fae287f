(** Properties of LongitudinalLiNGAM. *)
From Verif Require Import Base UtilsModel UtilsProofs GraphSpec BICModel BICProofs LingamModel LingamSpec LingamProofs EffectModel EffectSpec EffectProofs VARModel VARSpec VARProofs LongModel.
From Coq Require Import Permutation Reals Lra.
Local Open Scope R_scope.

Lemma l_fit_inv E T n p L X st : l_fit E T n p L X = Some st -> (2 <= T)%nat /\ (L <= T + 1)%nat /\
  st = mkLS
    (fun t => if Nat.eqb t 0 then None else Some (fst (l_instant E T n p L X t)))
    (fun t l => if Nat.eqb t 0 then None else match l with O => Some (snd (l_instant E T n p L X t)) | S k => if Nat.eqb t k then None else Some (l_lagged E T n p L X t k) end)
    (fun t => if Nat.eqb t 0 then None else Some (l_resid E T n p L X t)).
Proof.
  unfold l_fit. destruct (Nat.ltb_spec T 2); [discriminate|]. destruct (Nat.ltb_spec (T + 1) L); [discriminate|]. cbn [orb]. intros Q. injection Q as <-. repeat split; auto; lia.
Qed.
(** fit raises exactly for fewer than two time points and for more than T + 1 lags. *)
Theorem C170_fit_succeeds_iff : forall E T n p L X, (exists st, l_fit E T n p L X = Some st) <-> (2 <= T)%nat /\ (L <= T + 1)%nat.
Proof.
  intros E T n p L X. split.
  - intros (st & H). apply l_fit_inv in H. tauto.
  - intros [H1 H2]. unfold l_fit. destruct (Nat.ltb_spec T 2); [lia|]. destruct (Nat.ltb_spec (T + 1) L); [lia|]. cbn. eauto.
Qed.
Lemma resid_sum E T n p L X t s i : l_resid E T n p L X t s i = X t s i - rsum (fun tau => mvec p (l_coef E T n p L X t tau) (X (back T t (tau + 1)) s) i) (seq 0 L).
Proof.
  unfold l_resid. generalize (X t s) as r. generalize (seq 0 L) as l. induction l as [|a l IH]; intros r; cbn [fold_left]; [unfold rsum; cbn; lra|]. rewrite IH, rsum_cons. lra.
Qed.
(** ** C170: where enough of the past is available, the errors are what the matrices leave of the data *)
Theorem C170_errors_are_structural : forall E T n p L X st t, l_fit E T n p L X = Some st -> (1 <= t)%nat -> (L <= t)%nat ->
  exists Bs e, length Bs = S L /\ (forall l, (l <= L)%nat -> s_adj st t l = Some (nth l Bs zmat)) /\ l_errors p st t = Some e /\
    forall s i, (i < p)%nat -> X t s i = rsum (fun l => rsum (fun j => nth l Bs zmat i j * X (t - l)%nat s j) (seq 0 p)) (seq 0 (S L)) + e s i.
Proof.
  intros E T n p L X st t EF Ht HL. destruct (l_fit_inv _ _ _ _ _ _ _ EF) as (_ & _ & ->). set (B := snd (l_instant E T n p L X t)).
  exists (B :: map (l_lagged E T n p L X t) (seq 0 L)), (fun s => mvec p (eye_minus B) (l_resid E T n p L X t s)). split; [cbn; now rewrite map_length, seq_length|]. cbn [s_adj]. split; [|split].
  - intros l Hl. destruct (Nat.eqb_spec t 0); [lia|]. destruct l as [|k]; [reflexivity|]. destruct (Nat.eqb_spec t k); [lia|]. cbn [nth]. rewrite (nth_indep _ zmat (l_lagged E T n p L X t 0)) by (rewrite map_length, seq_length; lia). now rewrite map_nth, seq_nth by lia.
  - unfold l_errors. cbn [s_adj s_resid]. destruct (Nat.eqb_spec t 0); [lia|]. reflexivity.
  - intros s i Hi. rewrite (mvec_ext p (eye_minus B) _ (fun j => X t s j - rsum (fun tau => mvec p (l_coef E T n p L X t tau) (X (back T t (tau + 1)) s) j) (seq 0 L)) i) by (intros; apply resid_sum).
    rewrite mvec_minus, eye_minus_row by exact Hi. rewrite (mvec_sum p _ (fun tau => mvec p (l_coef E T n p L X t tau) (X (back T t (tau + 1)) s))). cbn beta. cbn [seq]. rewrite rsum_cons. cbn [nth]. rewrite Nat.sub_0_r. rewrite <- shift_sum. unfold rdot. cbn [nth].
    rewrite (rsum_ext (fun l => rsum (fun j => nth l (map (l_lagged E T n p L X t) (seq 0 L)) zmat i j * X (t - S l)%nat s j) (seq 0 p)) (fun tau => mvec p (eye_minus B) (mvec p (l_coef E T n p L X t tau) (X (back T t (tau + 1)) s)) i)).
    + lra.
    + intros l Hl. apply in_seq0 in Hl. rewrite <- mvec_mmul. unfold mvec, rdot. apply rsum_ext. intros j _. f_equal.
      * rewrite (nth_indep _ zmat (l_lagged E T n p L X t 0)) by (rewrite map_length, seq_length; lia). rewrite map_nth, seq_nth by lia. reflexivity.
      * unfold back. destruct (Nat.leb_spec (l + 1) t); [|lia]. repeat f_equal. lia.
Qed.
(** The instantaneous matrices follow the causal order of their time point. *)
Theorem C170_instantaneous_order : forall E T n p L X st t, (forall rows U, follows p (snd (l_lingam E rows U)) (fst (l_lingam E rows U))) -> l_fit E T n p L X = Some st -> (1 <= t)%nat ->
  exists o B, s_orders st t = Some o /\ s_adj st t 0%nat = Some B /\ follows p B o.
Proof.
  intros E T n p L X st t HL EF Ht. destruct (l_fit_inv _ _ _ _ _ _ _ EF) as (_ & _ & ->). cbn [s_orders s_adj]. destruct (Nat.eqb_spec t 0); [lia|]. do 2 eexists. split; [reflexivity|]. split; [reflexivity|]. apply HL.
Qed.

(** The lagged matrices: (I - B0) M(tau), where row i of the matrices M(0), M(1), .. is the coefficients of one regression of variable i at time t
    on the variables of the times before t. *)
Theorem C170_lagged_regression : forall E T n p L X st t tau Bt, l_fit E T n p L X = Some st -> s_adj st t (S tau) = Some Bt -> (tau < L)%nat -> (tau < t)%nat ->
  exists B0 D (M : nat -> rmat), s_adj st t 0%nat = Some B0 /\ Bt = mmul p (eye_minus B0) (M tau) /\
    (forall i, exists w, w = l_reg E n (p * (1 + L)) D (fun s => X t s i) /\ forall k j, M k i j = w (p * k + j)%nat) /\
    (forall s k j, (k < L)%nat -> (k < t)%nat -> (j < p)%nat -> D s (p * k + j)%nat = X (t - 1 - k)%nat s j) /\ (forall s c, (p * L <= c)%nat -> D s c = 0).
Proof.
  intros E T n p L X st t tau Bt F A HL Ht. destruct (l_fit_inv _ _ _ _ _ _ _ F) as (_ & _ & ->). cbn [s_adj] in *. destruct (Nat.eqb_spec t 0) as [|Nt]; [discriminate|]. destruct (Nat.eqb t tau); [discriminate|]. injection A as <-.
  exists (snd (l_instant E T n p L X t)), (l_design T p L X t), (l_coef E T n p L X t). split; [reflexivity|]. split; [reflexivity|]. split; [intros i; eexists; split; [reflexivity|]; intros k j; reflexivity|]. split.
  - intros s k j Hk Hkt Hj. unfold l_design. destruct (Nat.ltb_spec (p * k + j) (p * L)); [|nia]. replace (p * k + j)%nat with (j + k * p)%nat by lia. rewrite Nat.div_add, Nat.mod_add, Nat.div_small, Nat.mod_small by lia.
    unfold back. destruct (Nat.leb_spec (0 + k + 1) t); [|lia]. f_equal. lia.
  - intros s c Hc. unfold l_design. destruct (Nat.ltb_spec c (p * L)); [lia|reflexivity].
Qed.

(** ** C171: where the past is missing *)
(** With two lags or more, the regression at time point 1 has the last time point among its predictors ... *)
Theorem C171_future_data_refuted : forall T p L X t tau s j, (j < p)%nat -> (tau < L)%nat -> (t < tau + 1)%nat -> (tau + 1 <= T + t)%nat ->
  l_design T p L X t s (p * tau + j) = X (T + t - (tau + 1))%nat s j.
Proof.
  intros T p L X t tau s j Hj HL Ht HT. unfold l_design. destruct (Nat.ltb_spec (p * tau + j) (p * L)); [|nia]. replace (p * tau + j)%nat with (j + tau * p)%nat by lia. rewrite Nat.div_add, Nat.mod_add by lia.
  rewrite Nat.div_small, Nat.mod_small by lia. cbn [Nat.add]. unfold back. destruct (Nat.leb_spec (tau + 1) t); [lia|]. reflexivity.
Qed.
(** ... which for two time points is the target itself. *)
Theorem C171_target_is_predictor_refuted : forall p L X s i, (i < p)%nat -> (2 <= L <= 3)%nat -> l_design 2 p L X 1 s (p * 1 + i) = X 1%nat s i.
Proof. intros p L X s i Hi HL. rewrite C171_future_data_refuted by lia. reflexivity. Qed.
(** There the errors are not what the matrices leave of the data, whatever one takes for the matrices that are NaN. *)
Theorem C171_errors_refuted : exists E T n p L X st, (forall rows U, follows p (snd (l_lingam E rows U)) (fst (l_lingam E rows U))) /\ l_fit E T n p L X = Some st /\
  exists t s i Bs e, (1 <= t < T)%nat /\ (s < n)%nat /\ (i < p)%nat /\ length Bs = S t /\ (forall l, (l <= t)%nat -> s_adj st t l = Some (nth l Bs zmat)) /\ l_errors p st t = Some e /\
    X t s i <> rsum (fun l => rsum (fun j => nth l Bs zmat i j * X (t - l)%nat s j) (seq 0 p)) (seq 0 (S t)) + e s i.
Proof.
  set (E := mkL (fun _ _ _ _ c => if Nat.eqb c 1 then 1 else 0) (fun _ _ => ([0%nat], zmat)) (fun _ _ _ _ => [])).
  exists E, 2%nat, 2%nat, 1%nat, 2%nat, (fun t _ _ => INR t). eexists. split; [|split; [reflexivity|]].
  - intros rows U. cbn. split; [reflexivity|]. intros i j _ _ Q. exfalso. now apply Q.
  - exists 1%nat, 0%nat, 0%nat, [zmat; l_lagged E 2 2 1 2 (fun t _ _ => INR t) 1 0], (fun s => mvec 1 (eye_minus zmat) (l_resid E 2 2 1 2 (fun t _ _ => INR t) 1 s)). split; [lia|]. split; [lia|]. split; [lia|]. split; [reflexivity|]. split; [|split].
    + intros l Hl. destruct l as [|[|l]]; [reflexivity|reflexivity|lia].
    + reflexivity.
    + cbn [seq]. rewrite !rsum_cons. cbn [nth]. unfold mvec, rdot, l_lagged, mmul, l_coef, rsum. cbn. unfold mvec, rdot, l_coef, rsum. cbn. unfold zmat. lra.
Qed.

(** ** C172: which matrices are NaN *)
Theorem C172_missing_matrices : forall E T n p L X st t l, l_fit E T n p L X = Some st -> (s_adj st t l = None <-> t = 0%nat \/ l = S t).
Proof.
  intros E T n p L X st t l EF. destruct (l_fit_inv _ _ _ _ _ _ _ EF) as (_ & _ & ->). cbn [s_adj]. destruct (Nat.eqb_spec t 0) as [->|N]; [split; auto|]. destruct l as [|k]; [split; [discriminate|intros [|]; [contradiction|discriminate]]|].
  destruct (Nat.eqb_spec t k) as [->|N2]; split; auto; [discriminate|]. intros [|Q]; [contradiction|]. congruence.
Qed.
(** The documentation says that the matrices whose data are not available are NaN: true for up to two lags ... *)
Theorem C172_documented_up_to_two_lags : forall E T n p L X st t l, (L <= 2)%nat -> l_fit E T n p L X = Some st -> (l <= L)%nat -> (s_adj st t l = None <-> t = 0%nat \/ (t < l)%nat).
Proof. intros E T n p L X st t l HL EF Hl. rewrite (C172_missing_matrices _ _ _ _ _ _ _ _ _ EF). lia. Qed.
(** ... and false from three lags on. *)
Theorem C172_three_lags_refuted : forall E T n p L X st, (3 <= L)%nat -> l_fit E T n p L X = Some st -> exists t l, (1 <= t < T)%nat /\ (l <= L)%nat /\ (t < l)%nat /\ s_adj st t l <> None.
Proof.
  intros E T n p L X st HL EF. exists 1%nat, 3%nat. destruct (l_fit_inv _ _ _ _ _ _ _ EF) as (HT & _ & _). repeat split; try lia. rewrite (C172_missing_matrices _ _ _ _ _ _ _ _ _ EF). lia.
Qed.

(** ** C173: the bootstrap's total effects *)
Lemma fold_flat {A B C} (f : C -> B -> C) (g : A -> list B) l : forall a, fold_left f (flat_map g l) a = fold_left (fun a x => fold_left f (g x) a) l a.
Proof. induction l as [|x l IH]; intros a; cbn [flat_map fold_left]; [reflexivity|]. now rewrite fold_left_app, IH. Qed.
Lemma fold_mapl {A B C} (f : C -> B -> C) (g : A -> B) l : forall a, fold_left f (map g l) a = fold_left (fun a x => f a (g x)) l a.
Proof. induction l as [|x l IH]; intros a; cbn [map fold_left]; [reflexivity|]. apply IH. Qed.
Lemma fold_eq {A C} (f g : C -> A -> C) l : (forall a x, In x l -> f a x = g a x) -> forall a, fold_left f l a = fold_left g l a.
Proof. induction l as [|x l IH]; intros H a; [reflexivity|]. cbn. rewrite H by now left. apply IH. intros; apply H; now right. Qed.
Definition wr (p : nat) (eff : nat -> nat -> nat -> nat -> R) (M : nat -> nat -> R) (w : nat * nat * (nat * nat)) : nat -> nat -> R :=
  let '(ft, f, (ut, t)) := w in set2 M (ut * p + t) (ft * p + f) (eff ft f ut t).
Definition writes (T start : nat) (st : lstate) : list (nat * nat * (nat * nat)) :=
  flat_map (fun ft => flat_map (fun cf => map (fun t => (ft, snd cf, (ft, t))) (skipn (fst cf + 1) (order_at st ft)) ++
                                         flat_map (fun ut => map (fun t => (ft, snd cf, (ut, t))) (order_at st ut)) (seq (ft + 1) (T - (ft + 1))))
             (combine (seq 0 (length (order_at st ft))) (order_at st ft))) (seq start (T - start)).
Lemma effects_writes p T start st eff : l_effects p T start st eff = fold_left (wr p eff) (writes T start st) (fun _ _ => 0).
Proof.
  unfold l_effects, writes. rewrite fold_flat. apply fold_eq. intros M ft _. rewrite fold_flat. apply fold_eq. intros M1 [c f] _. cbn [fst snd]. rewrite fold_left_app, fold_mapl, fold_flat. apply fold_eq. intros M2 ut _. now rewrite fold_mapl.
Qed.
Lemma wr_fold p eff : (forall ft f ut t ft' f' ut' t', (f < p)%nat -> (t < p)%nat -> (f' < p)%nat -> (t' < p)%nat -> (ut * p + t = ut' * p + t' -> ft * p + f = ft' * p + f' -> ft = ft' /\ f = f' /\ ut = ut' /\ t = t')%nat) ->
  forall W M, (forall ft f ut t, In (ft, f, (ut, t)) W -> (f < p)%nat /\ (t < p)%nat) -> forall ft f ut t, (f < p)%nat -> (t < p)%nat ->
  (In (ft, f, (ut, t)) W -> fold_left (wr p eff) W M (ut * p + t)%nat (ft * p + f)%nat = eff ft f ut t) /\
  (~ In (ft, f, (ut, t)) W -> fold_left (wr p eff) W M (ut * p + t)%nat (ft * p + f)%nat = M (ut * p + t)%nat (ft * p + f)%nat).
Proof.
  intros Inj. induction W as [|[[ft' f'] [ut' t']] W IH]; intros M HW ft f ut t Hf Ht; [split; [intros []|reflexivity]|].
  destruct (IH (wr p eff M (ft', f', (ut', t')))) with (ft := ft) (f := f) (ut := ut) (t := t) as [I1 I2]; [intros a b c d Hin; apply (HW a b c d); now right|exact Hf|exact Ht|]. destruct (HW ft' f' ut' t' (or_introl eq_refl)) as [Hf' Ht']. cbn [fold_left].
  assert (Dec : {In (ft, f, (ut, t)) W} + {~ In (ft, f, (ut, t)) W}) by (apply in_dec; decide equality; decide equality; apply Nat.eq_dec).
  destruct Dec as [D|D]; [split; [intros _; now apply I1|intros N; exfalso; apply N; now right]|]. rewrite I2 by exact D. cbn [wr]. unfold set2.
  destruct (Nat.eqb_spec (ut * p + t) (ut' * p + t')) as [Q1|Q1]; destruct (Nat.eqb_spec (ft * p + f) (ft' * p + f')) as [Q2|Q2]; cbn [andb].
  - destruct (Inj ft f ut t ft' f' ut' t' Hf Ht Hf' Ht' Q1 Q2) as (<- & <- & <- & <-). split; [reflexivity|]. intros N. exfalso. apply N. now left.
  - split; [|reflexivity]. intros [Q|Q]; [|contradiction]. exfalso. apply Q2. now injection Q as -> -> -> ->.
  - split; [|reflexivity]. intros [Q|Q]; [|contradiction]. exfalso. apply Q1. now injection Q as -> -> -> ->.
  - split; [|reflexivity]. intros [Q|Q]; [|contradiction]. exfalso. apply Q1. now injection Q as -> -> -> ->.
Qed.
Lemma combine_seq_in' (order : list nat) : forall s k t, In (k, t) (combine (seq s (length order)) order) <-> (s <= k < s + length order)%nat /\ nth (k - s) order 0%nat = t.
Proof.
  induction order as [|a order IH]; intros s k t; cbn [length seq combine In]; [split; [intros []|lia]|]. rewrite IH. split.
  - intros [Q|[H1 H2]]; [injection Q as <- <-; rewrite Nat.sub_diag; cbn; split; [lia|reflexivity]|]. split; [lia|]. replace (k - s)%nat with (S (k - S s)) by lia. exact H2.
  - intros [H1 H2]. destruct (Nat.eq_dec k s) as [->|N]; [left; rewrite Nat.sub_diag in H2; cbn in H2; congruence|]. right. split; [lia|]. replace (k - s)%nat with (S (k - S s)) in H2 by lia. exact H2.
Qed.
Lemma skipn_S_before (order : list nat) : forall c t, (c < length order)%nat -> In t (skipn (c + 1) order) -> before order (nth c order 0%nat) t.
Proof.
  induction order as [|a order IH]; intros c t Hc Ht; [cbn in Hc; lia|]. destruct c as [|c].
  - cbn in Ht. apply in_split in Ht. destruct Ht as (m1 & m2 & ->). exists [], m1, m2. reflexivity.
  - cbn [Nat.add skipn nth] in *. destruct (IH c t) as (l1 & l2 & l3 & E); [cbn in Hc; lia|exact Ht|]. exists (a :: l1), l2, l3. cbn. congruence.
Qed.
Lemma before_skipn (order : list nat) f t : before order f t -> exists c, (c < length order)%nat /\ nth c order 0%nat = f /\ In t (skipn (c + 1) order).
Proof.
  intros (l1 & l2 & l3 & ->). exists (length l1). split; [rewrite app_length; cbn; lia|]. split; [now rewrite app_nth2, Nat.sub_diag by lia|]. rewrite skipn_app. replace (length l1 + 1 - length l1)%nat with 1%nat by lia.
  apply in_or_app. right. cbn. apply in_or_app. right. now left.
Qed.
Lemma writes_in T start st ft f ut t : In (ft, f, (ut, t)) (writes T start st) <->
  (start <= ft < T)%nat /\ ((ut = ft /\ before (order_at st ft) f t) \/ ((ft < ut < T)%nat /\ In f (order_at st ft) /\ In t (order_at st ut))).
Proof.
  unfold writes. rewrite in_flat_map. split.
  - intros (a & Ha & H). apply in_seq in Ha. apply in_flat_map in H. destruct H as ([c g] & Hc & H). cbn [fst snd] in H. apply combine_seq_in' in Hc. rewrite Nat.sub_0_r in Hc. destruct Hc as [Hc Eg]. apply in_app_or in H. destruct H as [H|H].
    + apply in_map_iff in H. destruct H as (u & Q & Hu). injection Q as <- <- <- <-. split; [lia|]. left. split; [reflexivity|]. rewrite <- Eg. apply skipn_S_before; [lia|exact Hu].
    + apply in_flat_map in H. destruct H as (b & Hb & H). apply in_seq in Hb. apply in_map_iff in H. destruct H as (u & Q & Hu). injection Q as <- <- <- <-. split; [lia|]. right. split; [lia|]. split; [|exact Hu]. rewrite <- Eg. apply nth_In. lia.
  - intros [Hft H]. exists ft. split; [apply in_seq; lia|]. apply in_flat_map. destruct H as [[-> H]|(H1 & H2 & H3)].
    + apply before_skipn in H. destruct H as (c & Hc & Ef & Ht). exists (c, f). split; [apply combine_seq_in'; rewrite Nat.sub_0_r; split; [lia|exact Ef]|]. cbn [fst snd]. apply in_or_app. left. apply in_map_iff. eauto.
    + apply (In_nth _ _ 0%nat) in H2. destruct H2 as (c & Hc & Ef). exists (c, f). split; [apply combine_seq_in'; rewrite Nat.sub_0_r; split; [lia|exact Ef]|]. cbn [fst snd]. apply in_or_app. right. apply in_flat_map. exists ut. split; [apply in_seq; lia|].
      apply in_map_iff. eauto.
Qed.
Lemma block_inj p a b a' b' : (b < p)%nat -> (b' < p)%nat -> (a * p + b = a' * p + b')%nat -> a = a' /\ b = b'.
Proof. intros H1 H2 Q. assert (a = a') by nia. subst. split; [reflexivity|lia]. Qed.
(** Row to_t * p + to, column from_t * p + from holds the effect of [from] at time from_t on [to] at time to_t, for causes from time point
    start_from_t on that come before their effect in time, or at the same time in the causal order; everything else is zero. *)
Theorem C173_effect_table : forall p T start st eff, (1 <= start)%nat -> (forall t, (1 <= t < T)%nat -> Permutation (order_at st t) (seq 0 p)) ->
  forall from_t from to_t to, (from_t < T)%nat -> (to_t < T)%nat -> (from < p)%nat -> (to < p)%nat -> let M := l_effects p T start st eff in
    ((start <= from_t)%nat /\ ((from_t < to_t)%nat \/ (from_t = to_t /\ before (order_at st from_t) from to)) -> M (to_t * p + to)%nat (from_t * p + from)%nat = eff from_t from to_t to) /\
    (~ ((start <= from_t)%nat /\ ((from_t < to_t)%nat \/ (from_t = to_t /\ before (order_at st from_t) from to))) -> M (to_t * p + to)%nat (from_t * p + from)%nat = 0).
Proof.
  intros p T start st eff HS HO ft f ut t Hft Htt Hf Ht. cbn zeta. rewrite effects_writes.
  assert (HIn : forall a x, (1 <= a < T)%nat -> (In x (order_at st a) <-> (x < p)%nat)) by (intros a x Ha; rewrite <- in_seq0; split; apply Permutation_in; [now apply HO|apply Permutation_sym; now apply HO]).
  destruct (wr_fold p eff) with (W := writes T start st) (M := fun _ _ : nat => 0) (ft := ft) (f := f) (ut := ut) (t := t) as [W1 W2]; auto.
  - intros. apply block_inj in H3; auto. apply block_inj in H4; auto. tauto.
  - intros a b c d H. apply writes_in in H. destruct H as [H1 [[-> H2]|(H2 & H3 & H4)]].
    + apply before_in in H2. destruct H2 as [H2 H3]. apply HIn in H2; [|lia]. apply HIn in H3; [|lia]. auto.
    + apply HIn in H3; [|lia]. apply HIn in H4; [|lia]. auto.
  - split.
    + intros [H1 H2]. apply W1. apply writes_in. split; [lia|]. destruct H2 as [H2|[<- H2]]; [right|now left]. split; [lia|]. split; apply HIn; auto; lia.
    + intros N. apply W2. intros H. apply N. apply writes_in in H. destruct H as [H1 [[-> H2]|(H2 & _)]]; (split; [lia|]); [right; auto|left; lia].
Qed.
(** The total effect: the first coefficient of the regression of the effect at its time on the cause at its time, followed by the known parents of the cause. *)
Theorem C173_effect_regression : forall E T n p L st X from_t from to_t to, (0 < p)%nat -> exists J qs,
  l_total_effect E T n p L st X from_t from to_t to = hd 0 (l_alasso E n J ((p + from)%nat :: qs) to) /\ NoDup qs /\
  (forall s j, (j < p)%nat -> J s j = X to_t s j) /\
  (forall s tau j, (j < p)%nat -> (tau <= from_t)%nat -> J s (p + (p * tau + j))%nat = X (from_t - tau)%nat s j) /\
  (forall tau j, (j < p)%nat -> (In (p + (p * tau + j))%nat qs <-> (tau <= L)%nat /\ exists B, s_adj st from_t tau = Some B /\ B from j <> 0)) /\
  (forall c, In c qs -> exists tau j, (j < p)%nat /\ c = (p + (p * tau + j))%nat).
Proof.
  intros E T n p L st X from_t from to_t to Hp. unfold l_total_effect. set (f := fun c => match s_adj st from_t (Nat.div c p) with None => false | Some B => nonzerob (B from (Nat.modulo c p)) end).
  exists (l_joined T p L X from_t to_t), (map (fun c => c + p)%nat (filter f (seq 0 (p * (1 + L))))).
  split; [unfold l_predictors; now rewrite (Nat.add_comm from p)|]. split; [apply FinFun.Injective_map_NoDup; [intros x y; lia|apply NoDup_filter, seq_NoDup]|].
  assert (DM : forall tau j, (j < p)%nat -> Nat.div (p * tau + j) p = tau /\ Nat.modulo (p * tau + j) p = j).
  { intros tau j Hj. replace (p * tau + j)%nat with (j + tau * p)%nat by lia. rewrite Nat.div_add, Nat.mod_add, Nat.div_small, Nat.mod_small by lia. lia. }
  split; [intros s j Hj; unfold l_joined; destruct (Nat.ltb_spec j p); [reflexivity|lia]|]. split; [|split].
  - intros s tau j Hj Ht. unfold l_joined. destruct (Nat.ltb_spec (p + (p * tau + j)) p); [lia|]. replace (p + (p * tau + j) - p)%nat with (p * tau + j)%nat by lia. destruct (DM tau j Hj) as [-> ->]. unfold back. destruct (Nat.leb_spec tau from_t); [reflexivity|lia].
  - intros tau j Hj. rewrite in_map_iff. split.
    + intros (c & Ec & Hc). assert (c = p * tau + j)%nat as -> by lia. apply filter_In in Hc. destruct Hc as [Hc Hf]. apply in_seq0 in Hc. unfold f in Hf. destruct (DM tau j Hj) as [E1 E2]. rewrite E1, E2 in Hf. split; [nia|].
      destruct (s_adj st from_t tau) as [B|]; [|discriminate]. exists B. split; [reflexivity|]. unfold nonzerob in Hf. destruct (Rlt_dec 0 (Rabs (B from j))) as [Q|]; [|discriminate]. intros Z. rewrite Z, Rabs_R0 in Q. lra.
    + intros (Ht & B & EB & NB). exists (p * tau + j)%nat. split; [lia|]. apply filter_In. split; [apply in_seq0; nia|]. unfold f. destruct (DM tau j Hj) as [-> ->]. rewrite EB. unfold nonzerob. destruct (Rlt_dec 0 (Rabs (B from j))) as [|Q]; [reflexivity|]. exfalso. apply Q. now apply Rabs_pos_lt.
  - intros c Hc. apply in_map_iff in Hc. destruct Hc as (b & <- & _). exists (Nat.div b p), (Nat.modulo b p). split; [apply Nat.mod_upper_bound; lia|]. pose proof (Nat.div_mod b p ltac:(lia)). lia.
Qed.
(** The effects of a sample are estimated on the original data: drawing rows that give the same matrices and orders gives the same effects,
    whatever rows were drawn; the resampled data give other ones. *)
Theorem C173_original_data_refuted : exists E T n p L start X idx st M, l_sample E T n p L start X idx = Some (st, M) /\ exists from_t from to_t to,
  (start <= from_t < to_t)%nat /\ (to_t < T)%nat /\ (from < p)%nat /\ (to < p)%nat /\ M (to_t * p + to)%nat (from_t * p + from)%nat <> l_total_effect E T n p L st (fun t s => X t (idx s)) from_t from to_t to.
Proof.
  set (E := mkL (fun _ _ _ _ _ => 0) (fun _ _ => ([0%nat], zmat)) (fun _ tab _ to => [tab 0%nat to])).
  exists E, 3%nat, 2%nat, 1%nat, 1%nat, 1%nat, (fun _ s _ => INR s), (fun _ => 1%nat). do 2 eexists. split; [reflexivity|]. exists 1%nat, 0%nat, 2%nat, 0%nat. do 4 (split; [lia|]).
  rewrite effects_writes. unfold writes, order_at. cbn. unfold set2, l_total_effect, l_joined. cbn. lra.
Qed.
Example C173_nonvacuous : exists st, l_fit (mkL (fun _ _ _ _ _ => 0) (fun _ _ => ([0%nat; 1%nat], zmat)) (fun _ _ _ _ => [])) 3 2 2 1 (fun _ _ _ => 0) = Some st /\ forall t, (1 <= t < 3)%nat -> Permutation (order_at st t) (seq 0 2).
Proof. eexists. split; [reflexivity|]. intros t Ht. unfold order_at. cbn. destruct (Nat.eqb_spec t 0); [lia|]. reflexivity. Qed.
