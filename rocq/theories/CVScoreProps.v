(** C202: what the cross-validated score is; C203: what it depends on. *)
From Verif Require Import Base UtilsModel BICModel BICProofs ChisqProps EffectModel EffectProofs VARModel VARProofs CALMProofs KCIModel KCIProofs KCIProps HSICModel HSICProofs HSICMedian HSICProps HSICTestProps CVModel CVProofs CVResid CVMeaning CVProps.
From Coq Require Import Permutation Reals Lra Psatz FunctionalExtensionality.
Local Open Scope R_scope.

Lemma column_T T D c K : column_kernel T D c = Some K -> (2 <= T)%nat.
Proof.
  intros H. destruct (le_lt_dec 2 T) as [L|L]; [exact L|]. exfalso. unfold column_kernel in H. replace (width_of T 1 (col (variable D c))) with (@None R) in H; [discriminate|].
  symmetry. apply width_none. intros a b e Ha Hb _. replace a with b by lia. reflexivity.
Qed.
Lemma fold_facts T k kk tr te nv : (2 <= k <= T)%nat -> (kk < k)%nat -> cv_fold T k kk = Some (tr, te, nv) ->
  (0 < T - nv < T)%nat /\ length tr = (T - nv)%nat /\ length te = nv /\ (forall s, In s (tr ++ te) -> (s < T)%nat).
Proof.
  intros Hk Hkk E. pose proof (C201_sizes T k kk tr te nv Hkk E) as EN. destruct (proj1 (C201_folds T k ltac:(lia)) kk Hkk) as (tr' & te' & nv' & E' & L1 & L2 & P). rewrite E in E'. injection E' as <- <- <-.
  pose proof (Nat.div_mod T k ltac:(lia)). pose proof (Nat.div_str_pos T k ltac:(lia)). pose proof (Nat.mod_upper_bound T k ltac:(lia)).
  assert (0 < nv < T)%nat by (destruct (Nat.eqb (S kk) k); nia). repeat split; [lia|lia|exact L2|exact L1|].
  intros s Hs. apply (Permutation_in _ P) in Hs. now apply in_seq0 in Hs.
Qed.
Lemma h0k_sym T K : good_kernel K -> forall i j, h0k T K i j = h0k T K j i.
Proof. intros (_ & S & _) i j. unfold h0k, h0. now rewrite eye_sym, S. Qed.

(** ** C202 *)
(** With parents the score is the score without parents, of the residuals of the kernel ridge regression of the variable on its parents, fitted on the
    training samples of each fold.  [W tr s] are the weights of the training samples in the prediction of sample s (the normal equations of the regression);
    the residual of s is the feature of s minus the weighted features of the training samples, and [kip T Kx] is the inner product of such combinations. *)
Theorem C202_residuals : forall pd lg lam k T D x p pa K0 K1 (W : list nat -> nat -> rvec), 0 < lam -> (2 <= k <= T)%nat ->
  (forall n, (0 < n < T)%nat -> pd_ok pd lg n) ->
  column_kernel T D x = Some K0 -> parents_kernel T D (p :: pa) = Some K1 ->
  let Kx := h0k T K0 in let Kpa := h0k T K1 in
  (forall kk tr te nv, (kk < k)%nat -> cv_fold T k kk = Some (tr, te, nv) -> forall s, (s < T)%nat -> ridge_weights (T - nv) tr lam Kpa (W tr s) s) ->
  score_cv_general pd lg lam k T D x (p :: pa) =
  cv_loop T k (fun tr te nv n1 =>
    let r s := residual n1 tr (W tr s) s in
    let G (a b : list nat) : rmat := fun i j => kip T Kx (r (nth i a 0%nat)) (r (nth j b 0%nat)) in
    fold_alone pd lg nv n1 (G te te) (G tr tr) (G tr te)).
Proof.
  intros pd lg lam k T D x p pa K0 K1 W Hl Hk HP EX EP Kx Kpa HW. unfold score_cv_general. destruct (Nat.eqb_spec k 0); [lia|]. rewrite EX. rewrite EP. fold Kx. fold Kpa.
  pose proof (column_T _ _ _ _ EX) as HT. pose proof (column_kernel_good _ _ _ _ EX) as GX. pose proof (parents_kernel_good _ _ _ _ EP) as GP.
  apply cv_loop_ext. intros kk tr te nv Hkk E. destruct (fold_facts T k kk tr te nv Hk Hkk E) as (Hn & L1 & L2 & HI). cbn zeta.
  refine (fold_residual pd lg lam T (T - nv) nv tr te Kx Kpa (W tr) Hl (proj1 Hn) (HP _ Hn) L1 L2 HI _ _ _ _).
  - now apply h0k_psd.
  - now apply h0k_sym.
  - now apply h0k_psd.
  - intros s Hs. apply (HW kk tr te nv Hkk E). now apply HI.
Qed.
(** In exact arithmetic no Cholesky factorisation fails: the matrices are positive definite, and the score is a number. *)
Theorem C202_positive_definite : forall T D K0 K1 tr n1 lam P, kernel_matrix T D K0 -> kernel_matrix T D K1 -> (2 <= T)%nat -> (0 < n1)%nat -> 0 < lam ->
  length tr = n1 -> (forall s, In s tr -> (s < T)%nat) ->
  posdef n1 (ridge lam n1 (sub (h0k T K1) tr tr)) /\
  (inverse n1 (ridge lam n1 (sub (h0k T K1) tr tr)) P -> posdef n1 (b_parents lam n1 (tmp2_of n1 P (sub (h0k T K0) tr tr)))) /\
  posdef n1 (b_alone n1 (sub (h0k T K0) tr tr)).
Proof.
  intros T D K0 K1 tr n1 lam P H0 H1 HT Hn Hl L HI. apply kernel_matrix_good in H0, H1.
  assert (P0 : psd n1 (sub (h0k T K0) tr tr)) by (apply (sub_psd T); [exact L | exact HI | now apply h0k_psd]).
  assert (P1 : psd n1 (sub (h0k T K1) tr tr)) by (apply (sub_psd T); [exact L | exact HI | now apply h0k_psd]).
  pose proof (ridge_posdef lam n1 _ Hl Hn P1) as PR. split; [exact PR|]. split.
  - intros IP. apply shifted_posdef; [apply c_nonneg|]. apply psd_sandwich; [exact (inverse_sym n1 _ _ (proj1 PR) IP) | exact P0].
  - apply shifted_posdef; [now apply c1_nonneg | exact P0].
Qed.
Theorem C202_number : forall pd lg lam k T D x pa, 0 < lam -> (2 <= k <= T)%nat -> (forall n, (0 < n < T)%nat -> pd_ok pd lg n) ->
  (forall c, In c (x :: pa) -> exists a b, (a < T)%nat /\ (b < T)%nat /\ D a c <> D b c) -> exists r, score_cv_general pd lg lam k T D x pa = Score r.
Proof.
  intros pd lg lam k T D x pa Hl Hk HP HD.
  assert (CK : forall c, In c (x :: pa) -> exists K, column_kernel T D c = Some K).
  { intros c Hc. destruct (HD c Hc) as (a & b & Ha & Hb & N). unfold column_kernel. destruct (width_of T 1 (col (variable D c))) as [w|] eqn:E; [eauto|]. exfalso. apply N.
    exact (proj1 (width_none T 1 (col (variable D c))) E a b 0%nat Ha Hb ltac:(lia)). }
  destruct (CK x (or_introl eq_refl)) as [K0 EX]. pose proof (column_T _ _ _ _ EX) as HT.
  assert (MEAN : forall f, (forall kk tr te nv, (kk < k)%nat -> cv_fold T k kk = Some (tr, te, nv) -> exists v, f tr te nv (T - nv)%nat = Score v) -> exists r, cv_loop T k f = Score r).
  { intros f Hf. eexists. apply (cv_loop_mean T k f (fun kk => match cv_fold T k kk with Some (tr, te, nv) => match f tr te nv (T - nv)%nat with Score v => v | _ => 0 end | None => 0 end)).
    intros kk Hkk. destruct (cv_fold_spec T k kk Hkk) as (a & b & _ & _ & _ & F). do 3 eexists. split; [exact F|]. rewrite F. destruct (Hf kk _ _ _ Hkk F) as [v ->]. reflexivity. }
  assert (KM0 : kernel_matrix T D K0) by (left; eauto).
  unfold score_cv_general. destruct (Nat.eqb_spec k 0); [lia|]. rewrite EX. destruct pa as [|p pa].
  - apply MEAN. intros kk tr te nv Hkk E. destruct (fold_facts T k kk tr te nv Hk Hkk E) as (Hn & L1 & L2 & HI). unfold fold_alone. destruct (Nat.eqb_spec (T - nv) 0); [lia|].
    destruct (lg (T - nv)%nat (b_alone (T - nv) (sub (h0k T K0) tr tr))) eqn:EL; [eauto|]. exfalso. refine (proj2 (proj2 (HP _ Hn) _ _) EL).
    refine (proj2 (proj2 (C202_positive_definite T D K0 K0 tr (T - nv) lam (fun _ _ => 0) KM0 KM0 HT (proj1 Hn) Hl L1 _))). intros; apply HI, in_or_app; now left.
  - destruct (parents_kernel T D (p :: pa)) as [K1|] eqn:EP.
    + assert (KM1 : kernel_matrix T D K1) by (right; eauto). apply MEAN. intros kk tr te nv Hkk E. destruct (fold_facts T k kk tr te nv Hk Hkk E) as (Hn & L1 & L2 & HI). unfold fold_parents.
      set (P := pd (T - nv)%nat (ridge lam (T - nv) (sub (h0k T K1) tr tr))).
      assert (HI' : forall s, In s tr -> (s < T)%nat) by (intros; apply HI, in_or_app; now left).
      pose proof (C202_positive_definite T D K0 K1 tr (T - nv) lam P KM0 KM1 HT (proj1 Hn) Hl L1 HI') as (PR & PB & _).
      destruct (lg _ _) eqn:EL; [eauto|]. exfalso. exact (proj2 (proj2 (HP _ Hn) _ (PB (proj1 (proj2 (HP _ Hn) _ PR)))) EL).
    + exfalso. unfold parents_kernel in EP. assert (G : forall l K, (forall c, In c l -> In c (x :: p :: pa)) ->
        fold_left (fun acc c => match acc, column_kernel T D c with Some K, Some K' => Some (fun i j => K i j * K' i j) | _, _ => None end) l (Some K) <> None).
      { induction l as [|c l IH]; intros K Hc; [discriminate|]. cbn [fold_left]. destruct (CK c (Hc c (or_introl eq_refl))) as [K' ->]. apply IH. intros; apply Hc; now right. }
      exact (G (p :: pa) _ (fun c Hc => or_intror Hc) EP).
Qed.
(** Each entry of the trace is the squared Mahalanobis length of a validation sample: f are feature vectors with the given inner products (on any number p of
    dimensions), and g solves (gamma I + the covariance matrix of the training features) g = f s. *)
Theorem C202_mahalanobis : forall p n1 tr (f : nat -> rvec) M te j g, (0 < n1)%nat ->
  let K := fun a b => rdot p (f a) (f b) in
  inverse n1 (fun a b => eye a b + 1 / (gamma_cv * INR n1) * sub K tr tr a b) M ->
  (forall a, (a < p)%nat -> gamma_cv * g a + 1 / INR n1 * rsum (fun i => f (nth i tr 0%nat) a * rdot p (f (nth i tr 0%nat)) g) (seq 0 n1) = f (nth j te 0%nat) a) ->
  a_alone n1 M (sub K te te) (sub K tr te) j j = rdot p (f (nth j te 0%nat)) g.
Proof.
  intros p n1 tr f M te j g Hn K [MR ML] HG. rewrite <- (woodbury p n1 tr f (nth j te 0%nat) M g Hn MR ML HG). unfold a_alone. f_equal. f_equal.
  change (mmul n1 (mmul n1 (fun i j0 => 1 / (gamma_cv * INR n1) * sub K tr te j0 i) M) (sub K tr te) j j) with (mvec n1 (mmul n1 (fun i j0 => 1 / (gamma_cv * INR n1) * sub K tr te j0 i) M) (fun l => sub K tr te l j) j).
  rewrite mvec_mmul.
  change (rdot n1 (fun l => 1 / (gamma_cv * INR n1) * (fun l => sub K tr te l j) l) (mvec n1 M (fun l => sub K tr te l j)) = 1 / (gamma_cv * INR n1) * rdot n1 (fun l => sub K tr te l j) (mvec n1 M (fun l => sub K tr te l j))).
  apply rdot_scal_l.
Qed.
(** The value is not the negative log-likelihood: the Cholesky factor L has L L' = B, so that the sum of its logarithms is half of log det B, and the score takes
    half of it again; and log(2 pi) counts nv times per sample.  One training sample with feature a, nv validation samples with features b: the Gaussian has variance gamma + a^2. *)
Definition scalar_inv (n : nat) (M : rmat) : rmat := fun i j => / M 0%nat 0%nat.
Definition scalar_log (n : nat) (M : rmat) : option R := if Rlt_dec 0 (M 0%nat 0%nat) then Some (ln (sqrt (M 0%nat 0%nat))) else None.
Definition gaussian_nll (v y : R) : R := (ln (2 * PI) + ln v + y ^ 2 / v) / 2.
Theorem C202_likelihood_refuted : forall nv a (b : rvec), fold_alone scalar_inv scalar_log nv 1 (fun i j => b i * b j) (fun _ _ => a * a) (fun _ j => a * b j)
  = Score (rsum (fun j => gaussian_nll (gamma_cv + a * a) (b j)) (seq 0 nv) + INR nv * (INR nv - 1) * ln (2 * PI) / 2 - INR nv * (ln gamma_cv / 2 + ln (1 + a * a / gamma_cv) / 4)).
Proof.
  intros nv a b. pose proof gamma_pos as HG. assert (HA : 0 <= a * a) by exact (Rle_0_sqr _). assert (HQ : 0 <= a * a / gamma_cv) by (apply Rmult_le_pos; [exact HA | left; now apply Rinv_0_lt_compat]).
  unfold fold_alone. cbn [Nat.eqb]. unfold scalar_log, b_alone. cbn [INR]. replace (1 / (gamma_cv * 1) * (a * a) + eye 0%nat 0%nat) with (1 + a * a / gamma_cv) by (unfold eye; cbn [Nat.eqb]; field; lra).
  destruct (Rlt_dec 0 (1 + a * a / gamma_cv)); [|lra]. f_equal. unfold fold_value.
  assert (E1 : ln (sqrt (1 + a * a / gamma_cv)) = ln (1 + a * a / gamma_cv) / 2).
  { assert (SQ : 0 < sqrt (1 + a * a / gamma_cv)) by (apply sqrt_lt_R0; lra). rewrite <- (sqrt_def (1 + a * a / gamma_cv)) at 2 by lra. rewrite ln_mult by exact SQ. field. }
  assert (E2 : ln (gamma_cv + a * a) = ln gamma_cv + ln (1 + a * a / gamma_cv)) by (rewrite <- ln_mult by lra; f_equal; field; lra).
  rewrite E1. unfold gaussian_nll. rewrite (rsum_ext (fun j => (ln (2 * PI) + ln (gamma_cv + a * a) + b j ^ 2 / (gamma_cv + a * a)) / 2) (fun j => (ln (2 * PI) + ln (gamma_cv + a * a)) / 2 + 1 / 2 * (b j ^ 2 / (gamma_cv + a * a)))) by (intros; field; lra).
  rewrite rsum_plus, rsum_mult, rsum_const, seq_length, E2. unfold mtrace.
  rewrite (rsum_ext _ (fun j => b j ^ 2 / (gamma_cv + a * a))).
  2:{ intros j _. unfold a_alone, mmul, scalar_inv, rsum, eye. cbn [seq map fold_right Nat.eqb INR]. field. repeat split; lra. }
  set (SS := rsum _ _). field.
Qed.
Lemma scalar_ok : pd_ok scalar_inv scalar_log 1.
Proof.
  split.
  - intros M M' H. unfold scalar_log, scalar_inv. rewrite (H 0%nat 0%nat) by lia. auto.
  - intros M [_ P]. specialize (P (fun _ => 1) (ex_intro _ 0%nat (conj (Nat.lt_0_succ 0) R1_neq_R0))). unfold quad, rdot, mvec, rdot, rsum in P. cbn [seq map fold_right] in P.
    assert (0 < M 0%nat 0%nat) by lra. split.
    + split; intros i j Hi Hj; replace i with 0%nat by lia; replace j with 0%nat by lia; unfold mmul, scalar_inv, rsum, eye; cbn; field; lra.
    + unfold scalar_log. destruct (Rlt_dec 0 (M 0%nat 0%nat)); [discriminate | contradiction].
Qed.
(** the hypotheses are met: two samples, two folds *)
Theorem C202_met : (forall n, (0 < n < 2)%nat -> pd_ok scalar_inv scalar_log n) /\
  (forall c, In c [0; 1]%nat -> exists a b, (a < 2)%nat /\ (b < 2)%nat /\ ramp a c <> ramp b c) /\
  exists r, score_cv_general scalar_inv scalar_log (1 / 100) 2 2 ramp 0 [1]%nat = Score r.
Proof.
  assert (A : forall n, (0 < n < 2)%nat -> pd_ok scalar_inv scalar_log n) by (intros n Hn; replace n with 1%nat by lia; exact scalar_ok).
  assert (B : forall c, In c [0; 1]%nat -> exists a b, (a < 2)%nat /\ (b < 2)%nat /\ ramp a c <> ramp b c).
  { intros c _. exists 0%nat, 1%nat. repeat split; [lia|lia|]. unfold ramp. cbn [INR]. assert (0 < INR (c + 1)) by (apply lt_0_INR; lia). lra. }
  split; [exact A|]. split; [exact B|]. apply C202_number; [lra | lia | exact A | exact B].
Qed.

(** ** C203 *)
Lemma sq_affine D D' c a b : (forall s, D' s c = a * D s c + b) -> forall i j, sqdist 1 (col (variable D' c)) i j = a ^ 2 * sqdist 1 (col (variable D c)) i j.
Proof. intros H i j. unfold sqdist, col, variable, rsum. cbn [seq map fold_right]. rewrite !H. ring. Qed.
Lemma column_affine T D D' c a b : a <> 0 -> (forall s, D' s c = a * D s c + b) -> column_kernel T D' c = column_kernel T D c.
Proof.
  intros Ha H. pose proof (sq_affine D D' c a b H) as SQ. assert (A2 : 0 < a ^ 2) by (cbn [pow]; rewrite Rmult_1_r; apply Rsqr_pos_lt; exact Ha).
  unfold column_kernel, width_of. rewrite (upper_scale T 1 _ _ (a ^ 2) A2 SQ). destruct (upper_dists T 1 (col (variable D c))) as [|r l] eqn:E; [reflexivity|].
  cbn [map]. f_equal. change (a ^ 2 * r :: map (Rmult (a ^ 2)) l) with (map (Rmult (a ^ 2)) (r :: l)). rewrite (rmedian_scale (a ^ 2)) by exact A2.
  assert (PM : 0 < rmedian (r :: l)). { apply rmedian_pos; [discriminate|]. intros y Hy. rewrite <- E in Hy. apply upper_in in Hy. destruct Hy as (? & ? & _ & _ & _ & P). exact P. }
  apply functional_extensionality. intros i. apply functional_extensionality. intros j. unfold kernel. f_equal. f_equal. rewrite !dist2_sq. unfold variable. rewrite !H.
  set (m := rmedian (r :: l)) in *. assert (Q : forall z, 0 < z -> (sqrt z * 2) ^ 2 = 4 * z) by (intros z Hz; replace ((sqrt z * 2) ^ 2) with (4 * (sqrt z * sqrt z)) by ring; rewrite sqrt_def by lra; reflexivity).
  rewrite !Q by nra. field. repeat split; lra.
Qed.
Lemma parents_kernel_ext T D D' pa : (forall c, In c pa -> column_kernel T D' c = column_kernel T D c) -> parents_kernel T D' pa = parents_kernel T D pa.
Proof.
  unfold parents_kernel. generalize (Some (fun _ _ : nat => 1)). induction pa as [|c pa IH]; intros acc H; [reflexivity|]. cbn [fold_left]. rewrite (H c) by now left. apply IH. intros; apply H; now right.
Qed.
(** Changing the units and the zero of the variables (also their sign) does not change the score, and neither do the other variables. *)
Theorem C203_units : forall pd lg lam k T D D' a b x pa, (forall c, In c (x :: pa) -> a c <> 0 /\ forall s, D' s c = a c * D s c + b c) ->
  score_cv_general pd lg lam k T D' x pa = score_cv_general pd lg lam k T D x pa.
Proof.
  intros pd lg lam k T D D' a b x pa H. unfold score_cv_general.
  assert (C : forall c, In c (x :: pa) -> column_kernel T D' c = column_kernel T D c) by (intros c Hc; destruct (H c Hc) as [H1 H2]; now apply (column_affine T D D' c (a c) (b c))).
  rewrite (C x) by now left. rewrite (parents_kernel_ext T D D' pa) by (intros; apply C; now right). reflexivity.
Qed.
Theorem C203_other_variables : forall pd lg lam k T D D' x pa, (forall c, In c (x :: pa) -> forall s, D' s c = D s c) ->
  score_cv_general pd lg lam k T D' x pa = score_cv_general pd lg lam k T D x pa.
Proof. intros pd lg lam k T D D' x pa H. apply (C203_units pd lg lam k T D D' (fun _ => 1) (fun _ => 0)). intros c Hc. split; [lra|]. intros s. rewrite H by exact Hc. ring. Qed.
(** The order of the parents does not matter. *)
Theorem C203_order : forall pd lg lam k T D x pa pa', Permutation pa pa' -> score_cv_general pd lg lam k T D x pa' = score_cv_general pd lg lam k T D x pa.
Proof.
  intros pd lg lam k T D x pa pa' P.
  assert (E : parents_kernel T D pa' = parents_kernel T D pa).
  { unfold parents_kernel. generalize (Some (fun _ _ : nat => 1)). induction P as [|c l l' _ IH|c c' l|l l' l'' _ IH1 _ IH2]; intros acc; [reflexivity | cbn [fold_left]; apply IH | | now rewrite IH2].
    cbn [fold_left]. f_equal. destruct acc as [K|]; [|reflexivity]. destruct (column_kernel T D c), (column_kernel T D c'); try reflexivity. f_equal.
    apply functional_extensionality. intros i. apply functional_extensionality. intros j. ring. }
  unfold score_cv_general. rewrite E. destruct pa as [|p pa]; [apply Permutation_nil in P; now subst|]. destruct pa' as [|p' pa']; [apply Permutation_sym, Permutation_nil in P; discriminate|]. reflexivity.
Qed.
(** A variable or a parent with the same value in every sample: no number. *)
Theorem C203_constant : forall pd lg lam k T D x pa c, (0 < k)%nat -> In c (x :: pa) -> (forall s s', (s < T)%nat -> (s' < T)%nat -> D s c = D s' c) ->
  score_cv_general pd lg lam k T D x pa = NoNumber.
Proof.
  intros pd lg lam k T D x pa c Hk Hc H.
  assert (N : column_kernel T D c = None). { unfold column_kernel. replace (width_of T 1 (col (variable D c))) with (@None R); [reflexivity|]. symmetry. apply width_none. intros s s' e Hs Hs' _. now apply H. }
  unfold score_cv_general. destruct (Nat.eqb_spec k 0); [lia|]. destruct Hc as [-> | Hc]; [now rewrite N|].
  destruct (column_kernel T D x) as [K0|]; [|reflexivity]. destruct pa as [|p pa]; [destruct Hc|].
  assert (F : forall l, fold_left (fun acc c => match acc, column_kernel T D c with Some K, Some K' => Some (fun i j => K i j * K' i j) | _, _ => None end) l None = None) by (induction l as [|y l IH]; [reflexivity | exact IH]).
  assert (E : parents_kernel T D (p :: pa) = None).
  { unfold parents_kernel. generalize (Some (fun _ _ : nat => 1)). revert Hc. generalize (p :: pa). induction l as [|y l IH]; intros Hc acc; [destruct Hc|]. cbn [fold_left]. destruct Hc as [-> | Hc].
    - rewrite N. destruct acc; apply F.
    - apply IH, Hc. }
  now rewrite E.
Qed.
