(** C202: what the cross-validated score is: proofs. *)
From Verif Require Import Base UtilsModel BICModel BICProofs ChisqProps EffectModel EffectProofs VARModel VARProofs CALMProofs KCIModel KCIProofs KCIProps HSICModel HSICProofs HSICMedian HSICProps HSICTestProps CVModel CVProofs CVResid.
From Coq Require Import Permutation Reals Lra Psatz.
Local Open Scope R_scope.

(** pdinv and the Cholesky factor look at the n x n matrix only; on positive definite matrices the first is the inverse and the second exists. *)
Definition pd_ok (pd : nat -> rmat -> rmat) (lg : nat -> rmat -> option R) (n : nat) : Prop :=
  (forall M M', (forall i j, (i < n)%nat -> (j < n)%nat -> M i j = M' i j) -> lg n M = lg n M' /\ forall i j, (i < n)%nat -> (j < n)%nat -> pd n M i j = pd n M' i j) /\
  (forall M, posdef n M -> inverse n M (pd n M) /\ lg n M <> None).
Lemma gamma_pos : 0 < gamma_cv.
Proof. unfold gamma_cv. lra. Qed.
Lemma ridge_posdef lam n1 K : 0 < lam -> (0 < n1)%nat -> psd n1 K -> posdef n1 (ridge lam n1 K).
Proof.
  intros Hl Hn P. apply (posdef_ext n1 (fun i j => 1 * K i j + INR n1 * lam * eye i j)); [intros; unfold ridge; ring|]. apply posdef_add; [|exact P].
  apply Rmult_lt_0_compat; [apply lt_0_INR; lia | exact Hl].
Qed.
Lemma psd_scal n c M : 0 <= c -> psd n M -> psd n (fun i j => c * M i j).
Proof.
  intros Hc [S P]. split; [intros i j Hi Hj; now rewrite S|]. intros u. rewrite (quad_ext n _ (fun i j => c * M i j + 0 * M i j)) by (intros; ring). rewrite quad_lin.
  specialize (P u). nra.
Qed.
Lemma shifted_posdef n c M : 0 <= c -> psd n M -> posdef n (fun i j => c * M i j + eye i j).
Proof. intros Hc P. apply (posdef_ext n (fun i j => 1 * (c * M i j) + 1 * eye i j)); [intros; ring|]. apply posdef_add; [lra | now apply psd_scal]. Qed.
Lemma c_nonneg lam n1 : 0 <= INR n1 * lam ^ 2 / gamma_cv.
Proof. pose proof gamma_pos. pose proof (pos_INR n1). assert (0 <= lam ^ 2) by (cbn; rewrite Rmult_1_r; exact (Rle_0_sqr _)). apply Rmult_le_pos; [now apply Rmult_le_pos | left; now apply Rinv_0_lt_compat]. Qed.
Lemma c1_nonneg n1 : (0 < n1)%nat -> 0 <= 1 / (gamma_cv * INR n1).
Proof. intros H. pose proof gamma_pos. assert (0 < INR n1) by (apply lt_0_INR; lia). left. apply Rdiv_lt_0_compat; [lra | now apply Rmult_lt_0_compat]. Qed.

Lemma fold_residual pd lg lam T n1 nv tr te Kx Kpa (W : nat -> rvec) : 0 < lam -> (0 < n1)%nat -> pd_ok pd lg n1 ->
  length tr = n1 -> length te = nv -> (forall s, In s (tr ++ te) -> (s < T)%nat) ->
  psd T Kx -> (forall i j, Kx i j = Kx j i) -> psd T Kpa ->
  (forall s, In s (tr ++ te) -> ridge_weights n1 tr lam Kpa (W s) s) ->
  let r s := residual n1 tr (W s) s in
  let G (a b : list nat) : rmat := fun i j => kip T Kx (r (nth i a 0%nat)) (r (nth j b 0%nat)) in
  fold_parents pd lg lam nv n1 (sub Kx te te) (sub Kx tr tr) (sub Kx tr te) (sub Kpa tr tr) (sub Kpa tr te) = fold_alone pd lg nv n1 (G te te) (G tr tr) (G tr te).
Proof.
  intros Hl Hn [LOC INV] Ltr Lte HT PX SX PP HW r G. pose proof gamma_pos as HG. assert (HN : 0 < INR n1) by (apply lt_0_INR; lia).
  assert (Itr : forall i, (i < n1)%nat -> In (nth i tr 0%nat) (tr ++ te)) by (intros i Hi; apply in_or_app; left; apply nth_In; lia).
  assert (Ite : forall i, (i < nv)%nat -> In (nth i te 0%nat) (tr ++ te)) by (intros i Hi; apply in_or_app; right; apply nth_In; lia).
  assert (Htr : forall i, (i < n1)%nat -> (nth i tr 0 < T)%nat) by (intros; apply HT; auto).
  assert (PXt : psd n1 (sub Kx tr tr)) by (apply (sub_psd T); [exact Ltr | intros; apply HT, in_or_app; now left | exact PX]).
  assert (PPt : psd n1 (sub Kpa tr tr)) by (apply (sub_psd T); [exact Ltr | intros; apply HT, in_or_app; now left | exact PP]).
  pose proof (ridge_posdef lam n1 _ Hl Hn PPt) as PR. destruct (INV _ PR) as [IP _]. set (P := pd n1 (ridge lam n1 (sub Kpa tr tr))) in *.
  assert (SP : symmetric n1 P) by (apply (inverse_sym n1 _ _ (proj1 PR) IP)).
  set (t2 := tmp2_of n1 P (sub Kx tr tr)). assert (P2 : psd n1 t2) by now apply psd_sandwich.
  set (c := INR n1 * lam ^ 2 / gamma_cv). assert (Hc : 0 <= c) by apply c_nonneg.
  assert (PB : posdef n1 (fun i j => eye i j + c * t2 i j)) by (apply (posdef_ext n1 (fun i j => c * t2 i j + eye i j)); [intros; ring | now apply shifted_posdef]).
  destruct (INV _ PB) as [IM _]. set (M := pd n1 (fun i j => eye i j + c * t2 i j)) in *. assert (SM : symmetric n1 M) by (apply (inverse_sym n1 _ _ (proj1 PB) IM)).
  assert (GT : forall i j, (i < n1)%nat -> (j < n1)%nat -> 1 / (gamma_cv * INR n1) * G tr tr i j = c * t2 i j).
  { intros i j Hi Hj. unfold G, r. rewrite (gram_train T n1 tr Kx Htr SX lam Kpa P SP IP) by auto. fold t2. unfold c. field. lra. }
  unfold fold_parents, fold_alone. fold P. fold t2. fold c. fold M. destruct (Nat.eqb_spec n1 0); [lia|].
  destruct (LOC (b_parents lam n1 t2) (b_alone n1 (G tr tr))) as [-> _]; [intros i j Hi Hj; unfold b_parents, b_alone; fold c; now rewrite GT|].
  destruct (lg n1 (b_alone n1 (G tr tr))) as [C|]; [|reflexivity]. f_equal. unfold fold_value. f_equal. f_equal. unfold mtrace. apply rsum_ext. intros j Hj. apply in_seq0 in Hj.
  etransitivity; [apply (a_diag T n1 tr Kx Htr SX lam Kpa P SP IP M te (W (nth j te 0%nat)) j SM); auto|].
  unfold a_alone. f_equal. f_equal.
  set (u := fun l => mvec T Kx (residual n1 tr (W (nth j te 0%nat)) (nth j te 0%nat)) (nth l tr 0%nat)).
  set (M' := pd n1 (fun i j0 => eye i j0 + 1 / (gamma_cv * INR n1) * G tr tr i j0)).
  assert (EM : forall a b, (a < n1)%nat -> (b < n1)%nat -> M' a b = M a b).
  { intros a b Ha Hb. symmetry. apply LOC; [|exact Ha|exact Hb]. intros i j0 Hi Hj0. now rewrite GT. }
  assert (EV : forall l, (l < n1)%nat -> G tr te l j = INR n1 * lam * mvec n1 P u l).
  { intros l Hl'. unfold G, r. rewrite (kip_train T n1 tr Kx Htr lam Kpa P SP IP) by auto. reflexivity. }
  change (mmul n1 (mmul n1 (fun i j0 => 1 / (gamma_cv * INR n1) * G tr te j0 i) M') (G tr te) j j) with (mvec n1 (mmul n1 (fun i j0 => 1 / (gamma_cv * INR n1) * G tr te j0 i) M') (fun l => G tr te l j) j).
  rewrite mvec_mmul. change (mvec n1 (fun i j0 => 1 / (gamma_cv * INR n1) * G tr te j0 i) (mvec n1 M' (fun l => G tr te l j)) j) with (rdot n1 (fun l => 1 / (gamma_cv * INR n1) * (fun l => G tr te l j) l) (mvec n1 M' (fun l => G tr te l j))).
  rewrite rdot_scal_l.
  rewrite (rdot_ext n1 (fun l => G tr te l j) (fun l => INR n1 * lam * mvec n1 P u l) _ (fun l => INR n1 * lam * mvec n1 M (mvec n1 P u) l) EV).
  2:{ intros l Hl'. rewrite (mvec_mat n1 M' M) by (intros; now apply EM). rewrite (mvec_ext n1 M _ _ l EV). now rewrite mvec_scal. }
  rewrite rdot_scal_l, rdot_scal. fold u. unfold c. field. lra.
Qed.

(** Woodbury: with features f, the quadratic form of the score is the squared Mahalanobis length of the new sample. *)
Lemma woodbury p n1 tr (f : nat -> rvec) (s : nat) (M : rmat) g : (0 < n1)%nat ->
  (forall i j, (i < n1)%nat -> (j < n1)%nat -> mmul n1 (fun i j => eye i j + 1 / (gamma_cv * INR n1) * rdot p (f (nth i tr 0%nat)) (f (nth j tr 0%nat))) M i j = eye i j) ->
  (forall i j, (i < n1)%nat -> (j < n1)%nat -> mmul n1 M (fun i j => eye i j + 1 / (gamma_cv * INR n1) * rdot p (f (nth i tr 0%nat)) (f (nth j tr 0%nat))) i j = eye i j) ->
  (forall a, (a < p)%nat -> gamma_cv * g a + 1 / INR n1 * rsum (fun i => f (nth i tr 0%nat) a * rdot p (f (nth i tr 0%nat)) g) (seq 0 n1) = f s a) ->
  (rdot p (f s) (f s) - 1 / (gamma_cv * INR n1) * rdot n1 (fun i => rdot p (f (nth i tr 0%nat)) (f s)) (mvec n1 M (fun i => rdot p (f (nth i tr 0%nat)) (f s)))) / gamma_cv = rdot p (f s) g.
Proof.
  intros Hn MR ML HG. pose proof gamma_pos as HP. assert (HN : 0 < INR n1) by (apply lt_0_INR; lia).
  set (F := fun i => f (nth i tr 0%nat)) in *. set (k := fun i => rdot p (F i) (f s)). set (h := fun i => rdot p (F i) g). set (c := 1 / (gamma_cv * INR n1)) in *.
  (* F' (gamma g + F F' g / n1) = k, so (I + K / (gamma n1)) h = k / gamma *)
  assert (SUM : forall v, rdot p v (f s) = gamma_cv * rdot p v g + 1 / INR n1 * rsum (fun i => rdot p v (F i) * h i) (seq 0 n1)).
  { intros v. rewrite (rdot_ext p v v (f s) (fun a => gamma_cv * g a + 1 / INR n1 * rsum (fun i => F i a * h i) (seq 0 n1))) by (intros a Ha; solve [reflexivity | symmetry; exact (HG a Ha)]).
    rewrite rdot_plus, !rdot_scal. f_equal. f_equal. unfold rdot at 1. rewrite (rsum_ext _ (fun a => rsum (fun i => v a * F i a * h i) (seq 0 n1))) by (intros a _; rewrite <- rsum_mult; apply rsum_ext; intros; ring).
    rewrite rsum_swap. apply rsum_ext. intros i _. unfold rdot. rewrite (Rmult_comm (rsum _ _)), <- rsum_mult. apply rsum_ext. intros; ring. }
  assert (H1 : forall i, (i < n1)%nat -> mvec n1 (fun i j => eye i j + c * rdot p (F i) (F j)) (fun l => gamma_cv * h l) i = k i).
  { intros i Hi. unfold k. rewrite SUM. fold (h i). rewrite mvec_scal. unfold mvec, rdot at 1.
    rewrite (rsum_ext _ (fun j => eye i j * h j + c * (rdot p (F i) (F j) * h j))) by (intros; ring). rewrite rsum_plus, rsum_mult, (rsum_eye n1 i h Hi). unfold c. field. lra. }
  assert (H2 : forall i, (i < n1)%nat -> mvec n1 M k i = gamma_cv * h i).
  { intros i Hi. rewrite <- (inverse_mvec n1 (fun i j => eye i j + c * rdot p (F i) (F j)) M (fun l => gamma_cv * h l) i (conj MR ML) Hi). apply mvec_ext. intros j Hj. now rewrite H1. }
  change ((rdot p (f s) (f s) - c * rdot n1 k (mvec n1 M k)) / gamma_cv = rdot p (f s) g).
  rewrite (rdot_ext n1 k k (mvec n1 M k) (fun i => gamma_cv * h i)) by (intros; solve [reflexivity | now apply H2]). rewrite rdot_scal.
  rewrite (SUM (f s)). rewrite (rsum_ext (fun i => rdot p (f s) (F i) * h i) (fun i => k i * h i)) by (intros i _; unfold k; now rewrite (rdot_sym p (f s))).
  change (rsum (fun i => k i * h i) (seq 0 n1)) with (rdot n1 k h). unfold c. field. lra.
Qed.
