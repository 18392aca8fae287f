(** Matrix and kernel lemmas for the cross-validated score. *)
From Verif Require Import Base UtilsModel BICModel BICProofs ChisqProps EffectModel EffectProofs VARModel VARProofs KCIModel KCIProofs KCIProps HSICModel HSICProofs HSICMedian HSICProps HSICTestProps CVModel.
From Coq Require Import Reals Lra Psatz.
Local Open Scope R_scope.

Lemma rdot_sym n u v : rdot n u v = rdot n v u.
Proof. unfold rdot. apply rsum_ext. intros; ring. Qed.
Lemma rdot_ext n u u' v v' : (forall i, (i < n)%nat -> u i = u' i) -> (forall i, (i < n)%nat -> v i = v' i) -> rdot n u v = rdot n u' v'.
Proof. intros H1 H2. unfold rdot. apply rsum_ext. intros i Hi. apply in_seq0 in Hi. now rewrite H1, H2. Qed.
Lemma rdot_plus n u v w : rdot n u (fun i => v i + w i) = rdot n u v + rdot n u w.
Proof. unfold rdot. rewrite <- rsum_plus. apply rsum_ext. intros; ring. Qed.
Lemma rdot_minus n u v w : rdot n u (fun i => v i - w i) = rdot n u v - rdot n u w.
Proof. unfold rdot. rewrite <- rsum_minus. apply rsum_ext. intros; ring. Qed.
Lemma rdot_scal n c u v : rdot n u (fun i => c * v i) = c * rdot n u v.
Proof. unfold rdot. rewrite <- rsum_mult. apply rsum_ext. intros; ring. Qed.
Lemma rdot_scal_l n c u v : rdot n (fun i => c * u i) v = c * rdot n u v.
Proof. rewrite rdot_sym, rdot_scal. now rewrite rdot_sym. Qed.
Lemma rdot_minus_l n u v w : rdot n (fun i => v i - w i) u = rdot n v u - rdot n w u.
Proof. rewrite rdot_sym, rdot_minus. now rewrite (rdot_sym n u v), (rdot_sym n u w). Qed.
Lemma rdot_nonneg n u : 0 <= rdot n u u.
Proof. apply rsum_nonneg. intros. exact (Rle_0_sqr _). Qed.
Lemma rdot_0 n u : rdot n u u = 0 -> forall i, (i < n)%nat -> u i = 0.
Proof.
  unfold rdot. induction n as [|n IH]; [intros; lia|]. rewrite seq_S, rsum_app. cbn [plus]. rewrite rsum_cons. intros H i Hi.
  assert (A : 0 <= rsum (fun j => u j * u j) (seq 0 n)) by (apply rsum_nonneg; intros; exact (Rle_0_sqr _)).
  assert (B : 0 <= u n * u n) by exact (Rle_0_sqr _). change (rsum (fun j => u j * u j) []) with 0 in H.
  destruct (Nat.eq_dec i n) as [-> | ]; [apply Rsqr_0_uniq; unfold Rsqr; lra | apply IH; [lra | lia]].
Qed.
Lemma mvec_scal n A c v i : mvec n A (fun j => c * v j) i = c * mvec n A v i.
Proof. apply rdot_scal. Qed.
Lemma mvec_adj n A u v : (forall i j, (i < n)%nat -> (j < n)%nat -> A i j = A j i) -> rdot n u (mvec n A v) = rdot n (mvec n A u) v.
Proof.
  intros H. unfold rdot, mvec, rdot.
  rewrite (rsum_ext _ (fun i => rsum (fun j => u i * (A i j * v j)) (seq 0 n))) by (intros; now rewrite rsum_mult). rewrite rsum_swap.
  apply rsum_ext. intros j Hj. apply in_seq0 in Hj. rewrite (Rmult_comm (rsum _ _)), <- rsum_mult. apply rsum_ext. intros i Hi. apply in_seq0 in Hi. rewrite (H i j) by assumption. ring.
Qed.
Lemma mvec_eye n v i : (i < n)%nat -> mvec n eye v i = v i.
Proof. intros H. exact (rsum_eye n i v H). Qed.
Lemma mvec_mat n A B u i : (forall j, (j < n)%nat -> A i j = B i j) -> mvec n A u i = mvec n B u i.
Proof. intros H. apply rdot_ext; [exact H | reflexivity]. Qed.

(** positive semidefinite, positive definite, inverse: on the first n indices *)
Definition quad (n : nat) (M : rmat) (u : rvec) : R := rdot n u (mvec n M u).
Definition psd (n : nat) (M : rmat) : Prop := symmetric n M /\ forall u, 0 <= quad n M u.
Definition posdef (n : nat) (M : rmat) : Prop := symmetric n M /\ forall u, (exists i, (i < n)%nat /\ u i <> 0) -> 0 < quad n M u.
Definition inverse (n : nat) (M P : rmat) : Prop :=
  (forall i j, (i < n)%nat -> (j < n)%nat -> mmul n M P i j = eye i j) /\ (forall i j, (i < n)%nat -> (j < n)%nat -> mmul n P M i j = eye i j).

Lemma eye_sym i j : eye i j = eye j i.
Proof. unfold eye. now rewrite Nat.eqb_sym. Qed.
Lemma quad_ext n M M' u : (forall i j, (i < n)%nat -> (j < n)%nat -> M i j = M' i j) -> quad n M u = quad n M' u.
Proof. intros H. unfold quad. apply rdot_ext; [reflexivity|]. intros i Hi. apply mvec_mat. intros; now apply H. Qed.
Lemma quad_lin n a b M M' u : quad n (fun i j => a * M i j + b * M' i j) u = a * quad n M u + b * quad n M' u.
Proof.
  unfold quad. rewrite <- !rdot_scal, <- rdot_plus. apply rdot_ext; [reflexivity|]. intros i _. unfold mvec.
  rewrite <- !rdot_scal_l. rewrite (rdot_sym n (fun j => a * M i j)), (rdot_sym n (fun j => b * M' i j)), <- rdot_plus. apply rdot_sym.
Qed.
Lemma quad_eye n u : quad n eye u = rdot n u u.
Proof. unfold quad. apply rdot_ext; [reflexivity|]. intros i Hi. now apply mvec_eye. Qed.
Lemma posdef_add n c M : 0 < c -> psd n M -> posdef n (fun i j => 1 * M i j + c * eye i j).
Proof.
  intros Hc [S P]. split; [intros i j Hi Hj; rewrite (S i j), (eye_sym i j) by assumption; reflexivity|]. intros u (i & Hi & Hu).
  rewrite quad_lin, quad_eye. specialize (P u). pose proof (rdot_nonneg n u) as N.
  assert (rdot n u u <> 0) by (intros E; apply Hu; exact (rdot_0 n u E i Hi)). nra.
Qed.
Lemma posdef_ext n M M' : (forall i j, (i < n)%nat -> (j < n)%nat -> M i j = M' i j) -> posdef n M -> posdef n M'.
Proof. intros H [S P]. split; [intros i j Hi Hj; rewrite <- !H by assumption; now apply S|]. intros u Hu. rewrite <- (quad_ext n M M' u H). now apply P. Qed.
Lemma psd_ext n M M' : (forall i j, (i < n)%nat -> (j < n)%nat -> M i j = M' i j) -> psd n M -> psd n M'.
Proof. intros H [S P]. split; [intros i j Hi Hj; rewrite <- !H by assumption; now apply S|]. intros u. rewrite <- (quad_ext n M M' u H). apply P. Qed.
(** the inverse of a symmetric matrix is symmetric *)
Lemma inverse_sym n M P : symmetric n M -> inverse n M P -> symmetric n P.
Proof.
  intros S [MP PM] i j Hi Hj.
  (* P i j = (P M P^T) j i ... *)
  assert (E1 : forall a b, (a < n)%nat -> (b < n)%nat -> mmul n (fun x y => P y x) M a b = eye a b).
  { intros a b Ha Hb. rewrite eye_sym, <- (MP b a) by assumption. unfold mmul. apply rsum_ext. intros k Hk. apply in_seq0 in Hk. rewrite (S k b) by assumption. ring. }
  assert (E2 : mmul n (mmul n (fun x y => P y x) M) P i j = P i j).
  { change (rsum (fun k => mmul n (fun x y => P y x) M i k * P k j) (seq 0 n) = P i j). rewrite <- (rsum_eye n i (fun k => P k j) Hi). apply rsum_ext. intros k Hk. apply in_seq0 in Hk. now rewrite E1. }
  assert (E3 : mmul n (mmul n (fun x y => P y x) M) P i j = P j i).
  { change (mvec n (mmul n (fun x y => P y x) M) (fun k => P k j) i = P j i). rewrite mvec_mmul.
    rewrite (mvec_ext n _ _ (fun k => eye k j)) by (intros k Hk; exact (MP k j Hk Hj)). unfold mvec, rdot.
    rewrite (rsum_ext _ (fun k => eye j k * P k i)) by (intros k _; rewrite (eye_sym k j); ring). now rewrite (rsum_eye n j (fun k => P k i)). }
  congruence.
Qed.
Lemma inverse_mvec n M P u i : inverse n M P -> (i < n)%nat -> mvec n P (mvec n M u) i = u i.
Proof.
  intros [_ PM] Hi. rewrite <- mvec_mmul. rewrite <- (mvec_eye n u i Hi). apply mvec_mat. intros j Hj. now apply PM.
Qed.
(** P K P is positive semidefinite when K is and P is symmetric *)
Lemma psd_sandwich n P K : symmetric n P -> psd n K -> psd n (tmp2_of n P K).
Proof.
  intros SP [SK PK].
  assert (E : forall i u, mvec n (tmp2_of n P K) u i = mvec n P (mvec n K (mvec n P u)) i) by (intros i u; unfold tmp2_of; rewrite !mvec_mmul; reflexivity).
  assert (S : forall i j, (i < n)%nat -> (j < n)%nat -> tmp2_of n P K i j = rdot n (P i) (mvec n K (fun l => P l j))).
  { intros i j _ _. unfold tmp2_of. change (mvec n (mmul n P K) (fun l => P l j) i = rdot n (P i) (mvec n K (fun l => P l j))). now rewrite mvec_mmul. }
  split.
  - intros i j Hi Hj. rewrite !S by assumption. rewrite mvec_adj by exact SK. rewrite rdot_sym. apply rdot_ext; [intros; now apply SP|]. intros k Hk.
    apply mvec_ext. intros l Hl. now apply SP.
  - intros u. unfold quad. rewrite (rdot_ext n u u _ (mvec n P (mvec n K (mvec n P u)))) by (intros; solve [reflexivity | apply E]). rewrite mvec_adj by exact SP. apply PK.
Qed.
(** the matrices of the kernels *)
Lemma sub_psd n K (l : list nat) m : length l = m -> (forall x, In x l -> (x < n)%nat) -> psd n K -> psd m (sub K l l).
Proof.
  intros Hm Hl [S P]. assert (N : forall i, (i < m)%nat -> (nth i l 0 < n)%nat) by (intros i Hi; apply Hl, nth_In; lia).
  split; [intros i j Hi Hj; apply S; now apply N|]. intros u.
  (* extend u by 0 outside l *)
  set (g := fun a => rsum (fun i => u i * eye (nth i l 0%nat) a) (seq 0 m)).
  specialize (P g). enough (E : quad n K g = quad m (sub K l l) u) by now rewrite <- E.
  assert (F : forall v, rdot n g v = rsum (fun i => u i * v (nth i l 0%nat)) (seq 0 m)).
  { intros v. unfold rdot, g. rewrite (rsum_ext _ (fun a => rsum (fun i => u i * (eye (nth i l 0%nat) a * v a)) (seq 0 m))).
    2:{ intros a _. rewrite (Rmult_comm (rsum _ _)), <- rsum_mult. apply rsum_ext. intros; ring. }
    rewrite rsum_swap. apply rsum_ext. intros i Hi. apply in_seq0 in Hi. rewrite rsum_mult. f_equal. apply rsum_eye. now apply N. }
  unfold quad. rewrite F. unfold rdot. apply rsum_ext. intros i Hi. f_equal. unfold mvec, sub. rewrite rdot_sym, F. unfold rdot. apply rsum_ext. intros; ring.
Qed.
Lemma dist2_sq x i j : dist2 x i j = (x i - x j) * (x i - x j).
Proof. unfold dist2. cbn zeta. assert (0 <= (x i - x j) * (x i - x j)) by exact (Rle_0_sqr _). destruct (Rlt_dec _ 0) as [L|L]; nra. Qed.
Lemma kernel_gaussian th x i j : kernel th x i j = gaussian th 1 (col x) i j.
Proof. unfold kernel, gaussian, sqdist, col. rewrite dist2_sq. unfold rsum. cbn [seq map fold_right]. rewrite Rmult_1_l. f_equal. field. Qed.
Lemma kernel_diag th x i : kernel th x i i = 1.
Proof. unfold kernel. rewrite dist2_sq. replace (- ((x i - x i) * (x i - x i)) * (th / 2)) with 0 by ring. rewrite exp_0. ring. Qed.
Lemma kernel_range th x i j : 0 <= th -> 0 < kernel th x i j <= 1.
Proof.
  intros H. unfold kernel. rewrite dist2_sq, Rmult_1_l. split; [apply exp_pos|]. assert (0 <= (x i - x j) * (x i - x j)) by exact (Rle_0_sqr _).
  destruct (Rle_lt_or_eq_dec (- ((x i - x j) * (x i - x j)) * (th / 2)) 0 ltac:(nra)) as [L|E]; [|rewrite E, exp_0; lra].
  left. rewrite <- exp_0. now apply exp_increasing.
Qed.
Lemma column_kernel_some T D c K : column_kernel T D c = Some K -> exists th, 0 < th /\ K = kernel th (variable D c).
Proof.
  unfold column_kernel. destruct (width_of T 1 _) as [w|] eqn:E; [|discriminate]. intros [= <-]. apply width_pos in E. eexists. split; [|reflexivity].
  apply Rdiv_lt_0_compat; [lra|]. nra.
Qed.
(** A usable kernel matrix: a limit of Gram matrices, symmetric, 1 on the diagonal, entries in (0, 1] *)
Definition good_kernel (K : rmat) : Prop := lgram K /\ (forall i j, K i j = K j i) /\ (forall i, K i i = 1) /\ (forall i j, 0 < K i j <= 1).
Lemma column_kernel_good T D c K : column_kernel T D c = Some K -> good_kernel K.
Proof.
  intros H. apply column_kernel_some in H. destruct H as (th & Hth & ->). repeat apply conj.
  - apply (lgram_ext (gaussian th 1 (col (variable D c)))); [intros; now rewrite kernel_gaussian|]. apply lgram_gaussian. lra.
  - intros i j. unfold kernel. rewrite !dist2_sq. f_equal. f_equal. ring.
  - intros. apply kernel_diag.
  - intros. apply kernel_range. lra.
Qed.
Lemma parents_kernel_good T D pa K : parents_kernel T D pa = Some K -> good_kernel K.
Proof.
  unfold parents_kernel. assert (G : good_kernel (fun _ _ => 1)).
  { repeat apply conj; intros; try lra. apply lgram_of, gram_1. }
  revert G. generalize (fun _ _ : nat => 1) as K0. revert K. induction pa as [|c pa IH]; intros K K0 G; cbn [fold_left]; [intros [= <-]; exact G|].
  destruct (column_kernel T D c) as [K'|] eqn:E.
  - apply IH. apply column_kernel_good in E. destruct G as (A & B & C & F), E as (A' & B' & C' & F'). repeat apply conj.
    + now apply lgram_mult.
    + intros i j. now rewrite B, B'.
    + intros i. now rewrite C, C', Rmult_1_r.
    + intros i j. specialize (F i j). specialize (F' i j). nra.
  - clear. intros H. exfalso. revert H. induction pa as [|c pa IH]; cbn [fold_left]; [discriminate | exact IH].
Qed.
Lemma h0k_formula T K i j : (0 < T)%nat -> (forall i, K i i = 1) -> h0k T K i j = (1 - 2 / INR T) * eye i j + 1 / INR T ^ 2 * K i j.
Proof.
  intros HT H1. assert (HR : INR T <> 0) by (apply not_0_INR; lia). unfold h0k, h0. assert (E : eye i j = 0 \/ (eye i j = 1 /\ K i j = 1)).
  { unfold eye. destruct (Nat.eqb_spec i j) as [-> | ]; [right; auto | now left]. }
  destruct E as [-> | [-> ->]]; field; exact HR.
Qed.
Lemma lgram_psd n K : lgram K -> (forall i j, K i j = K j i) -> psd n K.
Proof.
  intros G S. split; [intros i j _ _; apply S|]. intros u.
  assert (E : quad n K u = v_statistic n K (fun i j => u i * u j)).
  { unfold quad, v_statistic, msum, rdot. apply rsum_ext. intros i _. unfold mvec, rdot. rewrite <- rsum_mult. apply rsum_ext. intros j _. ring. }
  rewrite E. apply lgram_stat_nonneg; [exact G | apply lgram_of, gram_one].
Qed.
Lemma h0k_psd T n K : (2 <= T)%nat -> good_kernel K -> psd n (h0k T K).
Proof.
  intros HT (G & S & H1 & _). assert (2 <= INR T) by (replace 2 with (INR 2) by reflexivity; now apply le_INR).
  apply (psd_ext n (fun i j => (1 - 2 / INR T) * eye i j + 1 / INR T ^ 2 * K i j)); [intros; rewrite h0k_formula; [reflexivity | lia | exact H1]|].
  destruct (lgram_psd n K G S) as [_ P]. split; [intros i j _ _; now rewrite eye_sym, S|]. intros u. rewrite quad_lin, quad_eye.
  assert (0 <= 1 - 2 / INR T). { assert (2 / INR T <= 1); [|lra]. apply (Rmult_le_reg_r (INR T)); [lra|]. unfold Rdiv. rewrite Rmult_assoc, Rinv_l by lra. lra. }
  assert (0 < 1 / INR T ^ 2) by (apply Rdiv_lt_0_compat; [lra | apply pow_lt; lra]).
  pose proof (rdot_nonneg n u). specialize (P u). apply Rplus_le_le_0_compat; apply Rmult_le_pos; lra.
Qed.
(** ** Folds *)
Lemma arange_in a b x : In x (arange a b) <-> (a <= x < b)%nat.
Proof. unfold arange. rewrite in_seq. lia. Qed.
Lemma arange_split a b c : (a <= b)%nat -> (b <= c)%nat -> arange a b ++ arange b c = arange a c.
Proof. intros H1 H2. unfold arange. replace (c - a)%nat with ((b - a) + (c - b))%nat by lia. rewrite seq_app. repeat f_equal; lia. Qed.
Lemma arange_length a b : length (arange a b) = (b - a)%nat.
Proof. apply seq_length. Qed.
Lemma div_bound T k kk : (0 < k)%nat -> (kk <= k)%nat -> (kk * Nat.div T k <= T)%nat.
Proof. intros H1 H2. pose proof (Nat.mul_div_le T k ltac:(lia)). nia. Qed.
Lemma cv_fold_spec T k kk : (kk < k)%nat -> exists a b, (a <= b <= T)%nat /\
  a = (kk * Nat.div T k)%nat /\ b = (if Nat.eqb kk (k - 1) && negb (Nat.eqb kk 0) then T else (kk + 1) * Nat.div T k)%nat /\
  cv_fold T k kk = Some (arange 0 a ++ arange b T, arange a b, (b - a)%nat).
Proof.
  intros H. pose proof (div_bound T k kk ltac:(lia) ltac:(lia)) as B1. pose proof (div_bound T k (kk + 1) ltac:(lia) ltac:(lia)) as B2.
  unfold cv_fold. set (n0 := Nat.div T k) in *. destruct (Nat.eqb_spec kk 0) as [-> | N0].
  - exists 0%nat, n0. cbn [andb negb]. rewrite Bool.andb_false_r. repeat split; try lia. now rewrite Nat.sub_0_r.
  - destruct (Nat.eqb_spec kk (k - 1)) as [E|N1].
    + exists (kk * n0)%nat, T. cbn [andb negb]. repeat split; try lia. unfold arange at 4. rewrite Nat.sub_diag. cbn [seq]. now rewrite app_nil_r.
    + exists (kk * n0)%nat, ((kk + 1) * n0)%nat. cbn [andb]. repeat split; try lia; try nia.
      destruct (Nat.ltb_spec kk (k - 1)); [|lia]. destruct (Nat.ltb_spec 0 kk); [|lia]. cbn [andb]. repeat f_equal. nia.
Qed.
Lemma cv_loop_ext T k f g : (forall kk tr te nv, (kk < k)%nat -> cv_fold T k kk = Some (tr, te, nv) -> f tr te nv (T - nv)%nat = g tr te nv (T - nv)%nat) -> cv_loop T k f = cv_loop T k g.
Proof.
  intros H. unfold cv_loop. assert (E : forall l acc, (forall x, In x l -> (x < k)%nat) ->
    fold_left (fun acc kk => match acc with Score cv => match cv_fold T k kk with Some (tr, te, nv) => match f tr te nv (T - nv)%nat with Score v => Score (cv + v) | r => r end | None => NoNumber end | r => r end) l acc =
    fold_left (fun acc kk => match acc with Score cv => match cv_fold T k kk with Some (tr, te, nv) => match g tr te nv (T - nv)%nat with Score v => Score (cv + v) | r => r end | None => NoNumber end | r => r end) l acc).
  { induction l as [|x l IH]; intros acc Hl; [reflexivity|]. cbn [fold_left]. rewrite IH by (intros; apply Hl; now right). f_equal.
    destruct acc as [cv| |]; [|reflexivity|reflexivity]. destruct (cv_fold T k x) as [[[tr te] nv]|] eqn:F; [|reflexivity]. rewrite (H x tr te nv); [reflexivity | apply Hl; now left | exact F]. }
  rewrite E by (intros x Hx; now apply in_seq0 in Hx). reflexivity.
Qed.
(** The loop is the mean over the folds. *)
Lemma cv_loop_mean T k f (v : nat -> R) : (forall kk, (kk < k)%nat -> exists tr te nv, cv_fold T k kk = Some (tr, te, nv) /\ f tr te nv (T - nv)%nat = Score (v kk)) ->
  cv_loop T k f = Score (rsum v (seq 0 k) / INR k).
Proof.
  intros H. unfold cv_loop. assert (E : forall l s, (forall x, In x l -> (x < k)%nat) ->
    fold_left (fun acc kk => match acc with Score cv => match cv_fold T k kk with Some (tr, te, nv) => match f tr te nv (T - nv)%nat with Score v => Score (cv + v) | r => r end | None => NoNumber end | r => r end) l (Score s)
    = Score (s + rsum v l)).
  { induction l as [|x l IH]; intros s Hl; [cbn; f_equal; unfold rsum; cbn; lra|]. cbn [fold_left]. destruct (H x (Hl x (or_introl eq_refl))) as (tr & te & nv & -> & ->).
    rewrite IH by (intros; apply Hl; now right). rewrite rsum_cons. f_equal. lra. }
  rewrite E by (intros x Hx; now apply in_seq0 in Hx). f_equal. f_equal. lra.
Qed.
