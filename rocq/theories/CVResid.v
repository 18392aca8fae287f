(** The cross-validated score with parents is the score without parents of the residuals of a kernel ridge regression. *)
From Verif Require Import Base UtilsModel BICModel BICProofs ChisqProps EffectModel EffectProofs VARModel VARProofs KCIModel KCIProofs KCIProps HSICModel HSICProofs HSICMedian HSICProps HSICTestProps CVModel CVProofs.
From Coq Require Import Reals Lra Psatz.
Local Open Scope R_scope.

Section Fold.
Variables (T n1 : nat) (tr : list nat) (K : rmat).
Hypothesis Htr : forall i, (i < n1)%nat -> (nth i tr 0 < T)%nat.
Hypothesis SK : forall i j, K i j = K j i.
Definition kip (u v : rvec) : R := rdot T u (mvec T K v).
Definition comb (c : rvec) : rvec := fun a => rsum (fun i => c i * eye (nth i tr 0%nat) a) (seq 0 n1).
Definition residual (w : rvec) (s : nat) : rvec := fun a => eye s a - comb w a.
Lemma kip_eye s v : (s < T)%nat -> kip (eye s) v = mvec T K v s.
Proof. intros H. unfold kip, rdot. exact (rsum_eye T s (mvec T K v) H). Qed.
Lemma comb_rdot c v : rdot T (comb c) v = rsum (fun i => c i * v (nth i tr 0%nat)) (seq 0 n1).
Proof.
  unfold rdot, comb. rewrite (rsum_ext _ (fun a => rsum (fun i => c i * (eye (nth i tr 0%nat) a * v a)) (seq 0 n1))).
  2:{ intros a _. rewrite (Rmult_comm (rsum _ _)), <- rsum_mult. apply rsum_ext. intros; ring. }
  rewrite rsum_swap. apply rsum_ext. intros i Hi. apply in_seq0 in Hi. rewrite rsum_mult. f_equal. apply rsum_eye. now apply Htr.
Qed.
Lemma mvec_residual w s a : (s < T)%nat -> mvec T K (residual w s) a = K a s - rsum (fun i => w i * K a (nth i tr 0%nat)) (seq 0 n1).
Proof.
  intros Hs. unfold residual. rewrite mvec_minus. f_equal.
  - unfold mvec. rewrite rdot_sym. exact (rsum_eye T s (K a) Hs).
  - unfold mvec. rewrite rdot_sym, comb_rdot. reflexivity.
Qed.
Lemma kip_residual w s v : (s < T)%nat -> kip (residual w s) v = mvec T K v s - rsum (fun i => w i * mvec T K v (nth i tr 0%nat)) (seq 0 n1).
Proof. intros Hs. unfold kip, residual. rewrite rdot_minus_l, comb_rdot. f_equal. exact (kip_eye s v Hs). Qed.

Variables (lam : R) (Kpa P : rmat).
Hypothesis Hn1 : (0 < n1)%nat.
Hypothesis SP : symmetric n1 P.
Hypothesis IP : inverse n1 (ridge lam n1 (sub Kpa tr tr)) P.
(** the weights of kernel ridge regression: the normal equations *)
Definition ridge_weights (w : rvec) (s : nat) : Prop :=
  forall i, (i < n1)%nat -> rsum (fun j => (Kpa (nth i tr 0%nat) (nth j tr 0%nat) + INR n1 * lam * eye i j) * w j) (seq 0 n1) = Kpa (nth i tr 0%nat) s.
Lemma weights_unique w s : ridge_weights w s -> forall i, (i < n1)%nat -> w i = mvec n1 P (fun l => Kpa (nth l tr 0%nat) s) i.
Proof.
  intros H i Hi. rewrite <- (inverse_mvec n1 _ P w i IP Hi). apply mvec_ext. intros j Hj. rewrite <- (H j Hj). reflexivity.
Qed.
Lemma weights_train w i j : (i < n1)%nat -> (j < n1)%nat -> ridge_weights w (nth i tr 0%nat) -> w j = eye i j - INR n1 * lam * P j i.
Proof.
  intros Hi Hj H. rewrite (weights_unique w _ H j Hj).
  assert (E : mvec n1 P (fun l => ridge lam n1 (sub Kpa tr tr) l i) j = eye j i) by exact (proj2 IP j i Hj Hi).
  rewrite eye_sym, <- E. unfold ridge, sub. rewrite mvec_plus, mvec_scal. replace (mvec n1 P (fun l => eye l i) j) with (P j i); [unfold sub; ring|].
  unfold mvec, rdot. rewrite (rsum_ext _ (fun l => eye i l * P j l)) by (intros l _; rewrite (eye_sym l i); ring). symmetry. exact (rsum_eye n1 i (P j) Hi).
Qed.
Lemma train_residual w i a : (i < n1)%nat -> ridge_weights w (nth i tr 0%nat) -> residual w (nth i tr 0%nat) a = comb (fun j => INR n1 * lam * P j i) a.
Proof.
  intros Hi H. unfold residual, comb. rewrite (rsum_ext (fun j => w j * eye (nth j tr 0%nat) a) (fun j => eye i j * eye (nth j tr 0%nat) a - INR n1 * lam * P j i * eye (nth j tr 0%nat) a)).
  2:{ intros j Hj. apply in_seq0 in Hj. rewrite (weights_train w i j Hi Hj H). ring. }
  rewrite rsum_minus, (rsum_eye n1 i (fun j => eye (nth j tr 0%nat) a) Hi). ring.
Qed.
Lemma kip_ext u u' v : (forall a, u a = u' a) -> kip u v = kip u' v.
Proof. intros H. unfold kip. apply rdot_ext; [intros; apply H | reflexivity]. Qed.
Lemma kip_sym u v : kip u v = kip v u.
Proof. unfold kip. rewrite mvec_adj by (intros; apply SK). apply rdot_sym. Qed.
Lemma kip_train w i v : (i < n1)%nat -> ridge_weights w (nth i tr 0%nat) -> kip (residual w (nth i tr 0%nat)) v = INR n1 * lam * mvec n1 P (fun l => mvec T K v (nth l tr 0%nat)) i.
Proof.
  intros Hi H. rewrite (kip_ext _ _ v (fun a => train_residual w i a Hi H)). unfold kip. rewrite comb_rdot. unfold mvec at 2, rdot. rewrite <- rsum_mult.
  apply rsum_ext. intros j Hj. apply in_seq0 in Hj. rewrite (SP i j) by assumption. ring.
Qed.
Lemma gram_train w w' i j : (i < n1)%nat -> (j < n1)%nat -> ridge_weights w (nth i tr 0%nat) -> ridge_weights w' (nth j tr 0%nat) ->
  kip (residual w (nth i tr 0%nat)) (residual w' (nth j tr 0%nat)) = (INR n1 * lam) ^ 2 * tmp2_of n1 P (sub K tr tr) i j.
Proof.
  intros Hi Hj H H'. rewrite (kip_train w i _ Hi H). unfold tmp2_of. change (mmul n1 (mmul n1 P (sub K tr tr)) P i j) with (mvec n1 (mmul n1 P (sub K tr tr)) (fun l => P l j) i).
  rewrite mvec_mmul. rewrite (mvec_ext n1 P (fun l => mvec T K (residual w' (nth j tr 0%nat)) (nth l tr 0%nat)) (fun l => INR n1 * lam * mvec n1 (sub K tr tr) (fun l => P l j) l)).
  - rewrite mvec_scal. ring.
  - intros l Hl. rewrite <- (kip_eye (nth l tr 0%nat)) by now apply Htr. rewrite kip_sym, (kip_train w' j _ Hj H'). f_equal. unfold mvec at 1, rdot. unfold mvec, rdot. apply rsum_ext. intros m Hm. apply in_seq0 in Hm.
    rewrite (rsum_ext _ (fun b => eye (nth l tr 0%nat) b * K (nth m tr 0%nat) b)) by (intros; ring). rewrite (rsum_eye T (nth l tr 0%nat) (K (nth m tr 0%nat))) by now apply Htr.
    unfold sub. rewrite (SP j m), (SK (nth m tr 0%nat)) by assumption. ring.
Qed.
(** the diagonal of A *)
Definition cvec (s : nat) : rvec := fun l => K (nth l tr 0%nat) s.
Lemma symmetric_sub : symmetric n1 (sub K tr tr).
Proof. intros i j _ _. apply SK. Qed.
Lemma a_diag M te w j : symmetric n1 M -> (nth j te 0 < T)%nat -> ridge_weights w (nth j te 0%nat) ->
  let t2 := tmp2_of n1 P (sub K tr tr) in
  let u := fun l => mvec T K (residual w (nth j te 0%nat)) (nth l tr 0%nat) in
  a_parents lam n1 P t2 (mmul n1 (mmul n1 P M) P) (sub K te te) (sub K tr tr) (sub K tr te) (sub Kpa tr te) j j =
  (kip (residual w (nth j te 0%nat)) (residual w (nth j te 0%nat)) - INR n1 * lam ^ 2 / gamma_cv * rdot n1 (mvec n1 P u) (mvec n1 M (mvec n1 P u))) / gamma_cv.
Proof.
  intros SM Hs Hw t2 u. set (s := nth j te 0%nat) in *. set (c := INR n1 * lam ^ 2 / gamma_cv).
  set (Kt := sub K tr tr). set (kx := cvec s). set (kp := fun l => Kpa (nth l tr 0%nat) s). set (v := mvec n1 P kp).
  assert (EU : forall l, (l < n1)%nat -> u l = kx l - mvec n1 Kt v l).
  { intros l Hl. unfold u. rewrite mvec_residual by exact Hs. unfold kx, cvec. f_equal. unfold mvec at 1, rdot. apply rsum_ext. intros m Hm. apply in_seq0 in Hm. rewrite (weights_unique w s Hw m Hm). unfold Kt, sub. fold kp. fold v. ring. }
  assert (ER : kip (residual w s) (residual w s) = K s s - 2 * rdot n1 kx v + rdot n1 v (mvec n1 Kt v)).
  { rewrite kip_residual by exact Hs. rewrite mvec_residual by exact Hs.
    rewrite (rsum_ext (fun i => w i * K s (nth i tr 0%nat)) (fun i => kx i * v i)) by (intros i Hi; apply in_seq0 in Hi; rewrite (weights_unique w s Hw i Hi); unfold kx, cvec; rewrite (SK s); fold kp; fold v; ring).
    rewrite (rsum_ext (fun i => w i * mvec T K (residual w s) (nth i tr 0%nat)) (fun i => v i * (kx i - mvec n1 Kt v i))).
    2:{ intros i Hi. apply in_seq0 in Hi. rewrite <- (EU i Hi). rewrite (weights_unique w s Hw i Hi). reflexivity. }
    change (rsum (fun i => v i * (kx i - mvec n1 Kt v i)) (seq 0 n1)) with (rdot n1 v (fun i => kx i - mvec n1 Kt v i)). change (rsum (fun i => kx i * v i) (seq 0 n1)) with (rdot n1 kx v).
    rewrite rdot_minus, (rdot_sym n1 v kx). ring. }
  assert (CH : forall (L R0 : rmat) a b, mmul n1 L R0 a b = rdot n1 (L a) (fun l => R0 l b)) by reflexivity.
  assert (T3 : forall (q : rvec) i, mvec n1 (mmul n1 (mmul n1 P M) P) q i = mvec n1 P (mvec n1 M (mvec n1 P q)) i) by (intros; now rewrite !mvec_mmul).
  assert (B3 : forall p q, rdot n1 p (mvec n1 (mmul n1 (mmul n1 P M) P) q) = rdot n1 (mvec n1 P p) (mvec n1 M (mvec n1 P q))).
  { intros p q. rewrite (rdot_ext n1 p p _ (mvec n1 P (mvec n1 M (mvec n1 P q)))) by (intros; solve [reflexivity | apply T3]). now rewrite (mvec_adj n1 P) by exact SP. }
  set (qx := mvec n1 P kx). set (qv := mvec n1 P (mvec n1 Kt v)).
  assert (D : forall (f : R) (Xc L : rmat) (y : rvec), rdot n1 (mmul n1 (fun i l => f * transpose Xc i l) L j) y = f * rdot n1 (fun l => Xc l j) (mvec n1 L y)).
  { intros f Xc L y. change (rdot n1 (mmul n1 (fun i l => f * transpose Xc i l) L j) y) with (mvec n1 (mmul n1 (fun i l => f * transpose Xc i l) L) y j). rewrite mvec_mmul. unfold mvec at 1. apply rdot_scal_l. }
  assert (D1 : forall (Xc L : rmat) (y : rvec), rdot n1 (mmul n1 (transpose Xc) L j) y = rdot n1 (fun l => Xc l j) (mvec n1 L y)).
  { intros Xc L y. change (rdot n1 (mmul n1 (transpose Xc) L j) y) with (mvec n1 (mmul n1 (transpose Xc) L) y j). now rewrite mvec_mmul. }
  assert (D2 : forall (L L' : rmat) (y : rvec), rdot n1 (mmul n1 L L' j) y = rdot n1 (L j) (mvec n1 L' y)).
  { intros L L' y. change (rdot n1 (mmul n1 L L' j) y) with (mvec n1 (mmul n1 L L') y j). now rewrite mvec_mmul. }
  (* the six terms *)
  assert (t_2 : mmul n1 (mmul n1 (transpose (sub Kpa tr te)) t2) (sub Kpa tr te) j j = rdot n1 v (mvec n1 Kt v)).
  { rewrite CH, D1. change (fun l => sub Kpa tr te l j) with kp. unfold t2, tmp2_of.
    rewrite (rdot_ext n1 kp kp _ (mvec n1 P (mvec n1 Kt v))) by (intros; solve [reflexivity | now rewrite !mvec_mmul]). rewrite mvec_adj by exact SP. reflexivity. }
  assert (t_3 : mmul n1 (mmul n1 (fun i l => 2 * transpose (sub K tr te) i l) P) (sub Kpa tr te) j j = 2 * rdot n1 kx v).
  { rewrite CH, D. reflexivity. }
  assert (t_4 : mmul n1 (mmul n1 (fun i l => c * transpose (sub K tr te) i l) (mmul n1 (mmul n1 P M) P)) (sub K tr te) j j = c * rdot n1 qx (mvec n1 M qx)).
  { rewrite CH, D, B3. reflexivity. }
  assert (t_5 : mmul n1 (mmul n1 (mmul n1 (mmul n1 (mmul n1 (mmul n1 (fun i l => c * transpose (sub Kpa tr te) i l) P) Kt) (mmul n1 (mmul n1 P M) P)) Kt) P) (sub Kpa tr te) j j = c * rdot n1 qv (mvec n1 M qv)).
  { rewrite CH. rewrite !D2. unfold rdot at 1.
    match goal with |- rsum (fun l => (c * transpose (sub Kpa tr te) j l) * ?f l) _ = _ => change (rsum (fun l => (c * transpose (sub Kpa tr te) j l) * f l) (seq 0 n1)) with (rdot n1 (fun l => c * kp l) f) end.
    rewrite rdot_scal_l. f_equal. rewrite (mvec_adj n1 P) by exact SP. fold v. rewrite (mvec_adj n1 Kt) by exact symmetric_sub. rewrite B3. reflexivity. }
  assert (t_6 : mmul n1 (mmul n1 (mmul n1 (mmul n1 (fun i l => 2 * c * transpose (sub K tr te) i l) (mmul n1 (mmul n1 P M) P)) Kt) P) (sub Kpa tr te) j j = 2 * c * rdot n1 qx (mvec n1 M qv)).
  { rewrite CH. rewrite !D2.
    match goal with |- rdot n1 ?g ?f = _ => change (rdot n1 g f) with (rdot n1 (fun l => 2 * c * kx l) f) end.
    rewrite rdot_scal_l. f_equal. rewrite B3. reflexivity. }
  unfold a_parents. cbn zeta. fold c. fold Kt. rewrite t_2, t_3, t_4, t_5, t_6. change (sub K te te j j) with (K s s). rewrite ER. f_equal.
  assert (EPU : forall i, (i < n1)%nat -> mvec n1 P u i = qx i - qv i).
  { intros i Hi. rewrite (mvec_ext n1 P u _ i EU), mvec_minus. reflexivity. }
  rewrite (rdot_ext n1 (mvec n1 P u) (fun i => qx i - qv i) _ (fun i => mvec n1 M qx i - mvec n1 M qv i) EPU).
  2:{ intros i Hi. rewrite (mvec_ext n1 M _ _ i EPU), mvec_minus. reflexivity. }
  rewrite rdot_minus, !rdot_minus_l. rewrite (mvec_adj n1 M qv qx) by exact SM. rewrite (rdot_sym n1 (mvec n1 M qv) qx). ring.
Qed.
End Fold.
