(** C204: shapes of the kernel scores; C205: gpr_multi_new; C206: minimize; C207: the hyperparameters of the marginal likelihood. *)
From Verif Require Import Base UtilsModel BICModel BICProofs ChisqProps EffectModel EffectProofs VARModel VARProofs KCIModel KCIProofs KCIProps HSICModel CVModel CVProofs GPModel GPProofs.
From Coq Require Import Permutation Reals Lra Psatz.
Local Open Scope R_scope.

(** ** C204: for which inputs the array operations of the kernel scores fail *)
(** local_score_marginal_general and local_score_marginal_multi with D parents (columns) and n samples: the length scales are multiplied elementwise with the inputs,
    so that two or more parents fail, except as many parents as samples. *)
Theorem C204_marginal_refuted : forall D n, (1 <= D)%nat -> (2 <= n)%nat -> (seard_shape D n <> None <-> D = 1%nat \/ D = n) /\ ((2 <= D)%nat -> (D < n)%nat -> seard_shape D n = None).
Proof.
  intros D n HD Hn. assert (A : seard_shape D n <> None <-> D = 1%nat \/ D = n).
  { unfold seard_shape, bcast, axis. cbn [fst snd]. rewrite Nat.eqb_refl. destruct (Nat.eqb_spec D n) as [-> | N]; [split; [auto|]|].
    - intros _. cbn [bind_shape fst snd]. rewrite Nat.eqb_refl. discriminate.
    - destruct (Nat.eqb_spec D 1) as [-> | N1]; [split; [auto|]; intros _; cbn [bind_shape fst snd]; rewrite Nat.eqb_refl; discriminate|].
      destruct (Nat.eqb_spec n 1); [lia|]. cbn [bind_shape]. split; [intros C; now contradiction C | lia]. }
  split; [exact A|]. intros H1 H2. destruct (seard_shape D n); [|reflexivity]. exfalso. assert (D = 1 \/ D = n)%nat by (apply A; discriminate). lia.
Qed.
(** local_score_cv_multi and local_score_marginal_multi, for a variable with d columns: only d = 1 works. *)
Theorem C204_multi_refuted : forall T d, (2 <= T)%nat -> multi_shape T d <> None <-> d = 1%nat.
Proof.
  intros T d HT. unfold multi_shape. cbn [fst snd]. split.
  - intros H. destruct (Nat.eq_dec d 1) as [E|N]; [exact E|]. exfalso. apply H. unfold bcast at 1, axis. cbn [fst snd].
    destruct (Nat.eqb_spec (T * d) T); [exfalso; apply N; nia|]. destruct (Nat.eqb_spec (T * d) 1); [exfalso; nia|]. destruct (Nat.eqb_spec T 1); [lia|]. reflexivity.
  - intros ->. rewrite Nat.mul_1_r. assert (R1 : bcast (T, T) (T, T) = Some (T, T)) by (unfold bcast, axis; cbn [fst snd]; now rewrite Nat.eqb_refl).
    assert (R2 : bcast (T, 1%nat) (1%nat, T) = Some (T, T)).
    { unfold bcast, axis. cbn [fst snd]. destruct (Nat.eqb_spec T 1); [lia|]. destruct (Nat.eqb_spec 1 T); [lia|]. reflexivity. }
    rewrite R1. cbn [bind_shape]. rewrite R2. cbn [bind_shape]. rewrite R1. cbn [bind_shape fst snd]. rewrite Nat.eqb_refl. discriminate.
Qed.
(** local_score_cv_multi without parents: the first fold fails whenever there are at least 3 folds of at least 2 samples (the default is 10 folds). *)
Theorem C204_multi_alone_refuted : forall T k tr te nv, (3 <= k)%nat -> (2 * k <= T)%nat -> cv_fold T k 0 = Some (tr, te, nv) -> multi_alone_shape nv (T - nv) = None.
Proof.
  intros T k tr te nv Hk HT E. unfold cv_fold in E. cbn [Nat.eqb] in E. injection E as _ _ <-. set (n0 := Nat.div T k). assert (2 <= n0)%nat by (apply Nat.div_le_lower_bound; lia).
  assert (k * n0 <= T)%nat by (apply Nat.mul_div_le; lia). assert (2 * n0 <= T - n0)%nat by nia.
  unfold multi_alone_shape, bcast, axis. cbn [fst snd]. destruct (Nat.eqb_spec n0 (T - n0)); [lia|]. destruct (Nat.eqb_spec n0 1); [lia|]. destruct (Nat.eqb_spec (T - n0) 1); [lia|]. reflexivity.
Qed.
Theorem C204_met : seard_shape 2 100 = None /\ seard_shape 1 100 = Some (100, 100)%nat /\ multi_shape 100 2 = None /\ multi_alone_shape 10 90 = None /\ multi_alone_shape 1 9 <> None.
Proof. repeat split; try (vm_compute; reflexivity). vm_compute. discriminate. Qed.

(** ** C205: gpr_multi_new *)
(** K = L L', Li is the inverse of L *)
Definition cholesky_of (n : nat) (K L Li : rmat) : Prop :=
  (forall i j, (i < n)%nat -> (j < n)%nat -> K i j = rsum (fun k => L i k * L j k) (seq 0 n)) /\ inverse n L Li.
(** alpha is K^-1 y, and the value is the negative logarithm of the density of m independent Gaussian vectors with covariance K, when det K is the squared product of the
    diagonal of L (Cholesky). *)
Theorem C205_alpha : forall n K L Li y i j, cholesky_of n K L Li -> (i < n)%nat -> mmul n K (alpha_of n Li y) i j = y i j.
Proof.
  intros n K L Li y i j [HK [HL HR]] Hi. unfold alpha_of. change (mvec n K (fun k => mmul n (fun a b => Li b a) (mmul n Li y) k j) i = y i j).
  assert (E : mvec n K (fun k => mmul n (fun a b => Li b a) (mmul n Li y) k j) i = mvec n L (mvec n (fun a b => L b a) (fun k => mmul n (fun a b => Li b a) (mmul n Li y) k j)) i).
  { rewrite <- mvec_mmul. apply mvec_mat. intros b Hb. exact (HK i b Hi Hb). }
  rewrite E. change (fun k => mmul n (fun a b => Li b a) (mmul n Li y) k j) with (mvec n (fun a b => Li b a) (fun k => mmul n Li y k j)).
  assert (E2 : forall a, (a < n)%nat -> mvec n (fun a b => L b a) (mvec n (fun a b => Li b a) (fun k => mmul n Li y k j)) a = mmul n Li y a j).
  { intros a Ha. rewrite <- mvec_mmul. rewrite <- (mvec_eye n (fun k => mmul n Li y k j) a Ha). apply mvec_mat. intros b Hb. unfold mmul at 1.
    rewrite eye_sym, <- (HR b a Hb Ha). unfold mmul. apply rsum_ext. intros; ring. }
  rewrite (mvec_ext n L _ (fun k => mmul n Li y k j) i E2). change (fun k => mmul n Li y k j) with (mvec n Li (fun k => y k j)). rewrite <- mvec_mmul.
  rewrite <- (mvec_eye n (fun k => y k j) i Hi). apply mvec_mat. intros b Hb. now apply HL.
Qed.
(** The gradient: all components but the last are 0; the last misses the entries of L^-1 off the diagonal.  (The derivative for the noise is
    s2 (m trace(K^-1) - trace(alpha alpha')), and trace(K^-1) is the sum of the squares of all entries of L^-1.) *)
Theorem C205_gradient_partial : forall n m np s2 Li y, (0 < np)%nat ->
  (forall k, k <> (np - 1)%nat -> dnlml_of n m np s2 Li y k = 0) /\
  dnlml_of n m np s2 Li y (np - 1)%nat = s2 * (INR m * rsum (fun i => Li i i ^ 2) (seq 0 n) - rsum (fun i => rsum (fun c => alpha_of n Li y i c ^ 2) (seq 0 m)) (seq 0 n)).
Proof.
  intros n m np s2 Li y Hp. split; [intros k Hk; unfold dnlml_of; destruct (Nat.eqb_spec k (np - 1)); [contradiction | reflexivity]|].
  unfold dnlml_of. rewrite Nat.eqb_refl. unfold msum. rewrite (rsum_ext _ (fun i => 2 * s2 * w_of n m Li y i i)).
  2:{ intros i Hi. apply in_seq0 in Hi. rewrite (rsum_ext _ (fun j => eye i j * (2 * s2 * w_of n m Li y i j))) by (intros; ring). now rewrite (rsum_eye n i (fun j => 2 * s2 * w_of n m Li y i j)). }
  rewrite rsum_mult. unfold w_of. rewrite rsum_minus.
  rewrite (rsum_ext (fun i => INR m * (Li i i * (Li i i * eye i i))) (fun i => INR m * Li i i ^ 2)) by (intros i _; unfold eye; rewrite Nat.eqb_refl; ring). rewrite rsum_mult.
  rewrite (rsum_ext (fun i => mmul m (alpha_of n Li y) (fun a b => alpha_of n Li y b a) i i) (fun i => rsum (fun c => alpha_of n Li y i c ^ 2) (seq 0 m))) by (intros i _; unfold mmul; apply rsum_ext; intros; ring).
  field.
Qed.
(** The Cholesky factors of a 1 x 1 and of a 2 x 2 matrix *)
Definition chol1 (n : nat) (K : rmat) : option (rmat * rmat) := Some ((fun _ _ => sqrt (K 0%nat 0%nat)), (fun _ _ => / sqrt (K 0%nat 0%nat))).
Definition chol2 (n : nat) (K : rmat) : option (rmat * rmat) :=
  let a := sqrt (K 0%nat 0%nat) in let b := K 1%nat 0%nat / a in let c := sqrt (K 1%nat 1%nat - b * b) in
  Some ((fun i j => match i, j with O, O => a | S _, O => b | O, S _ => 0 | S _, S _ => c end), (fun i j => match i, j with O, O => / a | S _, O => - b / (a * c) | O, S _ => 0 | S _, S _ => / c end)).
Definition value_at (f : objective) (th : rvec) : R := match f th with Some (v, _) => v | None => 0 end.
Definition grad_at (f : objective) (th : rvec) : rvec := match f th with Some (_, g) => g | None => fun _ => 0 end.
Definition theta (l q t : R) : rvec := fun k => match k with O => l | S O => q | _ => t end.
Definition no_target : rmat := fun _ _ => 0.
Lemma derive_exp2 t : derivable_pt_lim (fun t => exp (2 * t)) t (2 * exp (2 * t)).
Proof.
  replace (2 * exp (2 * t)) with (exp (2 * t) * 2) by ring. apply (derivable_pt_lim_comp (fun t => 2 * t) exp).
  - assert (E : derivable_pt_lim (fun t => 2 * t) t (2 * 1)); [|rewrite Rmult_1_r in E; exact E]. apply (derivable_pt_lim_scal id 2 t 1). apply derivable_pt_lim_id.
  - apply derivable_pt_lim_exp.
Qed.
(** One sample: the derivative with respect to the logarithm of the signal deviation is positive, and the component returned for it is 0. *)
Theorem C205_signal_refuted : forall x l q t, let f := gpr_one chol1 1 1 x no_target in
  derivable_pt_lim (fun q => value_at f (theta l q t)) q (exp (2 * q) / (exp (2 * q) + exp (2 * t))) /\ 0 < exp (2 * q) / (exp (2 * q) + exp (2 * t)) /\ grad_at f (theta l q t) 1%nat = 0.
Proof.
  intros x l q t f. pose proof (exp_pos (2 * t)) as Pt. pose proof (exp_pos (2 * q)) as Pq. split; [|split; [apply Rdiv_lt_0_compat; lra | reflexivity]].
  apply (derivable_pt_lim_ext (fun q => 1 / 2 * ln (exp (2 * q) + exp (2 * t)) + 1 / 2 * ln (2 * PI))).
  - intros z. unfold value_at, f, gpr_one, chol1, nlml_of, mtrace, alpha_of, mmul, no_target, cov_one, theta, rsum, eye. cbn [seq map fold_right INR Nat.eqb]. pose proof (exp_pos (2 * z)) as Pz.
    replace (- ((1 / exp l * x 0%nat - 1 / exp l * x 0%nat) * (1 / exp l * x 0%nat - 1 / exp l * x 0%nat)) / 2) with 0 by (field; pose proof (exp_pos l); lra). rewrite exp_0.
    set (k := exp (2 * z) * 1 + exp (2 * t) * 1). assert (Hk : 0 < k) by (unfold k; lra). replace (exp (2 * z) + exp (2 * t)) with k by (unfold k; ring).
    assert (S0 : 0 < sqrt k) by now apply sqrt_lt_R0. assert (E : ln k = 2 * ln (sqrt k)) by (rewrite <- (sqrt_def k) at 1 by lra; rewrite ln_mult by exact S0; ring). rewrite E. field. lra.
  - replace (exp (2 * q) / (exp (2 * q) + exp (2 * t))) with (1 / 2 * (/ (exp (2 * q) + exp (2 * t)) * (2 * exp (2 * q) + 0)) + 0) by (field; lra).
    apply (derivable_pt_lim_plus (fun q => 1 / 2 * ln (exp (2 * q) + exp (2 * t))) (fun _ => 1 / 2 * ln (2 * PI))); [|apply derivable_pt_lim_const].
    apply (derivable_pt_lim_scal (fun q => ln (exp (2 * q) + exp (2 * t)))). apply (derivable_pt_lim_comp (fun q => exp (2 * q) + exp (2 * t)) ln).
    + apply (derivable_pt_lim_plus (fun q => exp (2 * q)) (fun _ => exp (2 * t))); [apply derive_exp2 | apply derivable_pt_lim_const].
    + apply derivable_pt_lim_ln. lra.
Qed.
(** Two samples: the last component is smaller than the derivative with respect to the logarithm of the noise deviation, at every parameter. *)
Theorem C205_noise_refuted : forall x l q t, let f := gpr_one chol2 2 1 x no_target in
  exists d, derivable_pt_lim (fun t => value_at f (theta l q t)) t d /\ grad_at f (theta l q t) 2%nat < d.
Proof.
  intros x l q t f. set (e := / exp l). pose proof (exp_pos (2 * q)) as Pq.
  set (b := exp (2 * q) * exp (- ((1 / exp l * x 0%nat - 1 / exp l * x 1%nat) * (1 / exp l * x 0%nat - 1 / exp l * x 1%nat)) / 2)).
  assert (Hb : 0 < b) by (apply Rmult_lt_0_compat; [exact Pq | apply exp_pos]).
  assert (Hb1 : b <= exp (2 * q)).
  { unfold b. rewrite <- (Rmult_1_r (exp (2 * q))) at 2. apply Rmult_le_compat_l; [lra|]. set (z := 1 / exp l * x 0%nat - 1 / exp l * x 1%nat). assert (0 <= z * z) by exact (Rle_0_sqr z).
    destruct (Rle_lt_or_eq_dec (- (z * z) / 2) 0 ltac:(lra)) as [L|L]; [left; rewrite <- exp_0; now apply exp_increasing | rewrite L, exp_0; lra]. }
  set (c := fun t => exp (2 * q) + exp (2 * t)). assert (Hc : forall z, b < c z) by (intros z; unfold c; pose proof (exp_pos (2 * z)); lra).
  assert (DIAG : forall i z, cov_one x (theta l q z) i i = c z).
  { intros i z. unfold cov_one, theta, eye, c. rewrite Nat.eqb_refl. replace (- ((1 / exp l * x i - 1 / exp l * x i) * (1 / exp l * x i - 1 / exp l * x i)) / 2) with 0 by (field; pose proof (exp_pos l); lra). rewrite exp_0. ring. }
  assert (OFF : forall z, cov_one x (theta l q z) 1%nat 0%nat = b) by (intros z; unfold cov_one, theta, eye, b; cbn [Nat.eqb]; ring).
  assert (Q2 : forall z, 0 < c z * c z - b * b) by (intros z; specialize (Hc z); nra).
  assert (SC : forall z, sqrt (c z) * sqrt (c z) = c z) by (intros z; apply sqrt_def; specialize (Hc z); lra).
  assert (SP : forall z, 0 < sqrt (c z)) by (intros z; apply sqrt_lt_R0; specialize (Hc z); lra).
  assert (R1 : forall z, c z - b / sqrt (c z) * (b / sqrt (c z)) = (c z * c z - b * b) / c z).
  { intros z. specialize (SC z). specialize (SP z). specialize (Hc z). replace (b / sqrt (c z) * (b / sqrt (c z))) with (b * b / (sqrt (c z) * sqrt (c z))) by (field; lra). rewrite SC. field. lra. }
  assert (RP : forall z, 0 < (c z * c z - b * b) / c z) by (intros z; apply Rdiv_lt_0_compat; [apply Q2 | specialize (Hc z); lra]).
  exists (2 * exp (2 * t) * c t / (c t * c t - b * b)). split.
  - apply (derivable_pt_lim_ext (fun z => 1 / 2 * ln (c z * c z - b * b) + ln (2 * PI))).
    + intros z. unfold value_at, f, gpr_one, chol2, nlml_of. rewrite !DIAG, OFF, R1. unfold mtrace, alpha_of, mmul, no_target, rsum. cbn [seq map fold_right INR].
      assert (E : ln (c z * c z - b * b) = 2 * ln (sqrt (c z)) + 2 * ln (sqrt ((c z * c z - b * b) / c z))).
      { assert (A1 : ln (c z) = 2 * ln (sqrt (c z))) by (rewrite <- (SC z) at 1; rewrite ln_mult by apply SP; ring).
        assert (S1 : 0 < sqrt ((c z * c z - b * b) / c z)) by (apply sqrt_lt_R0, RP).
        assert (A2 : ln ((c z * c z - b * b) / c z) = 2 * ln (sqrt ((c z * c z - b * b) / c z))) by (rewrite <- (sqrt_def ((c z * c z - b * b) / c z)) at 1 by (left; apply RP); rewrite ln_mult by exact S1; ring).
        rewrite <- A1, <- A2, <- ln_mult by (try apply RP; specialize (Hc z); lra). f_equal. field. specialize (Hc z). lra. }
      rewrite E. field. repeat split; try (apply Rgt_not_eq, SP); try (apply Rgt_not_eq, sqrt_lt_R0, RP).
    + replace (2 * exp (2 * t) * c t / (c t * c t - b * b)) with (1 / 2 * (/ (c t * c t - b * b) * ((2 * exp (2 * t)) * c t + c t * (2 * exp (2 * t)) - 0)) + 0) by (field; specialize (Q2 t); lra).
      assert (DC : derivable_pt_lim c t (2 * exp (2 * t))).
      { replace (2 * exp (2 * t)) with (0 + 2 * exp (2 * t)) by ring. apply (derivable_pt_lim_plus (fun _ => exp (2 * q)) (fun t => exp (2 * t))); [apply derivable_pt_lim_const | apply derive_exp2]. }
      apply (derivable_pt_lim_plus (fun z => 1 / 2 * ln (c z * c z - b * b)) (fun _ => ln (2 * PI))); [|apply derivable_pt_lim_const].
      apply (derivable_pt_lim_scal (fun z => ln (c z * c z - b * b))). apply (derivable_pt_lim_comp (fun z => c z * c z - b * b) ln); [|apply derivable_pt_lim_ln, Q2].
      apply (derivable_pt_lim_minus (fun z => c z * c z) (fun _ => b * b)); [|apply derivable_pt_lim_const]. now apply (derivable_pt_lim_mult c c).
  - unfold grad_at, f, gpr_one. unfold chol2 at 1. change 2%nat with (3 - 1)%nat at 4.
    match goal with |- dnlml_of 2 1 3 ?s ?Li ?y _ < _ => rewrite (proj2 (C205_gradient_partial 2 1 3 s Li y ltac:(lia))) end.
    unfold alpha_of, mmul, no_target, rsum. cbn [seq map fold_right INR]. rewrite !DIAG, OFF, R1. cbn [theta].
    pose proof (exp_pos (2 * t)) as Pt. specialize (SC t). specialize (SP t). specialize (Hc t). specialize (Q2 t). specialize (RP t).
    assert (S2 : sqrt ((c t * c t - b * b) / c t) ^ 2 = (c t * c t - b * b) / c t) by (cbn [pow]; rewrite Rmult_1_r; apply sqrt_def; lra).
    rewrite !pow_inv. rewrite S2. replace (sqrt (c t) ^ 2) with (c t) by (cbn [pow]; rewrite Rmult_1_r; now rewrite SC).
    set (u := - (b / sqrt (c t)) / (sqrt (c t) * sqrt ((c t * c t - b * b) / c t))). set (v := / sqrt ((c t * c t - b * b) / c t)). set (w := / sqrt (c t)).
    assert (D : 2 * exp (2 * t) * c t / (c t * c t - b * b) = exp (2 * t) * (/ c t + / ((c t * c t - b * b) / c t)) + exp (2 * t) * (b * b / (c t * (c t * c t - b * b)))) by (field; split; lra).
    assert (P : 0 < exp (2 * t) * (b * b / (c t * (c t * c t - b * b)))).
    { apply Rmult_lt_0_compat; [exact Pt|]. apply Rdiv_lt_0_compat; [nra | apply Rmult_lt_0_compat; lra]. }
    rewrite D. set (z := / ((c t * c t - b * b) / c t)) in *. set (y := / c t) in *. set (pr := exp (2 * t) * (b * b / (c t * (c t * c t - b * b)))) in *.
    replace (exp (2 * t) * _) with (exp (2 * t) * (y + z)) at 1 by ring. lra.
Qed.

(** ** C206: minimize *)
(** Every run that returns: the value and the gradient are those of the function at the returned argument, the value is at most the value at the start, and the counter is
    the number of evaluations, at most N.  No run reads the bracket x4 before this line search has assigned it. *)
Theorem C206_descent : forall tiny f dim N X v0 g0, 0 < tiny -> (1 <= N)%nat -> f X = Some (v0, g0) ->
  match minimize tiny f dim N X with
  | MDone (Y, v, g) i tr => f Y = Some (v, g) /\ v <= v0 /\ i = length tr /\ (i <= N)%nat
  | MUnset => False
  | MRaised | MMatrix => True
  end.
Proof.
  intros tiny f dim N X v0 g0 HT HN HX. unfold minimize. rewrite HX.
  assert (SQ : 0 <= corner (fun j => - g0 j) (fun j => - g0 j)) by exact (Rle_0_sqr _).
  pose proof (min_loop_spec f tiny dim N v0 HT N (X, v0, g0) (fun j => - g0 j) (- corner (fun j => - g0 j) (fun j => - g0 j)) (1 / (1 - - corner (fun j => - g0 j) (fun j => - g0 j))) 1 false [X]) as S.
  match type of S with ?A1 -> ?A2 -> ?A3 -> ?A4 -> ?A5 -> ?A6 -> ?A7 -> ?A8 -> _ =>
    assert (H1 : A1) by lia; assert (H2 : A2) by exact HX; assert (H3 : A3) by (unfold pval; cbn; lra); assert (H4 : A4) by lra; assert (H5 : A5) by (cbn; unfold corner; ring);
    assert (H6 : A6) by (apply Rdiv_lt_0_compat; lra); specialize (S H1 H2 H3 H4 H5 H6 eq_refl HN) end.
  destruct (min_loop _ _ _ _ _ _ _ _ _ _ _ _) as [[[Y v] g] i tr| | |]; try exact S. destruct S as (S1 & S2 & S3 & S4 & _). auto.
Qed.
(** When the first component of every gradient is 0, no line search succeeds: two of them, at most 41 evaluations, and every coordinate whose derivative is 0 everywhere
    keeps its initial value. *)
Theorem C206_first_component_refuted : forall tiny f dim N X (Zc : nat -> Prop), (1 <= N)%nat -> Zc 0%nat -> (forall Y v g, f Y = Some (v, g) -> forall j, Zc j -> g j = 0) ->
  match minimize tiny f dim N X with
  | MDone (Y, v, g) i tr => (forall j, Zc j -> Y j = X j) /\ (length tr <= 41)%nat
  | MMatrix => False
  | MRaised | MUnset => True
  end.
Proof.
  intros tiny f dim N X Zc HN Z0 FL. unfold minimize. destruct (f X) as [[v0 g0]|] eqn:HX; [|exact I].
  assert (E : - corner (fun j => - g0 j) (fun j => - g0 j) = 0) by (unfold corner; rewrite (FL X v0 g0 HX 0%nat Z0); ring). rewrite E.
  pose proof (min_loop_flat f Zc Z0 FL tiny dim N N (X, v0, g0) (fun j => - g0 j) (1 / (1 - 0)) 1 false [X]) as S.
  match type of S with ?A1 -> ?A2 -> ?A3 -> ?A4 -> ?A5 -> ?A6 -> _ =>
    assert (H1 : A1) by lia; assert (H2 : A2) by exact HX; assert (H3 : A3) by (intros j Hj; rewrite (FL X v0 g0 HX j Hj); ring); assert (H4 : A4) by lra; specialize (S H1 H2 H3 H4 eq_refl HN) end.
  destruct (min_loop _ _ _ _ _ _ _ _ _ _ _ _) as [[[Y v] g] i tr| | |]; try exact S.
Qed.
(** ** C207: the hyperparameters of local_score_marginal_general with one parent (or none), for every data set: the length scale and the signal deviation are never
    fitted; the value is the one of the starting point or better, after at most 41 evaluations. *)
Theorem C207_hyperparameters_refuted : forall tiny chol n m x y th0, 0 < tiny ->
  match minimize tiny (gpr_one chol n m x y) 3 300 th0 with
  | MDone (th, v, g) i tr => th 0%nat = th0 0%nat /\ th 1%nat = th0 1%nat /\ (length tr <= 41)%nat /\ (forall v0 g0, gpr_one chol n m x y th0 = Some (v0, g0) -> v <= v0)
  | MMatrix | MUnset => False
  | MRaised => True
  end.
Proof.
  intros tiny chol n m x y th0 HT.
  assert (FL : forall Y v g, gpr_one chol n m x y Y = Some (v, g) -> forall j, (j = 0 \/ j = 1)%nat -> g j = 0).
  { intros Y v g E j Hj. unfold gpr_one in E. destruct (chol n (cov_one x Y)) as [[L Li]|]; [|discriminate]. injection E as _ <-. apply C205_gradient_partial; [lia|]. cbn. lia. }
  pose proof (C206_first_component_refuted tiny (gpr_one chol n m x y) 3 300 th0 (fun j => (j = 0 \/ j = 1)%nat) ltac:(lia) (or_introl eq_refl) FL) as A.
  destruct (gpr_one chol n m x y th0) as [[v0 g0]|] eqn:E0.
  - pose proof (C206_descent tiny (gpr_one chol n m x y) 3 300 th0 v0 g0 HT ltac:(lia) E0) as B.
    destruct (minimize _ _ _ _ _) as [[[th v] g] i tr| | |]; try exact B; try exact A. destruct A as [A1 A2]. destruct B as (B1 & B2 & _).
    repeat split; [apply A1; now left | apply A1; now right | exact A2|]. intros v1 g1 [= <- <-]. exact B2.
  - unfold minimize. now rewrite E0.
Qed.
(** The exception is excluded whenever the objective is defined everywhere, so the conclusion above is about a result of the minimisation. *)
Lemma interpolate_total : forall f, (forall Y, f Y <> None) -> forall M X f0 s d0 x2 f2 d2 p4 l tr, interpolate M f X f0 s d0 x2 f2 d2 p4 l <> IRaised tr.
Proof.
  intros f HF. induction M as [|M IH]; intros X f0 s d0 x2 f2 d2 p4 l tr; cbn [interpolate]; [discriminate|].
  destruct (wolfe f0 d0 l); [|discriminate]. destruct (gtb (l_d3 l) 0 || gtb (l_f3 l) (f0 + l_x3 l * RHO * d0)).
  - match goal with |- context [f ?a] => destruct (f a) as [[v g]|] eqn:E; [apply IH | now apply HF in E] end.
  - destruct p4 as [[[x4 f4] d4]|]; [|discriminate]. match goal with |- context [f ?a] => destruct (f a) as [[v g]|] eqn:E; [apply IH | now apply HF in E] end.
Qed.
Lemma min_loop_total : forall f, (forall Y, f Y <> None) -> forall fuel tiny dim N cur s d0 x3 i b tr, min_loop fuel tiny f dim N cur s d0 x3 i b tr <> MRaised.
Proof.
  intros f HF. induction fuel as [|fuel IH]; intros tiny dim N [[X f0] df0] s d0 x3 i b tr; cbn [min_loop]; destruct (negb (Nat.ltb i N)); try discriminate.
  destruct (interpolate _ _ _ _ _ _ _ _ _ _ _) as [l|tr'|] eqn:E; [|now apply interpolate_total in E|discriminate].
  destruct (gtb _ _ && gtb _ _); [destruct (Nat.eqb dim 1); [|discriminate]; destruct (if gtb _ 0 then _ else _) as [s' d0']; apply IH|].
  destruct (b || Nat.ltb N (l_i l)); [discriminate | apply IH].
Qed.
Theorem C207_met : forall tiny chol n m x y th0, 0 < tiny -> (forall K, chol n K <> None) ->
  exists th v g i tr, minimize tiny (gpr_one chol n m x y) 3 300 th0 = MDone (th, v, g) i tr /\ th 0%nat = th0 0%nat /\ th 1%nat = th0 1%nat.
Proof.
  intros tiny chol n m x y th0 HT HC. pose proof (C207_hyperparameters_refuted tiny chol n m x y th0 HT) as A.
  assert (HF : forall th, gpr_one chol n m x y th <> None).
  { intros th. unfold gpr_one. destruct (chol n (cov_one x th)) as [[L Li]|] eqn:E; [discriminate | now apply HC in E]. }
  destruct (minimize tiny (gpr_one chol n m x y) 3 300 th0) as [[[th v] g] i tr| | |] eqn:E; try contradiction.
  - exists th, v, g, i, tr. destruct A as (A1 & A2 & _). auto.
  - exfalso. unfold minimize in E. destruct (gpr_one chol n m x y th0) as [[v g]|] eqn:E0; [|now apply HF in E0]. now apply min_loop_total in E.
Qed.
(** The first step is along the negative gradient. *)
Definition ends {A} (l r : list A) : Prop := exists p, l = p ++ r.
Lemma ends_refl {A} (l : list A) : ends l l. Proof. now exists []. Qed.
Lemma ends_cons {A} (x : A) l r : ends l (x :: r) -> ends l r.
Proof. intros [p ->]. exists (p ++ [x]). now rewrite <- app_assoc. Qed.
Lemma try_ends f X s M x3 dflt i tr : let '(_, _, _, _, tr') := try_eval f X s M x3 dflt i tr in ends tr' tr /\ ((0 < M)%nat -> ends tr' (along X x3 s :: tr)).
Proof.
  revert x3 i tr. induction M as [|M IH]; intros x3 i tr; cbn [try_eval]; [split; [apply ends_refl | lia]|].
  destruct (f (along X x3 s)); [split; [apply (ends_cons (along X x3 s)), ends_refl | intros _; apply ends_refl]|].
  specialize (IH ((0 + x3) / 2) (S i) (along X x3 s :: tr)). destruct (try_eval _ _ _ _ _ _ _ _) as [[[[? ?] ?] ?] tr']. destruct IH as [IH _]. split; [eapply ends_cons; exact IH | auto].
Qed.
Lemma ends_trans {A} (l r t : list A) : ends l r -> ends r t -> ends l t.
Proof. intros [p ->] [q ->]. exists (p ++ q). now rewrite app_assoc. Qed.
Lemma extrapolate_ends f X f0 df0 s d0 : forall fuel x3 M best i tr, let l := extrapolate fuel f X f0 df0 s d0 x3 M best i tr in ends (l_tr l) tr /\ ((0 < M)%nat -> ends (l_tr l) (along X x3 s :: tr)).
Proof.
  induction fuel as [|fuel IH]; intros x3 M best i tr; cbn [extrapolate]; pose proof (try_ends f X s M x3 (f0, df0) i tr) as T; destruct (try_eval _ _ _ _ _ _ _ _) as [[[[y3 [f3 df3]] M'] i'] tr']; destruct T as [T1 T2];
    (destruct (gtb _ _ || gtb _ _ || Nat.eqb _ _); [cbn [l_tr]; auto|]); [cbn [l_tr]; auto|].
  destruct (IH (next_step f0 d0 f3 (corner df3 s) 0 y3) M' (keep_best best X s y3 f3 df3) i' tr') as [I1 _]. split; [eapply ends_trans; eauto | intros H; eapply ends_trans; [exact I1 | auto]].
Qed.
Lemma interpolate_ends f : forall M X f0 s d0 x2 f2 d2 p4 l l', interpolate M f X f0 s d0 x2 f2 d2 p4 l = IDone l' -> ends (l_tr l') (l_tr l).
Proof.
  induction M as [|M IH]; intros X f0 s d0 x2 f2 d2 p4 l l' E; cbn [interpolate] in E; [injection E as <-; apply ends_refl|].
  destruct (wolfe f0 d0 l); [|injection E as <-; apply ends_refl]. destruct (gtb (l_d3 l) 0 || gtb (l_f3 l) (f0 + l_x3 l * RHO * d0)).
  - match type of E with context [f ?a] => destruct (f a) as [[v g]|]; [|discriminate] end. apply IH in E. cbn [l_tr] in E. eapply ends_cons; exact E.
  - destruct p4 as [[[x4 f4] d4]|]; [|discriminate]. match type of E with context [f ?a] => destruct (f a) as [[v g]|]; [|discriminate] end. apply IH in E. cbn [l_tr] in E. eapply ends_cons; exact E.
Qed.
Lemma min_loop_ends f tiny dim N : forall fuel cur s d0 x3 i b tr p i' tr', min_loop fuel tiny f dim N cur s d0 x3 i b tr = MDone p i' tr' ->
  ends tr' tr /\ ((i < N)%nat -> (0 < fuel)%nat -> ends tr' (along (fst (fst cur)) x3 s :: tr)).
Proof.
  induction fuel as [|fuel IH]; intros [[X f0] df0] s d0 x3 i b tr p i' tr' E; cbn [min_loop] in E; destruct (Nat.ltb_spec i N) as [L|L]; cbn [negb] in E;
    try (injection E as <- <- <-; split; [apply ends_refl | lia]).
  set (M := Nat.min MAXE (N - i)) in E. assert (HMp : (0 < M)%nat) by (unfold M, MAXE; lia).
  destruct (interpolate _ _ _ _ _ _ _ _ _ _ _) as [l|tr0|] eqn:EI; [|discriminate|discriminate]. apply interpolate_ends in EI.
  destruct (extrapolate_ends f X f0 df0 s d0 M x3 M (X, f0, df0) i tr) as [X1 X2]. specialize (X2 HMp). cbn [fst].
  assert (K : ends tr' (l_tr l)).
  { destruct (gtb _ _ && gtb _ _).
    - destruct (Nat.eqb dim 1); [|discriminate]. destruct (if gtb _ 0 then _ else _) as [s' d0'] in E. apply IH in E. exact (proj1 E).
    - destruct (b || Nat.ltb N (l_i l)); [injection E as <- <- <-; apply ends_refl|]. apply IH in E. exact (proj1 E). }
  assert (K2 : ends tr' (along X x3 s :: tr)) by (eapply ends_trans; [exact K|]; eapply ends_trans; [exact EI | exact X2]).
  split; [eapply ends_cons; exact K2 | intros _ _; exact K2].
Qed.
Theorem C206_first_step : forall tiny f dim N X v0 g0 p i tr, (2 <= N)%nat -> f X = Some (v0, g0) -> minimize tiny f dim N X = MDone p i tr ->
  exists t later, 0 < t /\ rev tr = X :: (fun j => X j + t * - g0 j) :: later.
Proof.
  intros tiny f dim N X v0 g0 p i tr HN HX E. unfold minimize in E. rewrite HX in E. apply min_loop_ends in E. destruct E as [_ E]. destruct (E ltac:(lia) ltac:(lia)) as [q ->].
  exists (1 / (1 - - corner (fun j => - g0 j) (fun j => - g0 j))), (rev q). split.
  - assert (0 <= corner (fun j => - g0 j) (fun j => - g0 j)) by exact (Rle_0_sqr _). apply Rdiv_lt_0_compat; lra.
  - rewrite rev_app_distr. reflexivity.
Qed.
