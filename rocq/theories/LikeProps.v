(** C254 the objective of CALM under a change of units, C255 the objective at an acyclic matrix. *)
From Verif Require Import Base GraphModel GraphSpec BICModel BICProofs ChisqProps EffectModel EffectProofs VARModel VARProofs DLModel DLProofs CALMModel CALMProofs CALMProps LikeModel LikeProofs.
From Coq Require Import Permutation Reals Lra.
Local Open Scope R_scope.

(** The determinant of the model on matrices of size 1 and 2. *)
Lemma det_2 M : det 2 M = M 0%nat 0%nat * M 1%nat 1%nat - M 0%nat 1%nat * M 1%nat 0%nat.
Proof. unfold det, rsum, rprod. cbn. ring. Qed.

(** Specification. The same model in other units: column i of the data multiplied by s i; the coefficient of x_i in x_j by s j / s i. *)
Definition rescaled_weights (s : nat -> R) (B : rmat) : rmat := fun i j => B i j * s j / s i.
Definition rescaled_data (s : nat -> R) (X : rmat) : rmat := fun r i => s i * X r i.
(** The mean square of the residual of variable j given the others, with centred columns. *)
Definition centred (n : nat) (X : rmat) (r i : nat) : R := X r i - mean n (fun r => X r i).
Definition residual_mean_square (n d : nat) (X B : rmat) (j : nat) : R :=
  mean n (fun r => (centred n X r j - rsum (fun i => B i j * centred n X r i) (seq 0 d)) ^ 2).

Lemma rsum_eye_col d j (v : rvec) : (j < d)%nat -> rsum (fun k => eye k j * v k) (seq 0 d) = v j.
Proof. intros H. rewrite <- (rsum_eye d j v H). apply rsum_ext. intros k _. unfold eye. now rewrite Nat.eqb_sym. Qed.
Lemma mean_sum n (f : nat -> rvec) l : mean n (fun r => rsum (fun i => f i r) l) = rsum (fun i => mean n (f i)) l.
Proof.
  unfold mean, Rdiv. rewrite rsum_swap. rewrite (Rmult_comm _ (/ INR n)).
  rewrite <- (rsum_mult (/ INR n) (fun i => rsum (f i) (seq 0 n))). apply rsum_ext. intros i _. apply Rmult_comm.
Qed.
Lemma eye_minus_dot d B j (v : rvec) : (j < d)%nat -> rsum (fun i => eye_minus B i j * v i) (seq 0 d) = v j - rsum (fun i => B i j * v i) (seq 0 d).
Proof.
  intros H. rewrite <- (rsum_eye_col d j v H) at 1. rewrite <- rsum_minus. apply rsum_ext. intros. unfold eye_minus. ring.
Qed.

(** The diagonal entries are the mean squared residuals. *)
Theorem C255_residual_variance : forall n d X B j, (j < d)%nat ->
  residuals d B (cov_bias n X) j = residual_mean_square n d X B j /\ 0 <= residuals d B (cov_bias n X) j.
Proof.
  intros n d X B j Hj. assert (E : residuals d B (cov_bias n X) j = residual_mean_square n d X B j).
  { unfold residual_mean_square. rewrite (mean_ext n _ (fun r => rsum (fun k => rsum (fun i => eye_minus B i j * (centred n X r i * centred n X r k)) (seq 0 d) * eye_minus B k j) (seq 0 d))).
    - unfold residuals, cov_bias. rewrite mean_sum. apply rsum_ext. intros k _.
      symmetry. transitivity (mean n (fun r => eye_minus B k j * rsum (fun i => eye_minus B i j * (centred n X r i * centred n X r k)) (seq 0 d))).
      { apply mean_ext. intros r _. apply Rmult_comm. }
      rewrite mean_mult, mean_sum, Rmult_comm. f_equal. apply rsum_ext. intros i _. rewrite <- mean_mult. reflexivity.
    - intros r _. rewrite <- (eye_minus_dot d B j (fun i => centred n X r i) Hj). cbn [pow]. rewrite Rmult_1_r.
      set (a := rsum (fun i => eye_minus B i j * centred n X r i) (seq 0 d)). unfold a at 1.
      rewrite Rmult_comm, <- rsum_mult. apply rsum_ext. intros k _.
      rewrite (rsum_ext (fun i => eye_minus B i j * (centred n X r i * centred n X r k)) (fun i => centred n X r k * (eye_minus B i j * centred n X r i))) by (intros; ring).
      rewrite rsum_mult. fold a. ring. }
  split; [exact E|]. rewrite E. unfold residual_mean_square, mean. destruct n as [|n]; [unfold rsum; cbn; unfold Rdiv; lra|].
  apply Rmult_le_pos; [|left; apply Rinv_0_lt_compat, lt_0_INR; lia]. apply rsum_nonneg. intros. apply pow2_ge_0.
Qed.
Print Assumptions C255_residual_variance.

(** At an acyclic matrix the determinant term vanishes: the objective is half the sum of the logarithms of the mean squared
    residuals, one for each variable; and with an acyclic 0/1 mask the loss adds only lambda1 for every arc. *)
Theorem C255_acyclic_objective : forall n d X B, acyclic_weights d B ->
  likelihood d B (cov_bias n X) = 1 / 2 * rsum (fun j => ln (residual_mean_square n d X B j)) (seq 0 d).
Proof.
  intros n d X B HA. unfold likelihood. rewrite (det_acyclic d B HA), Rabs_R1, ln_1, Rminus_0_r. f_equal. apply rsum_ext. intros j Hj. apply in_seq0 in Hj.
  now rewrite (proj1 (C255_residual_variance n d X B j Hj)).
Qed.
Print Assumptions C255_acyclic_objective.

Definition arcs (d : nat) (mask : nat -> nat -> bool) : list (nat * nat) := filter (fun p => mask (fst p) (snd p)) (list_prod (seq 0 d) (seq 0 d)).
Definition zero_one (mask : nat -> nat -> bool) : rmat := fun i j => if mask i j then 1 else 0.

Lemma sparsity_arcs d mask : sparsity d (zero_one mask) = INR (length (arcs d mask)).
Proof.
  unfold sparsity, arcs. generalize (seq 0 d) at 2 3. intros l. induction l as [|a l IH]; [reflexivity|]. rewrite rsum_cons, IH.
  cbn [list_prod]. rewrite filter_app, app_length, plus_INR. f_equal. clear IH. induction (seq 0 d) as [|b m IH]; [reflexivity|].
  rewrite rsum_cons, IH. unfold zero_one. cbn [map filter fst snd]. destruct (mask a b); [cbn [length]; rewrite S_INR; ring|ring].
Qed.

Theorem C255_acyclic_loss : forall n d X lambda1 rho mask P, acyclic (fun i j => (i < d)%nat /\ (j < d)%nat /\ mask i j = true) ->
  loss d lambda1 rho (cov_bias n X) (zero_one mask) P =
    1 / 2 * rsum (fun j => ln (residual_mean_square n d X (fun i j => if mask i j then P i j else 0) j)) (seq 0 d) + lambda1 * INR (length (arcs d mask)).
Proof.
  intros n d X lambda1 rho mask P HA. unfold loss. set (B := fun i j => if mask i j then P i j else 0).
  assert (EB : forall i j, zero_one mask i j * P i j = B i j) by (intros; unfold zero_one, B; destruct (mask i j); ring).
  assert (A1 : acyclic_weights d B).
  { intros v (c & (H1 & H2 & H3) & H4). apply (HA v). exists c. split; [repeat split; auto; destruct (mask v c) eqn:E; [reflexivity|unfold B in H3; rewrite E in H3; now contradiction H3]|].
    eapply GraphProofs.reach_mono; [|exact H4]. intros a b (K1 & K2 & K3). repeat split; auto. unfold B in K3. destruct (mask a b); [reflexivity|now contradiction K3]. }
  assert (A2 : compute_h d (zero_one mask) = 0).
  { apply C184_constraint; [intros i j _ _; unfold zero_one; destruct (mask i j); lra|]. intros v (c & (H1 & H2 & H3) & H4). apply (HA v). exists c.
    unfold zero_one in *. split; [repeat split; auto; destruct (mask v c); [reflexivity|lra]|]. eapply GraphProofs.reach_mono; [|exact H4]. intros a b (K1 & K2 & K3). repeat split; auto.
    destruct (mask a b); [reflexivity|lra]. }
  rewrite A2, sparsity_arcs. rewrite <- (C255_acyclic_objective n d X B A1).
  assert (E : likelihood d (fun i j => zero_one mask i j * P i j) (cov_bias n X) = likelihood d B (cov_bias n X)).
  { unfold likelihood. f_equal; [f_equal; apply rsum_ext; intros j _; f_equal; unfold residuals; apply rsum_ext; intros k _; unfold eye_minus; rewrite !EB; f_equal; apply rsum_ext; intros; now rewrite EB|].
    do 2 f_equal. apply det_ext. intros i j _ _. unfold eye_minus. now rewrite EB. }
  rewrite E. ring.
Qed.
Print Assumptions C255_acyclic_loss.

(** A concrete two-variable case: data (0,0), (2,2), (2,0), (0,2) with the arc 0 -> 1 of weight 1: the residual of 1 has mean square 2. *)
Definition exX : rmat := fun r i => nth i (nth r [[0; 0]; [2; 2]; [2; 0]; [0; 2]] []) 0.
Example C255_example : acyclic (fun i j => (i < 2)%nat /\ (j < 2)%nat /\ (Nat.ltb i j = true)) /\
  residual_mean_square 4 2 exX (fun i j => if Nat.ltb i j then 1 else 0) 1 = 2 /\ residual_mean_square 4 2 exX (fun i j => if Nat.ltb i j then 1 else 0) 0 = 1.
Proof.
  split.
  - intros v (c & (_ & _ & H) & H2). apply Nat.ltb_lt in H. assert (LE : (c <= v)%nat); [|lia]. clear H.
    induction H2 as [x|x y z (_ & _ & H) _ IH]; [lia|]. apply Nat.ltb_lt in H. lia.
  - unfold residual_mean_square, centred, mean, rsum, exX. cbn. split; field.
Qed.

(** Change of units. *)
Lemma mean_scale n a x : mean n (fun r => a * x r) = a * mean n x.
Proof. apply mean_mult. Qed.
Lemma centred_rescaled n s X r i : centred n (rescaled_data s X) r i = s i * centred n X r i.
Proof. unfold centred, rescaled_data. rewrite (mean_mult n (s i) (fun r => X r i)). ring. Qed.
Lemma cov_rescaled n s X i k : cov_bias n (rescaled_data s X) i k = s i * cov_bias n X i k * s k.
Proof.
  unfold cov_bias. change (mean n (fun r => centred n (rescaled_data s X) r i * centred n (rescaled_data s X) r k) = s i * mean n (fun r => centred n X r i * centred n X r k) * s k).
  rewrite (mean_ext n _ (fun r => (s i * s k) * (centred n X r i * centred n X r k))) by (intros; rewrite !centred_rescaled; ring). rewrite mean_mult. ring.
Qed.

Lemma ln_rprod {A} (f : A -> R) l : (forall x, In x l -> f x <> 0) -> ln (Rabs (rprod f l)) = rsum (fun x => ln (Rabs (f x))) l.
Proof.
  induction l as [|a l IH]; intros H; [unfold rprod, rsum; cbn; rewrite Rabs_R1; apply ln_1|]. rewrite rsum_cons.
  change (rprod f (a :: l)) with (f a * rprod f l). assert (N1 : f a <> 0) by (apply H; now left). assert (N2 : rprod f l <> 0) by (apply rprod_neq0; intros; apply H; now right).
  rewrite Rabs_mult, ln_mult by (now apply Rabs_pos_lt). rewrite IH; [reflexivity|intros; apply H; now right].
Qed.

Theorem C254_units : forall n d X B s, (forall i, (i < d)%nat -> s i <> 0) -> (forall j, (j < d)%nat -> 0 < residual_mean_square n d X B j) ->
  det d (eye_minus B) <> 0 ->
  likelihood d (rescaled_weights s B) (cov_bias n (rescaled_data s X)) = likelihood d B (cov_bias n X) + rsum (fun j => ln (Rabs (s j))) (seq 0 d).
Proof.
  intros n d X B s Hs Hr Hd.
  assert (EM : forall i j, (i < d)%nat -> (j < d)%nat -> eye_minus (rescaled_weights s B) i j = / s i * eye_minus B i j * s j).
  { intros i j Hi Hj. unfold eye_minus, rescaled_weights, eye. specialize (Hs i Hi). destruct (Nat.eqb_spec i j) as [->|]; field; auto. }
  assert (R1 : forall j, (j < d)%nat -> residuals d (rescaled_weights s B) (cov_bias n (rescaled_data s X)) j = s j ^ 2 * residuals d B (cov_bias n X) j).
  { intros j Hj. unfold residuals. rewrite <- rsum_mult. apply rsum_ext. intros k Hk. apply in_seq0 in Hk. rewrite EM by assumption.
    rewrite (rsum_ext _ (fun i => (s j * s k) * (eye_minus B i j * cov_bias n X i k))).
    - rewrite rsum_mult. specialize (Hs k Hk). field. exact Hs.
    - intros i Hi. apply in_seq0 in Hi. rewrite EM, cov_rescaled by assumption. specialize (Hs i Hi). field. exact Hs. }
  assert (D1 : Rabs (det d (eye_minus (rescaled_weights s B))) = Rabs (det d (eye_minus B))).
  { f_equal. rewrite (det_ext d _ (fun i j => / s i * eye_minus B i j * s j)) by exact EM. rewrite det_scale, <- rprod_mult.
    rewrite rprod_one; [ring|]. intros i Hi. apply in_seq0 in Hi. apply Rinv_l. now apply Hs. }
  unfold likelihood. rewrite D1. rewrite (rsum_ext (fun j => ln (residuals d (rescaled_weights s B) _ j)) (fun j => 2 * ln (Rabs (s j)) + ln (residuals d B (cov_bias n X) j))).
  - rewrite rsum_plus, rsum_mult. field.
  - intros j Hj. apply in_seq0 in Hj. rewrite R1 by exact Hj. pose proof (Rabs_pos_lt (s j) (Hs j Hj)) as P.
    rewrite <- (Rabs_right (s j ^ 2)) by (apply Rle_ge, pow2_ge_0). rewrite <- RPow_abs. cbn [pow]. rewrite Rmult_1_r.
    rewrite ln_mult; [rewrite ln_mult by assumption; ring|now apply Rmult_lt_0_compat|]. rewrite (proj1 (C255_residual_variance n d X B j Hj)). now apply Hr.
Qed.
Print Assumptions C254_units.

(** The loss with the same mask moves by the same constant for every mask and every weights, so the change of units keeps the order of
    any two candidates. *)
Theorem C254_loss_units : forall n d X lambda1 rho s M P, (forall i, (i < d)%nat -> s i <> 0) ->
  (forall j, (j < d)%nat -> 0 < residual_mean_square n d X (fun i j => M i j * P i j) j) -> det d (eye_minus (fun i j => M i j * P i j)) <> 0 ->
  loss d lambda1 rho (cov_bias n (rescaled_data s X)) M (rescaled_weights s P) =
    loss d lambda1 rho (cov_bias n X) M P + rsum (fun j => ln (Rabs (s j))) (seq 0 d).
Proof.
  intros n d X lambda1 rho s M P Hs Hr Hd. unfold loss. rewrite <- (Rplus_comm (rsum _ _)), <- !Rplus_assoc. do 2 f_equal.
  rewrite Rplus_comm, <- (C254_units n d X (fun i j => M i j * P i j) s Hs Hr Hd). f_equal.
  apply FunctionalExtensionality.functional_extensionality. intros i. apply FunctionalExtensionality.functional_extensionality. intros j. unfold rescaled_weights, Rdiv. ring.
Qed.
Print Assumptions C254_loss_units.

(** [standardize]: the standardised data are the centred data in other units, and the centred data have the covariance of the data. *)
Theorem C254_standardize : forall n d X lambda1 rho M P, (1 <= n)%nat -> (forall i, (i < d)%nat -> 0 < var n (fun r => X r i)) ->
  (forall j, (j < d)%nat -> 0 < residual_mean_square n d X (fun i j => M i j * P i j) j) -> det d (eye_minus (fun i j => M i j * P i j)) <> 0 ->
  let sd := fun i => sqrt (var n (fun r => X r i)) in
  loss d lambda1 rho (cov_bias n (prepared false n X)) M P = loss d lambda1 rho (cov_bias n X) M P /\
  loss d lambda1 rho (cov_bias n (prepared true n X)) M (fun i j => P i j * sd i / sd j) =
    loss d lambda1 rho (cov_bias n X) M P - rsum (fun j => ln (sd j)) (seq 0 d).
Proof.
  intros n d X lambda1 rho M P Hn Hv Hr Hd sd.
  assert (SP : forall i, (i < d)%nat -> 0 < sd i) by (intros i Hi; apply sqrt_lt_R0, Hv, Hi).
  assert (LE : forall c1 c2 P1 P2, (forall i j, (i < d)%nat -> (j < d)%nat -> c1 i j = c2 i j) -> (forall i j, (i < d)%nat -> (j < d)%nat -> P1 i j = P2 i j) ->
     loss d lambda1 rho c1 M P1 = loss d lambda1 rho c2 M P2).
  { intros c1 c2 P1 P2 HC HP. unfold loss. do 2 f_equal. unfold likelihood. f_equal.
    - f_equal. apply rsum_ext. intros j Hj. apply in_seq0 in Hj. f_equal. unfold residuals. apply rsum_ext. intros k Hk. apply in_seq0 in Hk. unfold eye_minus. rewrite HP by assumption.
      f_equal. apply rsum_ext. intros i Hi. apply in_seq0 in Hi. now rewrite HP, HC.
    - do 2 f_equal. apply det_ext. intros i j Hi Hj. unfold eye_minus. now rewrite HP. }
  assert (MC : forall i, mean n (fun r => prepared false n X r i) = 0).
  { intros i. unfold prepared. rewrite (mean_ext n _ (fun r => 1 * X r i + - mean n (fun r => X r i))) by (intros; ring). rewrite (mean_affine n 1 _ (fun r => X r i)) by exact Hn. ring. }
  assert (CF : forall i k, cov_bias n (prepared false n X) i k = cov_bias n X i k).
  { intros i k. unfold cov_bias. apply mean_ext. intros r _. rewrite !MC. unfold prepared. ring. }
  split.
  - apply LE; auto.
  - set (s := fun i => / sd i). assert (Hs : forall i, (i < d)%nat -> s i <> 0) by (intros i Hi; apply Rinv_neq_0_compat; specialize (SP i Hi); lra).
    transitivity (loss d lambda1 rho (cov_bias n (rescaled_data s X)) M (rescaled_weights s P)).
    + apply LE.
      * intros i k Hi Hk. rewrite cov_rescaled, <- CF, <- cov_rescaled. unfold cov_bias.
        assert (PT : forall r i, prepared true n X r i = rescaled_data s (prepared false n X) r i).
        { intros r i'. unfold prepared, rescaled_data, s, sd, Rdiv. ring. }
        assert (PM : forall i, mean n (fun s0 => prepared true n X s0 i) = mean n (fun s0 => rescaled_data s (prepared false n X) s0 i)) by (intros; apply mean_ext; intros; apply PT).
        apply mean_ext. intros r _. now rewrite !PM, !PT.
      * intros i j Hi Hj. unfold rescaled_weights, s. pose proof (SP i Hi). pose proof (SP j Hj). field. lra.
    + rewrite C254_loss_units by assumption. unfold Rminus. f_equal. rewrite <- (Rmult_1_l (rsum (fun j => ln (sd j)) (seq 0 d))), Ropp_mult_distr_l, <- rsum_mult.
      apply rsum_ext. intros j Hj. apply in_seq0 in Hj. unfold s. rewrite Rabs_right by (apply Rle_ge, Rlt_le, Rinv_0_lt_compat, SP, Hj). rewrite ln_Rinv by (apply SP, Hj). ring.
Qed.
Print Assumptions C254_standardize.

Example C254_example : let B := fun i j => if Nat.ltb i j then 1 else 0 in
  (forall j, (j < 2)%nat -> 0 < residual_mean_square 4 2 exX B j) /\ det 2 (eye_minus B) <> 0 /\ (forall i, (i < 2)%nat -> 0 < var 4 (fun r => exX r i)).
Proof.
  intros B. destruct C255_example as (_ & E1 & E2). split; [|split].
  - intros j Hj. destruct j as [|[|]]; [| |lia]; unfold B; rewrite ?E1, ?E2; lra.
  - rewrite det_2. unfold eye_minus, eye, B. cbn. lra.
  - intros i Hi. destruct i as [|[|]]; [| |lia]; unfold var, mean, rsum, exX; cbn; lra.
Qed.
