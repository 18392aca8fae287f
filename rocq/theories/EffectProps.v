(** Properties of CausalEffect. *)
From Verif Require Import Base UtilsModel UtilsProofs GraphSpec BICModel BICProofs LingamModel LingamSpec LingamProofs LingamProps BootSpec EffectModel EffectSpec EffectProofs.
From Coq Require Import Permutation Reals Lra.
Local Open Scope R_scope.

(** ** C129: the order of a matrix, and the propagation along it *)
Theorem C129_matrix_order : forall tol n B, sharp tol n B ->
  ((exists o, model_order tol n B = Some o) <-> triangular n B) /\ forall o, model_order tol n B = Some o -> follows n B o.
Proof.
  intros tol n B HS. destruct (matrix_order_spec tol n B HS n (seq 0 n) [] (seq_NoDup n 0) (seq_length n 0)) as [H1 H2]; [intros j Hj; now apply in_seq0|reflexivity|intros i j []|].
  split; [|exact H1]. split; [intros (o & E); exact (follows_triangular n B o (H1 o E))|exact H2].
Qed.
(** The propagated effects are the one solution of the intervened equations. *)
Theorem C129_propagation : forall n B order En k v, follows n B order ->
  intervened n B En k v (propagated_effects n B order En k v) /\
  forall e, intervened n B En k v e -> forall i, (i < n)%nat -> propagated_effects n B order En k v i = e i.
Proof.
  intros n B order En k v F. pose proof (propagated_solves n B order En k v F) as H. split; [exact H|]. intros e He i Hi. apply (intervened_unique n B En k v); auto. now apply follows_triangular with order.
Qed.

(** ** C130: the effect of an intervention is the sum over the directed paths *)
Theorem C130_total_effect : forall n B order k, follows n B order -> (k < n)%nat -> exists T : rvec,
  (forall b, (b < n)%nat -> forall t, total_effect n B k b t <-> t = T b) /\
  forall En v w b, (b < n)%nat -> propagated_effects n B order En k v b - propagated_effects n B order En k w b = (v - w) * T b.
Proof.
  intros n B order k F Hk. exists (propagated_effects n B order (fun _ => 0) k 1). pose proof (follows_triangular n B order F) as TR. pose proof (propagated_solves n B order (fun _ => 0) k 1 F) as HT. split.
  - intros b Hb t. pose proof (response_paths n B k _ TR Hk HT b Hb) as TE. split; [|now intros ->]. intros H. now apply (total_effect_unique n B k b).
  - intros En v w b Hb. set (T := propagated_effects n B order (fun _ => 0) k 1) in *. pose proof (propagated_solves n B order En k w F) as Hw. pose proof (propagated_solves n B order En k v F) as Hv.
    assert (S1 : intervened n B En k v (fun i => propagated_effects n B order En k w i + (v - w) * T i)).
    { intros i Hi. rewrite (Hw i Hi), (HT i Hi). destruct (Nat.eqb i k); [lra|].
      rewrite (rsum_ext (fun j => B i j * (propagated_effects n B order En k w j + (v - w) * T j)) (fun j => B i j * propagated_effects n B order En k w j + (v - w) * (B i j * T j))) by (intros; lra).
      rewrite rsum_plus, rsum_mult. lra. }
    rewrite (intervened_unique n B En k v _ _ TR Hv S1 b Hb). lra.
Qed.

(** ** C131: effects on a prediction *)
(** Setting a variable to its mean changes nothing. *)
Theorem C131_mean_is_neutral : forall n B order Ex k, follows n B order -> (k < n)%nat -> forall i, (i < n)%nat ->
  propagated_effects n B order (noise_means n B Ex) k (Ex k) i = Ex i.
Proof.
  intros n B order Ex k F Hk. assert (H : intervened n B (noise_means n B Ex) k (Ex k) Ex).
  { intros i Hi. destruct (Nat.eqb_spec i k) as [->|N]; [reflexivity|]. unfold noise_means, rdot. lra. }
  intros i Hi. apply (intervened_unique n B (noise_means n B Ex) k (Ex k)); auto; [now apply follows_triangular with order|now apply propagated_solves].
Qed.
Lemma without_ext n target x y : (forall i, (i < n)%nat -> x i = y i) -> without n target x = without n target y.
Proof. intros H. unfold without. apply map_ext_in. intros i Hi. apply filter_In in Hi. apply H. now apply in_seq0. Qed.
(** For any predictor: the change of the prediction when the variable moves by a standard deviation and everything else by its total effect. *)
Theorem C131_effects_on_prediction : forall n B order Ex std target predict k, follows n B order -> (k < n)%nat -> exists T : rvec,
  (forall b, (b < n)%nat -> total_effect n B k b (T b)) /\
  effects_on_prediction n B order Ex std target predict k =
    (Rabs (predict (without n target Ex) - predict (without n target (fun b => Ex b + std k * T b))),
     Rabs (predict (without n target Ex) - predict (without n target (fun b => Ex b - std k * T b)))).
Proof.
  intros n B order Ex std target predict k F Hk. destruct (C130_total_effect n B order k F Hk) as (T & H1 & H2). exists T. split; [intros b Hb; now apply H1|].
  unfold effects_on_prediction. pose proof (C131_mean_is_neutral n B order Ex k F Hk) as M.
  rewrite (without_ext n target _ Ex M).
  rewrite (without_ext n target (propagated_effects n B order (noise_means n B Ex) k (Ex k + std k)) (fun b => Ex b + std k * T b)).
  2:{ intros i Hi. pose proof (H2 (noise_means n B Ex) (Ex k + std k) (Ex k) i Hi) as K. rewrite (M i Hi) in K. lra. }
  rewrite (without_ext n target (propagated_effects n B order (noise_means n B Ex) k (Ex k - std k)) (fun b => Ex b - std k * T b)).
  2:{ intros i Hi. pose proof (H2 (noise_means n B Ex) (Ex k - std k) (Ex k) i Hi) as K. rewrite (M i Hi) in K. lra. }
  reflexivity.
Qed.
(** For a linear predictor both columns are the standard deviation times the total effect on the prediction. *)
Theorem C131_linear_prediction : forall n B order Ex std target predict coef intercept k, follows n B order -> (k < n)%nat ->
  (forall x, predict (without n target x) = rsum (fun i => coef i * x i) (filter (fun i => negb (Nat.eqb i target)) (seq 0 n)) + intercept) -> exists T : rvec,
  (forall b, (b < n)%nat -> total_effect n B k b (T b)) /\
  let e := Rabs (std k * rsum (fun i => coef i * T i) (filter (fun i => negb (Nat.eqb i target)) (seq 0 n))) in
  effects_on_prediction n B order Ex std target predict k = (e, e).
Proof.
  intros n B order Ex std target predict coef intercept k F Hk HL. destruct (C131_effects_on_prediction n B order Ex std target predict k F Hk) as (T & H1 & ->). exists T. split; [exact H1|].
  cbn zeta. rewrite !HL. set (l := filter _ _).
  assert (A1 : forall s, rsum (fun i => coef i * (Ex i + s * T i)) l = rsum (fun i => coef i * Ex i) l + s * rsum (fun i => coef i * T i) l).
  { intros s. rewrite <- rsum_mult, <- rsum_plus. apply rsum_ext. intros i _. lra. }
  rewrite (rsum_ext (fun i => coef i * (Ex i - std k * T i)) (fun i => coef i * (Ex i + - std k * T i))) by (intros; lra). rewrite !A1. f_equal.
  - rewrite <- Rabs_Ropp. f_equal. lra.
  - f_equal. lra.
Qed.

(** ** C132: the optimal intervention *)
Definition no_cancelling_row (n : nat) (B : rmat) : Prop := forall i, (i < n)%nat -> rsum (B i) (seq 0 n) = 0 -> forall j, (j < n)%nat -> B i j = 0.
(** Whatever the random choices: when the loop ends, the quotient solves the question, if it has a solution at all. *)
Theorem C132_optimal_intervention : forall n B order Ex x coef intercept desired choices num den, follows n B order -> no_cancelling_row n B -> (x < n)%nat ->
  optimal_intervention n B Ex x coef intercept desired choices = Some (num, den) ->
  forall c, rsum (fun i => coef i * propagated_effects n B order (noise_means n B Ex) x c i) (seq 0 n) + intercept = desired <-> den * c = num.
Proof.
  intros n B order Ex x coef intercept desired choices num den F NC Hx E c. unfold optimal_intervention in E. pose proof (good_run n B Ex x order F choices _ (good_start n B Ex x order F NC)) as G.
  set (st := fold_left _ choices _) in *. destruct (o_s st) eqn:Es; [|discriminate]. injection E as <- <-. destruct G as (_ & _ & _ & G4).
  rewrite (rsum_ext _ (fun i => coef i * o_ex st i + c * (coef i * o_alpha st i))).
  2:{ intros i Hi. apply in_seq0 in Hi. rewrite <- (G4 i c Hi) by (rewrite Es; intros []). lra. }
  rewrite rsum_plus, rsum_mult. unfold rdot. split; intros H; lra.
Qed.
Theorem C132_denominator_is_the_total_effect : forall n B order Ex x coef intercept desired choices num den, follows n B order -> no_cancelling_row n B -> (x < n)%nat ->
  optimal_intervention n B Ex x coef intercept desired choices = Some (num, den) ->
  exists T : rvec, (forall b, (b < n)%nat -> total_effect n B x b (T b)) /\ den = rsum (fun i => coef i * T i) (seq 0 n).
Proof.
  intros n B order Ex x coef intercept desired choices num den F NC Hx E. destruct (C130_total_effect n B order x F Hx) as (T & H1 & H2). exists T. split; [intros b Hb; now apply H1|].
  unfold optimal_intervention in E. pose proof (good_run n B Ex x order F choices _ (good_start n B Ex x order F NC)) as G.
  set (st := fold_left _ choices _) in *. destruct (o_s st) eqn:Es; [|discriminate]. injection E as <- <-. destruct G as (_ & _ & _ & G4). unfold rdot. apply rsum_ext. intros i Hi. apply in_seq0 in Hi. f_equal.
  pose proof (G4 i 1 Hi ltac:(rewrite Es; intros [])) as K1. pose proof (G4 i 0 Hi ltac:(rewrite Es; intros [])) as K0. pose proof (H2 (noise_means n B Ex) 1 0 i Hi). lra.
Qed.
(** The loop can always end, from every state it can be in. *)
Theorem C132_can_finish : forall n B order Ex x coef intercept desired choices, follows n B order -> no_cancelling_row n B -> (x < n)%nat ->
  exists more num den, optimal_intervention n B Ex x coef intercept desired (choices ++ more) = Some (num, den).
Proof.
  intros n B order Ex x coef intercept desired choices F NC Hx. unfold optimal_intervention. pose proof (good_run n B Ex x order F choices _ (good_start n B Ex x order F NC)) as G.
  destruct (some_schedule n B Ex x order F _ _ G (le_n _)) as (more & H). exists more. rewrite fold_left_app. rewrite H. eauto.
Qed.

(** ** C133: coefficients that add up to zero *)
(** x2 = x0 - x1 + noise is taken for a root: the intervention is off. *)
Definition can_B : rmat := fun i j => match i, j with 2%nat, 0%nat => 1 | 2%nat, 1%nat => -1 | _, _ => 0 end.
Definition can_coef : rvec := fun i => match i with 0%nat => 1 | 2%nat => 1 | _ => 0 end.
Lemma can_follows : follows 4 can_B [0; 1; 2; 3]%nat.
Proof.
  split; [reflexivity|]. intros i j Hi Hj N. destruct i as [|[|[|[|i]]]], j as [|[|[|[|j]]]]; cbn in N; try lra; try lia.
  - exists [], [1%nat], [3%nat]. reflexivity.
  - exists [0%nat], [], [3%nat]. reflexivity.
Qed.
Ltac rs := unfold rsum; cbn [map fold_right seq].
Lemma filter_nil_iff' {A} (f : A -> bool) l : filter f l = [] <-> forall a, In a l -> f a = false.
Proof.
  induction l as [|a l IH]; cbn; [split; [intros _ a []|reflexivity]|]. destruct (f a) eqn:E; [split; [discriminate|intros H; specialize (H a (or_introl eq_refl)); congruence]|].
  rewrite IH. split; intros H b; [intros [<-|Hb]; auto|intros Hb; apply H; now right].
Qed.
Theorem C133_cancelling_row_refuted : exists n B order Ex x coef intercept desired, follows n B order /\ (x < n)%nat /\
  forall choices, exists num den, optimal_intervention n B Ex x coef intercept desired choices = Some (num, den) /\ den <> 0 /\
    rsum (fun i => coef i * propagated_effects n B order (noise_means n B Ex) x (num / den) i) (seq 0 n) + intercept <> desired.
Proof.
  exists 4%nat, can_B, [0; 1; 2; 3]%nat, (fun _ => 0), 0%nat, can_coef, 0, 1. split; [exact can_follows|]. split; [lia|]. intros choices.
  assert (RV : forall i, root_var 4 can_B i = true) by (intros i; unfold root_var; destruct (Req_EM_T (rsum (can_B i) (seq 0 4)) 0) as [|N]; [reflexivity|exfalso; apply N; rs; destruct i as [|[|[|[|i]]]]; cbn; lra]).
  assert (ST : forall st, o_s st = [] -> fold_left (opt_round 4 can_B (vset (noise_means 4 can_B (fun _ => 0)) 0 0) 0) choices st = st).
  { intros st Hs. induction choices as [|k l IH]; [reflexivity|]. cbn [fold_left]. replace (opt_round 4 can_B (vset (noise_means 4 can_B (fun _ => 0)) 0 0) 0 st k) with st; [exact IH|]. unfold opt_round. now rewrite Hs. }
  exists 1, 1. split.
  - unfold optimal_intervention. rewrite ST.
    + cbn [o_s o_ex o_alpha]. rewrite (proj2 (filter_nil_iff' _ _)).
      * f_equal. f_equal; unfold rdot, vset; rs; cbn; lra.
      * intros i _. now rewrite RV.
    + cbn [o_s]. apply filter_nil_iff'. intros i _. now rewrite RV.
  - split; [lra|]. unfold propagated_effects, noise_means, rdot. rs. unfold vset. cbn. lra.
Qed.

(** ** Concrete cases *)
(** 0 --> 1 --> 2 and 0 --> 2. *)
Definition tri_B : rmat := fun i j => match i, j with 1%nat, 0%nat => 2 | 2%nat, 1%nat => 3 | 2%nat, 0%nat => 5 | _, _ => 0 end.
Example C129_ex : sharp (1/2) 3 tri_B /\ triangular 3 tri_B /\ follows 3 tri_B [0; 1; 2]%nat /\ no_cancelling_row 3 tri_B.
Proof.
  split; [|split; [|split]].
  - split; [lra|]. intros i j Hi Hj. destruct i as [|[|[|i]]], j as [|[|[|j]]]; cbn; try (now left); right; rewrite Rabs_right; lra.
  - exists (fun i => i). intros i j Hi Hj N. destruct i as [|[|[|i]]], j as [|[|[|j]]]; cbn in N; try lra; lia.
  - split; [reflexivity|]. intros i j Hi Hj N. destruct i as [|[|[|i]]], j as [|[|[|j]]]; cbn in N; try lra; try lia.
    + exists [], [], [2%nat]. reflexivity.
    + exists [], [1%nat], []. reflexivity.
    + exists [0%nat], [], []. reflexivity.
  - intros i Hi H j Hj. destruct i as [|[|[|i]]], j as [|[|[|j]]]; try reflexivity; try lia; exfalso; revert H; rs; cbn; lra.
Qed.
Example C130_ex : total_effect 3 tri_B 0 2 11.
Proof.
  destruct (C130_total_effect 3 tri_B [0; 1; 2]%nat 0) as (T & H1 & H2); [apply C129_ex|lia|]. apply H1; [lia|].
  specialize (H2 (fun _ => 0) 1 0 2%nat ltac:(lia)). revert H2. unfold propagated_effects, rdot. rs. unfold vset. cbn. lra.
Qed.
Print Assumptions C130_total_effect.
Print Assumptions C132_optimal_intervention.
