(** C183 what CALM reports, C184 acyclicity. *)
From Verif Require Import Base GraphModel GraphSpec GraphProofs UtilsModel UtilsProofs BICModel BICProofs EffectModel VARModel VARProofs ChisqProps DsepSpec MBModel MBSpec MBProps CALMModel CALMProofs.
From Coq Require Import Permutation Reals Lra.
Local Open Scope R_scope.

(** *** Specification: the parameters after k rounds of training. *)
Fixpoint after (train : nat -> calm_params -> R -> calm_params) (rho mult : R) (P0 : calm_params) (k : nat) : calm_params :=
  match k with O => P0 | S k' => train k' (after train rho mult P0 k') (rho * mult ^ k') end.
(** An arc is switched on: it is in the moral graph and its probability is at least one half. *)
Definition on (mask : nat -> nat -> bool) (P : calm_params) (i j : nat) : Prop := mask i j = true /\ 0 <= b_logit P i j.

Lemma sigmoid_pos x : 0 < sigmoid x.
Proof. unfold sigmoid. apply Rinv_0_lt_compat. pose proof (exp_pos (- x)). lra. Qed.
Lemma sigmoid_half x : 1 / 2 <= sigmoid x <-> 0 <= x.
Proof.
  unfold sigmoid. pose proof (exp_pos (- x)) as E. replace (1 / 2) with (/ 2) by lra. split; intros H.
  - apply Rinv_le_contravar in H; [|lra]. rewrite !Rinv_inv in H. destruct (Rle_lt_dec 0 x) as [|L]; [assumption|]. pose proof (exp_increasing 0 (- x) ltac:(lra)). rewrite exp_0 in *. lra.
  - apply Rinv_le_contravar; [lra|]. destruct (Req_dec x 0) as [->|N]; [rewrite Ropp_0, exp_0; lra|]. pose proof (exp_increasing (- x) 0 ltac:(lra)). rewrite exp_0 in *. lra.
Qed.
Lemma bin_on mask tau P i j : 0 < tau -> b_bin mask tau P i j = true <-> on mask P i j.
Proof.
  intros T. unfold b_bin, gates, on. destruct (mask i j).
  - destruct (Rlt_dec _ _) as [H|H]; split; try discriminate; intros Q.
    + exfalso. destruct Q as [_ Q]. assert (1 / 2 <= sigmoid (b_logit P i j / tau)); [|lra]. apply sigmoid_half. apply Rmult_le_pos; [exact Q|]. now apply Rlt_le, Rinv_0_lt_compat.
    + split; [reflexivity|]. apply Rnot_lt_le, (proj1 (sigmoid_half _)) in H. apply Rmult_le_reg_r with (/ tau); [now apply Rinv_0_lt_compat|]. unfold Rdiv in H. lra.
    + reflexivity.
  - destruct (Rlt_dec 0 (1 / 2)) as [H|H]; [|lra]. split; [discriminate|]. intros [Q _]; discriminate.
Qed.
Lemma gates_nonneg mask tau P i j : 0 <= gates mask tau P i j.
Proof. unfold gates. destruct (mask i j); [left; apply sigmoid_pos|lra]. Qed.
Lemma loop_spec d mask tau mult htol train rho P0 : forall rounds k, (1 <= rounds)%nat ->
  exists m, (k < m <= k + rounds)%nat /\ calm_loop rounds k d mask tau mult htol train (after train rho mult P0 k) (rho * mult ^ k) = after train rho mult P0 m /\
    (compute_h d (gates mask tau (after train rho mult P0 m)) <= htol \/ 10 ^ 16 < rho * mult ^ m \/ m = (k + rounds)%nat) /\
    forall m', (k < m' < m)%nat -> htol < compute_h d (gates mask tau (after train rho mult P0 m')) /\ rho * mult ^ m' <= 10 ^ 16.
Proof.
  induction rounds as [|r IH]; intros k Hr; [lia|]. cbn [calm_loop]. change (train k (after train rho mult P0 k) (rho * mult ^ k)) with (after train rho mult P0 (S k)).
  replace (rho * mult ^ k * mult) with (rho * mult ^ S k) by (cbn [pow]; ring).
  destruct (Rle_dec _ htol) as [H|H].
  - exists (S k). split; [lia|]. split; [reflexivity|]. split; [now left|]. intros m' Q. lia.
  - destruct (Rlt_dec (10 ^ 16) (rho * mult ^ S k)) as [H2|H2].
    + exists (S k). split; [lia|]. split; [reflexivity|]. split; [right; now left|]. intros m' Q. lia.
    + destruct r as [|r]; [exists (S k); split; [lia|]; split; [reflexivity|]; split; [right; right; lia|intros m' Q; lia]|].
      destruct (IH (S k) ltac:(lia)) as (m & M1 & M2 & M3 & M4). exists m. split; [lia|]. split; [exact M2|]. split; [destruct M3 as [M3|[M3|M3]]; auto; right; right; lia|].
      intros m' Q. destruct (Nat.eq_dec m' (S k)) as [->|Ne]; [lra|apply M4; lia].
Qed.

(** ** C183: the graph and the weights *)
Theorem C183_graph : forall d mask tau rho mult htol train P0, 0 < tau -> (forall a, mask a a = false) -> exists P G W,
  calm d mask tau rho mult htol train P0 = (G, W) /\
  (exists k, (1 <= k <= 100)%nat /\ P = after train rho mult P0 k) /\
  gn G = d /\
  (forall i j, (i < d)%nat -> (j < d)%nat -> (dedge G i j <-> on mask P i j /\ (on mask P j i -> (j < i)%nat))) /\
  (forall i j, (i < d)%nat -> (j < d)%nat -> (gm G i j <> 0%Z <-> dedge G i j \/ dedge G j i)) /\
  (forall i j, (on mask P i j -> W i j = b_param P i j) /\ (~ on mask P i j -> W i j = 0)).
Proof.
  intros d mask tau rho mult htol train P0 T M0. unfold calm. set (P := calm_loop _ _ _ _ _ _ _ _ _ _). exists P, (calm_graph d (b_bin mask tau P)), (b_weighted mask tau P).
  assert (B0 : forall i, b_bin mask tau P i i = false).
  { intros i. destruct (b_bin mask tau P i i) eqn:E; [|reflexivity]. apply bin_on in E; [|exact T]. destruct E as [E _]. rewrite M0 in E. discriminate. }
  destruct (calm_graph_spec d (b_bin mask tau P) B0) as [N GM].
  assert (DE : forall i j, (i < d)%nat -> (j < d)%nat -> (dedge (calm_graph d (b_bin mask tau P)) i j <-> b_bin mask tau P i j = true /\ (b_bin mask tau P j i = true -> (j < i)%nat))).
  { intros i j Hi Hj. unfold dedge. rewrite N, !GM by assumption. destruct (b_bin mask tau P i j) eqn:E1, (b_bin mask tau P j i) eqn:E2; cbn [andb negb];
    destruct (Nat.ltb_spec i j), (Nat.ltb_spec j i); cbn [negb]; try (assert (i = j) by lia; subst; rewrite B0 in E1; discriminate); (split; [intros Q; decompose [and or] Q; try discriminate; try tauto; split; try reflexivity; try (intros; lia); try discriminate|intros [Q1 Q2]; try discriminate; try (specialize (Q2 eq_refl); lia)]); auto 10. }
  split; [reflexivity|]. split.
  { destruct (loop_spec d mask tau mult htol train rho P0 100 0 ltac:(lia)) as (m & M1 & M2 & _). exists m. split; [lia|]. unfold P. cbn [after pow] in M2. rewrite Rmult_1_r in M2. exact M2. }
  split; [exact N|]. split; [|split].
  - intros i j Hi Hj. rewrite DE, !bin_on by assumption. reflexivity.
  - intros i j Hi Hj. rewrite !DE, GM by assumption. destruct (b_bin mask tau P i j) eqn:E1, (b_bin mask tau P j i) eqn:E2; cbn [andb negb]; destruct (Nat.ltb_spec i j); cbn [negb]; (split; [intros Q; try (exfalso; now apply Q)|intros [[Q _]|[Q _]]; discriminate]).
    all: try (left; split; [reflexivity|intros; lia || discriminate]); try (right; split; [reflexivity|intros; lia || discriminate]).
    all: try (left; split; [reflexivity|]; intros _; destruct (Nat.eq_dec i j) as [->|]; [congruence|lia]).
  - intros i j. unfold b_weighted. rewrite <- (bin_on mask tau P i j T). destruct (b_bin mask tau P i j); split; intros Q; try lra; try discriminate; now contradiction Q.
Qed.

(** With the moral graph of a DAG (a perfect test), every reported arc joins two variables that are adjacent or have a common child. *)
Theorem C183_within_moral_graph : forall g pv alpha fuel tau rho mult htol train P0, dag g -> dsep_test g pv alpha -> (gn g <= fuel)%nat -> 0 < tau ->
  exists mask num, iamb_markov_network pv alpha (gn g) fuel = Ret (mask, num) /\
    forall i j, (i < gn g)%nat -> (j < gn g)%nat -> dedge (fst (calm (gn g) mask tau rho mult htol train P0)) i j ->
      i <> j /\ (dedge g i j \/ dedge g j i \/ exists c, dedge g i c /\ dedge g j c).
Proof.
  intros g pv alpha fuel tau rho mult htol train P0 Dg O F T. destruct (C103_network_is_the_moral_graph g pv alpha fuel Dg O F) as (mask & num & E & H). exists mask, num. split; [exact E|].
  intros i j Hi Hj D. assert (M0 : forall a, mask a a = false) by (intros a; destruct (mask a a) eqn:Q; [apply H in Q; destruct Q as [Q _]; now contradiction Q|reflexivity]).
  destruct (C183_graph (gn g) mask tau rho mult htol train P0 T M0) as (P & G & W & EQ & _ & _ & HD & _). rewrite EQ in D. cbn [fst] in D. apply HD in D; [|assumption|assumption]. apply H. apply D.
Qed.
(** Both directions on: only the arc to the smaller index is in the graph, but both are in the weights. *)
Theorem C183_weights_disagree_refuted : exists d mask tau rho mult htol train P0 G W, 0 < tau /\ (forall a b, mask a b = mask b a) /\ (forall a, mask a a = false) /\
  calm d mask tau rho mult htol train P0 = (G, W) /\ W 0%nat 1%nat <> 0 /\ W 1%nat 0%nat <> 0 /\ ~ dedge G 0%nat 1%nat.
Proof.
  set (mask := fun a b => negb (Nat.eqb a b)). set (P1 := mkCalm (fun _ _ => 1) (fun _ _ => 0)). set (tr := fun (_ : nat) (_ : calm_params) (_ : R) => P1).
  assert (M0 : forall a, mask a a = false) by (intros; unfold mask; now rewrite Nat.eqb_refl).
  destruct (C183_graph 2 mask 1 1 3 1 tr P1 ltac:(lra) M0) as (P & G & W & EQ & (k & Hk & EP) & _ & HD & _ & HW).
  assert (E1 : P = P1) by (rewrite EP; destruct k; reflexivity). rewrite E1 in HD, HW.
  assert (O1 : on mask P1 0%nat 1%nat) by (split; [reflexivity|cbn; lra]). assert (O2 : on mask P1 1%nat 0%nat) by (split; [reflexivity|cbn; lra]).
  exists 2%nat, mask, 1, 1, 3, 1, tr, P1, G, W. split; [lra|]. split; [intros; unfold mask; now rewrite Nat.eqb_sym|]. split; [exact M0|]. split; [exact EQ|].
  rewrite (proj1 (HW _ _) O1), (proj1 (HW _ _) O2). cbn [b_param P1]. split; [lra|]. split; [lra|]. intros D. apply HD in D; [|lia|lia]. destruct D as [_ D]. specialize (D O2). lia.
Qed.

(** ** C184: acyclicity *)
(** The constraint of a nonnegative matrix is nonnegative, and zero exactly if the matrix has no cycle. *)
Theorem C184_constraint : forall d B, (forall i j, (i < d)%nat -> (j < d)%nat -> 0 <= B i j) ->
  0 <= compute_h d B /\ (compute_h d B = 0 <-> acyclic (fun i j => (i < d)%nat /\ (j < d)%nat /\ B i j <> 0)).
Proof.
  intros d B NN. unfold compute_h, matrix_poly. set (A := fun i j => B i j / INR d). change (fun i j : nat => eye i j + B i j / INR d) with (fun i j => eye i j + A i j).
  assert (DP : forall i, (i < d)%nat -> 0 < / INR d) by (intros i Hi; apply Rinv_0_lt_compat, lt_0_INR; lia).
  assert (NA : forall i j, (i < d)%nat -> (j < d)%nat -> 0 <= A i j) by (intros i j Hi Hj; unfold A; apply Rmult_le_pos; [now apply NN|left; now apply (DP i)]).
  assert (SUP : forall i j, support d A i j <-> (i < d)%nat /\ (j < d)%nat /\ B i j <> 0).
  { intros i j. unfold support, A. split; intros (Hi & Hj & H); repeat split; try assumption; intros Q; apply H; [rewrite Q; unfold Rdiv; lra|]. apply Rmult_integral in Q. pose proof (DP i Hi). destruct Q; [assumption|lra]. }
  set (f := fun i => mpow d (fun i j => eye i j + A i j) d i i).
  assert (GE : forall i, In i (seq 0 d) -> 0 <= f i - 1) by (intros i Hi; apply in_seq0 in Hi; pose proof (pow_ge_eye d A NA d i i Hi Hi) as Q; rewrite eye_same in Q; unfold f; lra).
  assert (ES : rsum f (seq 0 d) - INR d = rsum (fun i => f i - 1) (seq 0 d)) by (rewrite rsum_minus, rsum_const, seq_length; lra).
  rewrite ES. destruct (rsum_nonneg (fun i => f i - 1) (seq 0 d) GE) as [G1 G2]. split; [exact G1|]. rewrite G2. split.
  - intros Z v (c & H1 & H2). assert (Q1 : reach1 (support d A) v v) by (exists c; split; [now apply SUP|]; eapply reach_mono; [|exact H2]; intros x y Q; now apply SUP).
    destruct (simple_cycle (support d A) d v) as (p & ND & NE & IN & LE & ST); [unfold support; tauto|exact Q1|]. destruct p as [|x p]; [now apply NE|]. specialize (ST x (or_introl eq_refl)). specialize (IN x (or_introl eq_refl)).
    cbn [length] in ST, LE. inversion ST as [|? ? y ? S1 E]; subst. destruct d as [|d']; [lia|]. pose proof (pow_support (S d') A NA (length p) x y S1 IN d' ltac:(lia)) as PP. destruct E as (Hy & _ & Nz).
    pose proof (pow_step (S d') A NA d' x x y IN IN Hy) as PS. pose proof (pow_ge_eye (S d') A NA d' x x IN IN) as PE. rewrite eye_same in PE.
    assert (0 < A y x) by (pose proof (NA y x Hy IN); lra). assert (0 < mpow (S d') (fun i j => eye i j + A i j) d' x y * A y x) by (now apply Rmult_lt_0_compat). specialize (Z x ltac:(now apply in_seq0)). unfold f in Z. lra.
  - intros Ac i Hi. apply in_seq0 in Hi. unfold f. rewrite (pow_diag_acyclic d A d i); [lra| |exact Hi].
    intros v (c & H1 & H2). apply (Ac v). exists c. split; [now apply SUP|]. eapply reach_mono; [|exact H2]. intros x y Q. now apply SUP.
Qed.
(** How training ends. *)
Theorem C184_stopping : forall d mask tau rho mult htol train P0, exists k, (1 <= k <= 100)%nat /\
  calm d mask tau rho mult htol train P0 = (calm_graph d (b_bin mask tau (after train rho mult P0 k)), b_weighted mask tau (after train rho mult P0 k)) /\
  (compute_h d (gates mask tau (after train rho mult P0 k)) <= htol \/ 10 ^ 16 < rho * mult ^ k \/ k = 100%nat) /\
  forall k', (1 <= k' < k)%nat -> htol < compute_h d (gates mask tau (after train rho mult P0 k')) /\ rho * mult ^ k' <= 10 ^ 16.
Proof.
  intros d mask tau rho mult htol train P0. destruct (loop_spec d mask tau mult htol train rho P0 100 0 ltac:(lia)) as (k & K1 & K2 & K3 & K4). cbn [after pow] in K2. rewrite Rmult_1_r in K2.
  exists k. split; [lia|]. unfold calm. rewrite K2. split; [reflexivity|]. split; [exact K3|]. intros k' Q. apply K4. lia.
Qed.
(** If the constraint is met within the tolerance, a cycle through L variables in the graph is only possible when L * C(d, L) <= htol * (2 d)^L. *)
Lemma cycle_h d mask tau P v : 0 < tau -> (forall a, mask a a = false) -> reach1 (fun i j => (i < d)%nat /\ (j < d)%nat /\ on mask P i j) v v ->
  exists L, (2 <= L <= d)%nat /\ INR L * C d L <= compute_h d (gates mask tau P) * (2 * INR d) ^ L.
Proof.
  intros T M0 RV. set (E := fun i j => (i < d)%nat /\ (j < d)%nat /\ on mask P i j) in *. destruct (simple_cycle E d v) as (p & ND & NE & IN & LE & ST); [unfold E; tauto|exact RV|].
  exists (length p). assert (L0 : length p <> 0%nat) by (now destruct p). assert (L1 : length p <> 1%nat).
  { intros Q. destruct p as [|x [|]]; try discriminate. specialize (ST x (or_introl eq_refl)). cbn [length] in ST. inversion ST as [|? ? y ? S1 E1]; subst. inversion S1; subst. destruct E1 as (_ & _ & (E1 & _)). rewrite M0 in E1. discriminate. }
  split; [lia|]. assert (DP : 0 < INR d) by (apply lt_0_INR; lia). set (c := / (2 * INR d)). assert (CP : 0 < c) by (apply Rinv_0_lt_compat; lra).
  unfold compute_h, matrix_poly. set (A := fun i j => gates mask tau P i j / INR d). change (fun i j : nat => eye i j + gates mask tau P i j / INR d) with (fun i j => eye i j + A i j).
  assert (NA : forall i j, (i < d)%nat -> (j < d)%nat -> 0 <= A i j) by (intros i j Hi Hj; unfold A; apply Rmult_le_pos; [apply gates_nonneg|left; now apply Rinv_0_lt_compat]).
  assert (EC : forall x y, E x y -> c <= A x y).
  { intros x y (_ & _ & O). apply (bin_on mask tau P x y T) in O. unfold b_bin in O. destruct (Rlt_dec _ _) as [|G]; [discriminate|]. unfold A, c. rewrite Rinv_mult. apply Rmult_le_compat_r; [left; now apply Rinv_0_lt_compat|lra]. }
  pose proof (trace_cycle d A NA c E ltac:(lra) ltac:(unfold E; tauto) EC p ND IN LE ST) as TC.
  assert (PW : 0 < (2 * INR d) ^ length p) by (apply pow_lt; lra).
  apply Rle_trans with (INR (length p) * (C d (length p) * c ^ length p) * (2 * INR d) ^ length p); [|apply Rmult_le_compat_r; lra].
  right. replace (INR (length p) * (C d (length p) * c ^ length p) * (2 * INR d) ^ length p) with (INR (length p) * C d (length p) * (c ^ length p * (2 * INR d) ^ length p)) by ring.
  rewrite <- Rpow_mult_distr. unfold c. rewrite Rinv_l by lra. rewrite pow1. ring.
Qed.
Theorem C184_dag_partial : forall d mask tau rho mult htol train P0, 0 < tau -> (forall a, mask a a = false) ->
  (forall k, (1 <= k <= 100)%nat -> compute_h d (gates mask tau (after train rho mult P0 k)) <= htol \/ rho * mult ^ k <= 10 ^ 16 /\ (k < 100)%nat) ->
  (forall L, (2 <= L <= d)%nat -> htol * (2 * INR d) ^ L < INR L * C d L) ->
  let '(G, W) := calm d mask tau rho mult htol train P0 in
  acyclic (dedge G) /\ forall i j, (i < d)%nat -> (j < d)%nat -> W i j <> 0 -> dedge G i j.
Proof.
  intros d mask tau rho mult htol train P0 T M0 CV SM. destruct (C183_graph d mask tau rho mult htol train P0 T M0) as (P' & G & W & EQ & _ & GN & _).
  destruct (C184_stopping d mask tau rho mult htol train P0) as (k & Hk & EK & HS & _). rewrite EQ in *. set (P := after train rho mult P0 k) in *.
  assert (HH : compute_h d (gates mask tau P) <= htol) by (destruct (CV k Hk) as [Q|[Q1 Q2]]; [exact Q|]; destruct HS as [Q|[Q|Q]]; [exact Q|lra|lia]).
  assert (AC : acyclic (fun i j => (i < d)%nat /\ (j < d)%nat /\ on mask P i j)).
  { intros v RV. destruct (cycle_h d mask tau P v T M0 RV) as (L & HL & HC). specialize (SM L HL). assert (PW : 0 < (2 * INR d) ^ L) by (apply pow_lt; assert (0 < INR d) by (apply lt_0_INR; lia); lra).
    assert (compute_h d (gates mask tau P) * (2 * INR d) ^ L <= htol * (2 * INR d) ^ L) by (apply Rmult_le_compat_r; lra). lra. }
  injection EK as EG EW. assert (B0 : forall i, b_bin mask tau P i i = false) by (intros i; destruct (b_bin mask tau P i i) eqn:E; [|reflexivity]; apply bin_on in E; [|exact T]; destruct E as [E _]; rewrite M0 in E; discriminate).
  destruct (calm_graph_spec d (b_bin mask tau P) B0) as [N GM].
  assert (DO : forall i j, dedge G i j -> (i < d)%nat /\ (j < d)%nat /\ on mask P i j).
  { intros i j (Hi & Hj & H). rewrite GN in *. split; [exact Hi|]. split; [exact Hj|]. apply (bin_on mask tau P i j T). rewrite EG, !GM in H by assumption.
    destruct (b_bin mask tau P i j); [reflexivity|]. cbn [andb] in H. destruct (b_bin mask tau P j i); decompose [and or] H; discriminate. }
  split.
  - intros v (c & H1 & H2). apply (AC v). exists c. split; [now apply DO|]. eapply reach_mono; [|exact H2]. exact DO.
  - intros i j Hi Hj NW. rewrite EW in NW. unfold b_weighted in NW. destruct (b_bin mask tau P i j) eqn:E1; [|lra]. unfold dedge. rewrite GN, EG, !GM by assumption. rewrite E1.
    destruct (b_bin mask tau P j i) eqn:E2; [|cbn; auto]. exfalso. apply (AC i). exists j. apply bin_on in E1, E2; try exact T. split; [auto|]. apply reach_one. auto.
Qed.
(** With the default tolerance 1e-8 this covers up to seven variables. *)
Theorem C184_up_to_seven_variables_partial : forall d mask tau rho mult train P0, (d <= 7)%nat -> 0 < tau -> (forall a, mask a a = false) ->
  (forall k, (1 <= k <= 100)%nat -> compute_h d (gates mask tau (after train rho mult P0 k)) <= / 10 ^ 8 \/ rho * mult ^ k <= 10 ^ 16 /\ (k < 100)%nat) ->
  let '(G, W) := calm d mask tau rho mult (/ 10 ^ 8) train P0 in
  acyclic (dedge G) /\ forall i j, (i < d)%nat -> (j < d)%nat -> W i j <> 0 -> dedge G i j.
Proof.
  intros d mask tau rho mult train P0 Hd T M0 CV. apply C184_dag_partial; [exact T|exact M0|exact CV|]. clear - Hd. intros L HL.
  assert (Q : forallb (fun d => forallb (fun L => Nat.ltb d L || ((2 * Z.of_nat d) ^ Z.of_nat L * Z.of_nat (fact L * fact (d - L)) <? 10 ^ 8 * Z.of_nat L * Z.of_nat (fact d))%Z) (seq 2 6)) (seq 0 8) = true) by (vm_compute; reflexivity).
  rewrite forallb_forall in Q. specialize (Q d ltac:(apply in_seq; lia)). rewrite forallb_forall in Q. specialize (Q L ltac:(apply in_seq; lia)).
  apply orb_prop in Q. destruct Q as [Q|Q]; [apply Nat.ltb_lt in Q; lia|]. apply Z.ltb_lt, IZR_lt in Q. rewrite !mult_IZR, <- !INR_IZR_INZ, <- pow_IZR, mult_IZR, <- INR_IZR_INZ, mult_INR in Q. change (IZR (10 ^ 8)) with 100000000 in Q.
  unfold C. pose proof (INR_fact_lt_0 L) as F1. pose proof (INR_fact_lt_0 (d - L)) as F2. set (f := INR (fact L) * INR (fact (d - L))) in *. assert (FP : 0 < f) by (unfold f; now apply Rmult_lt_0_compat).
  apply Rmult_lt_reg_r with f; [exact FP|]. replace (INR L * (INR (fact d) / f) * f) with (INR L * INR (fact d)) by (field; lra). replace (10 ^ 8) with 100000000 by ring. lra.
Qed.

(** *** Eight variables on a ring: each arc i -> i + 1 has probability one half, the reverse arcs 2^-40. *)
Definition ring_mask (i j : nat) : bool := (Nat.ltb i 8 && Nat.ltb j 8 && (Nat.eqb j ((i + 1) mod 8) || Nat.eqb i ((j + 1) mod 8)))%bool.
Definition ring_P : calm_params := mkCalm (fun _ _ => 1) (fun i j => if Nat.eqb j ((i + 1) mod 8) then 0 else - ln (IZR (2 ^ 40 - 1))).
Definition ring_z (i j : nat) : Z := if Nat.eqb i j then (2 ^ 43)%Z else if Nat.eqb j ((i + 1) mod 8) then (2 ^ 39)%Z else if Nat.eqb i ((j + 1) mod 8) then 1%Z else 0%Z.
Definition ztab (f : nat -> nat -> Z) : list (list Z) := map (fun i => map (f i) (seq 0 8)) (seq 0 8).
Definition zget (t : list (list Z)) (i j : nat) : Z := nth j (nth i t []) 0%Z.
Definition zsum (f : nat -> Z) (l : list nat) : Z := fold_right Z.add 0%Z (map f l).
Fixpoint zpow (m : nat) : list (list Z) := match m with O => ztab (fun i j => if Nat.eqb i j then 1%Z else 0%Z) | S m' => let t := zpow m' in ztab (fun i j => zsum (fun k => (zget t i k * ring_z k j)%Z) (seq 0 8)) end.
Lemma zget_tab f i j : (i < 8)%nat -> (j < 8)%nat -> zget (ztab f) i j = f i j.
Proof. intros Hi Hj. do 8 (destruct i as [|i]; [do 8 (destruct j as [|j]; [reflexivity|]); lia|]). lia. Qed.
Lemma zsum_IZR f l : IZR (zsum f l) = rsum (fun k => IZR (f k)) l.
Proof. induction l as [|x l IH]; [reflexivity|]. rewrite rsum_cons, <- IH. unfold zsum. cbn [map fold_right]. apply plus_IZR. Qed.
Lemma zpow_ok (A : rmat) : (forall i j, (i < 8)%nat -> (j < 8)%nat -> A i j * IZR (2 ^ 43) = IZR (ring_z i j)) ->
  forall m i j, (i < 8)%nat -> (j < 8)%nat -> mpow 8 A m i j * IZR (2 ^ 43) ^ m = IZR (zget (zpow m) i j).
Proof.
  intros HA. induction m as [|m IH]; intros i j Hi Hj.
  - cbn [zpow mpow pow]. rewrite zget_tab by assumption. unfold eye. destruct (Nat.eqb i j); ring.
  - cbn [zpow mpow]. rewrite zget_tab, zsum_IZR by assumption. unfold mmul. rewrite Rmult_comm, <- rsum_mult. apply rsum_ext. intros k Hk. apply in_seq0 in Hk. rewrite mult_IZR, <- IH, <- HA by assumption. cbn [pow]. ring.
Qed.
Lemma sig_0 : sigmoid 0 = / 2. Proof. unfold sigmoid. rewrite Ropp_0, exp_0. f_equal. Qed.
Lemma sig_40 : sigmoid (- ln (IZR (2 ^ 40 - 1))) = / IZR (2 ^ 40).
Proof. unfold sigmoid. rewrite Ropp_involutive, exp_ln by (apply IZR_lt; reflexivity). f_equal. rewrite <- plus_IZR. reflexivity. Qed.
Lemma ring_gates i j : (i < 8)%nat -> (j < 8)%nat -> (eye i j + gates ring_mask 1 ring_P i j / INR 8) * IZR (2 ^ 43) = IZR (ring_z i j).
Proof.
  intros Hi Hj. unfold gates, ring_P, ring_mask, ring_z, eye. cbn [b_logit]. rewrite (proj2 (Nat.ltb_lt i 8) Hi), (proj2 (Nat.ltb_lt j 8) Hj). cbn [andb]. replace (INR 8) with 8 by (cbn; ring).
  destruct (Nat.eqb_spec i j) as [->|N].
  - assert (Q : Nat.eqb j ((j + 1) mod 8) = false) by (clear Hi; do 8 (destruct j as [|j]; [reflexivity|]); lia). rewrite Q. cbn [orb]. lra.
  - destruct (Nat.eqb j ((i + 1) mod 8)); cbn [orb]; [replace (0 / 1) with 0 by field; rewrite sig_0; change (2 ^ 43)%Z with (2 ^ 39 * 16)%Z; rewrite mult_IZR; field|].
    destruct (Nat.eqb i ((j + 1) mod 8)); [|lra]. unfold Rdiv at 2. rewrite Rinv_1, Rmult_1_r, sig_40. change (2 ^ 43)%Z with (2 ^ 40 * 8)%Z. rewrite mult_IZR. field. apply not_0_IZR. discriminate.
Qed.
Lemma ring_h : compute_h 8 (gates ring_mask 1 ring_P) <= / 10 ^ 8.
Proof.
  unfold compute_h, matrix_poly. set (s := IZR (2 ^ 43) ^ 8). assert (SE : s = IZR ((2 ^ 43) ^ 8)) by (unfold s; rewrite pow_IZR; reflexivity).
  assert (SP : 0 < s) by (rewrite SE; apply IZR_lt; reflexivity).
  assert (TR : rsum (fun i => mpow 8 (fun i j => eye i j + gates ring_mask 1 ring_P i j / INR 8) 8 i i) (seq 0 8) * s = IZR (zsum (fun i => zget (zpow 8) i i) (seq 0 8))).
  { rewrite Rmult_comm, <- rsum_mult, zsum_IZR. apply rsum_ext. intros i Hi. apply in_seq0 in Hi. rewrite Rmult_comm. apply (zpow_ok _ ring_gates); assumption. }
  assert (TC : (zsum (fun i => zget (zpow 8) i i) (seq 0 8) * 100000000 <= (800000001) * (2 ^ 43) ^ 8)%Z) by (vm_compute; discriminate).
  apply IZR_le in TC. rewrite !mult_IZR, <- TR, <- SE in TC. clear TR. set (X := rsum _ _) in *. clearbody X s. replace (INR 8) with 8 by (cbn; ring). apply Rmult_le_reg_r with (s * 100000000); [lra|]. replace (/ 10 ^ 8) with (/ 100000000) by (f_equal; ring). lra.
Qed.
Theorem C184_eight_variables_refuted : exists mask tau rho mult train P0 G W, 0 < tau /\ (forall a b, mask a b = mask b a) /\ (forall a, mask a a = false) /\
  compute_h 8 (gates mask tau (after train rho mult P0 1)) <= / 10 ^ 8 /\
  calm 8 mask tau rho mult (/ 10 ^ 8) train P0 = (G, W) /\ ~ acyclic (dedge G).
Proof.
  set (tr := fun (_ : nat) (_ : calm_params) (_ : R) => ring_P).
  assert (M0 : forall a, ring_mask a a = false) by (intros a; do 8 (destruct a as [|a]; [reflexivity|]); reflexivity).
  destruct (C183_graph 8 ring_mask 1 1 3 (/ 10 ^ 8) tr ring_P ltac:(lra) M0) as (P & G & W & EQ & (k & Hk & EP) & GN & HD & _).
  assert (E1 : P = ring_P) by (rewrite EP; destruct k; reflexivity). rewrite E1 in HD.
  exists ring_mask, 1, 1, 3, tr, ring_P, G, W. split; [lra|].
  split; [intros a b; unfold ring_mask; rewrite (andb_comm (Nat.ltb a 8)), (orb_comm (Nat.eqb b _)); reflexivity|]. split; [exact M0|]. split; [exact ring_h|]. split; [exact EQ|].
  assert (ST : forall i, (i < 8)%nat -> dedge G i ((i + 1) mod 8)).
  { intros i Hi. pose proof (Nat.mod_upper_bound (i + 1) 8 ltac:(lia)) as U. apply HD; [exact Hi|exact U|]. split.
    - split; [unfold ring_mask; rewrite (proj2 (Nat.ltb_lt i 8) Hi), (proj2 (Nat.ltb_lt _ 8) U), Nat.eqb_refl; reflexivity|]. cbn [b_logit ring_P]. rewrite Nat.eqb_refl. lra.
    - intros [_ Q]. exfalso. cbn [b_logit ring_P] in Q. assert (F : Nat.eqb i (((i + 1) mod 8 + 1) mod 8) = false) by (clear - Hi; do 8 (destruct i as [|i]; [reflexivity|]); lia). rewrite F in Q.
      assert (0 < ln (IZR (2 ^ 40 - 1))); [|lra]. rewrite <- ln_1. apply ln_increasing; [lra|]. apply IZR_lt. reflexivity. }
  intros AC. apply (AC 0%nat). exists 1%nat. split; [exact (ST 0%nat ltac:(lia))|].
  apply (reach_step _ _ 2%nat _ (ST 1%nat ltac:(lia))), (reach_step _ _ 3%nat _ (ST 2%nat ltac:(lia))), (reach_step _ _ 4%nat _ (ST 3%nat ltac:(lia))), (reach_step _ _ 5%nat _ (ST 4%nat ltac:(lia))), (reach_step _ _ 6%nat _ (ST 5%nat ltac:(lia))), (reach_step _ _ 7%nat _ (ST 6%nat ltac:(lia))), reach_one. exact (ST 7%nat ltac:(lia)).
Qed.
(** Training that never meets the constraint: the cyclic graph is returned all the same. *)
Definition tri_P : calm_params := mkCalm (fun _ _ => 1) (fun i j => if Nat.eqb j ((i + 1) mod 3) then 0 else -1).
Theorem C184_unconverged_refuted : exists d mask tau rho mult train P0 G W, 0 < tau /\ (forall a b, mask a b = mask b a) /\ (forall a, mask a a = false) /\
  calm d mask tau rho mult (/ 10 ^ 8) train P0 = (G, W) /\ ~ acyclic (dedge G).
Proof.
  set (mask := fun a b => negb (Nat.eqb a b)). set (tr := fun (_ : nat) (_ : calm_params) (_ : R) => tri_P). assert (M0 : forall a, mask a a = false) by (intros a; unfold mask; now rewrite Nat.eqb_refl).
  destruct (C183_graph 3 mask 1 (1 / 100000) 3 (/ 10 ^ 8) tr tri_P ltac:(lra) M0) as (P & G & W & EQ & (k & Hk & EP) & GN & HD & _).
  assert (E1 : P = tri_P) by (rewrite EP; destruct k; reflexivity). rewrite E1 in HD.
  exists 3%nat, mask, 1, (1 / 100000), 3, tr, tri_P, G, W. split; [lra|]. split; [intros a b; unfold mask; now rewrite Nat.eqb_sym|]. split; [exact M0|]. split; [exact EQ|].
  assert (D1 : dedge G 0%nat 1%nat) by (apply HD; [lia|lia|]; split; [split; [reflexivity|cbn; lra]|intros [_ Q]; cbn in Q; lra]).
  assert (D2 : dedge G 1%nat 2%nat) by (apply HD; [lia|lia|]; split; [split; [reflexivity|cbn; lra]|intros [_ Q]; cbn in Q; lra]).
  assert (D3 : dedge G 2%nat 0%nat) by (apply HD; [lia|lia|]; split; [split; [reflexivity|cbn; lra]|intros [_ Q]; cbn in Q; lra]).
  intros AC. apply (AC 0%nat). exists 1%nat. split; [exact D1|]. now apply (reach_step _ _ 2%nat _ D2), reach_one.
Qed.

(** ** Concrete cases *)
(** Two variables, the arc 0 -> 1 has probability one half and its reverse 2^-40: the constraint is met and the graph is 0 -> 1. *)
Definition two_mask (i j : nat) : bool := negb (Nat.eqb i j).
Definition two_P : calm_params := mkCalm (fun _ _ => 1) (fun i j => if Nat.ltb i j then 0 else - ln (IZR (2 ^ 40 - 1))).
Lemma two_h : compute_h 2 (gates two_mask 1 two_P) <= / 10 ^ 8.
Proof.
  assert (G01 : gates two_mask 1 two_P 0%nat 1%nat = / 2) by (unfold gates, two_P; cbn [two_mask negb Nat.eqb b_logit Nat.ltb Nat.leb]; replace (0 / 1) with 0 by field; exact sig_0).
  assert (G10 : gates two_mask 1 two_P 1%nat 0%nat = / IZR (2 ^ 40)) by (unfold gates, two_P; cbn [two_mask negb Nat.eqb b_logit Nat.ltb Nat.leb]; unfold Rdiv; rewrite Rinv_1, Rmult_1_r; exact sig_40).
  assert (G00 : gates two_mask 1 two_P 0%nat 0%nat = 0) by reflexivity. assert (G11 : gates two_mask 1 two_P 1%nat 1%nat = 0) by reflexivity.
  unfold compute_h, matrix_poly, rsum, mpow, mmul, eye. cbn [seq map fold_right]. unfold rsum. cbn [seq map fold_right Nat.eqb INR]. rewrite G00, G01, G10, G11. change (2 ^ 40)%Z with 1099511627776%Z. replace (/ 10 ^ 8) with (/ 100000000) by (f_equal; ring). lra.
Qed.
Example C184_ex : let train := fun (_ : nat) (_ : calm_params) (_ : R) => two_P in
  (forall k, (1 <= k <= 100)%nat -> compute_h 2 (gates two_mask 1 (after train (1 / 100000) 3 two_P k)) <= / 10 ^ 8) /\
  let G := fst (calm 2 two_mask 1 (1 / 100000) 3 (/ 10 ^ 8) train two_P) in acyclic (dedge G) /\ dedge G 0%nat 1%nat.
Proof.
  intros train. assert (H : forall k, (1 <= k <= 100)%nat -> compute_h 2 (gates two_mask 1 (after train (1 / 100000) 3 two_P k)) <= / 10 ^ 8).
  { intros k Hk. destruct k as [|k]; [lia|]. exact two_h. }
  split; [exact H|].
  assert (M0 : forall a, two_mask a a = false) by (intros a; unfold two_mask; now rewrite Nat.eqb_refl).
  pose proof (C184_up_to_seven_variables_partial 2 two_mask 1 (1 / 100000) 3 train two_P ltac:(lia) ltac:(lra) M0 (fun k Hk => or_introl (H k Hk))) as Q.
  destruct (C183_graph 2 two_mask 1 (1 / 100000) 3 (/ 10 ^ 8) train two_P ltac:(lra) M0) as (P & G & W & EQ & (k & Hk & EP) & GN & HD & _).
  rewrite EQ in *. cbn [fst]. split; [apply Q|]. assert (E1 : P = two_P) by (rewrite EP; destruct k; reflexivity). rewrite E1 in HD. apply HD; [lia|lia|]. split; [split; [reflexivity|cbn; lra]|].
  intros [_ L]. exfalso. cbn [b_logit two_P Nat.ltb Nat.leb] in L. assert (0 < ln (IZR (2 ^ 40 - 1))); [|lra]. rewrite <- ln_1. apply ln_increasing; [lra|]. apply IZR_lt. reflexivity.
Qed.
