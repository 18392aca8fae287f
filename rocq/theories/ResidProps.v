(** C256, C257: the residuals the tests of RCD look at. *)
From Verif Require Import Base UtilsModel UtilsProofs BICModel BICProofs EffectModel EffectProofs ChisqProps DLModel DLProofs DLProps LutilModel LutilProps ResidModel.
From Coq Require Import Reals Psatz.
Local Open Scope R_scope.

Lemma fold_set_column (f : nat -> rvec) U : forall Y0 j, fold_left (fun Y x => set_column Y x (f x)) U Y0 j = if memb j U then f j else Y0 j.
Proof.
  induction U as [|x U IH]; intros Y0 j; [reflexivity|]. cbn [fold_left]. rewrite IH. unfold set_column. cbn [memb existsb]. unfold memb.
  destruct (existsb (Nat.eqb j) U); [now rewrite orb_true_r|]. rewrite orb_false_r. destruct (Nat.eqb_spec j x) as [->|]; reflexivity.
Qed.
Lemma residual_matrix_spec keep ols n X U H j : H <> [] ->
  residual_matrix keep ols n X U H j = if memb j U then (fun s => keep (resid ols n X j H s)) else (fun _ => 0).
Proof. intros N. unfold residual_matrix. destruct H; [congruence|]. apply fold_set_column. Qed.

(** On floats: for a variable of U, what is left after the known common ancestors H has mean zero, is orthogonal to each of them, and no
    other combination leaves less; without common ancestors the tests see the data itself. *)
Theorem C256_residuals : forall ols n X U H j, normal_equations ols n (map X H) -> In j U -> let Y := residual_matrix same ols n X U H in
  (H = [] -> Y j = X j) /\
  (H <> [] -> rsum (Y j) (seq 0 n) = 0 /\ (forall k, In k H -> rsum (fun s => Y j s * X k s) (seq 0 n) = 0) /\
    forall c, rsum (fun s => (Y j s) ^ 2) (seq 0 n) <= rsum (fun s => (X j s - fitted (map X H) c s) ^ 2) (seq 0 n)).
Proof.
  intros ols n X U H j HO Hj Y. split; [intros ->; reflexivity|]. intros N. unfold Y. rewrite residual_matrix_spec by exact N. rewrite (proj2 (memb_In j U) Hj).
  unfold same, resid. destruct (HO (X j)) as [H0 HX]. cbv zeta in H0, HX. split; [exact H0|]. split; [intros k Hk; apply HX, in_map, Hk|]. intros c.
  set (cols := map X H) in *. set (c0 := ols n cols (X j)) in *.
  assert (O : orthogonal n cols (fun s => X j s - fitted cols c0 s)) by (split; assumption).
  rewrite (rsum_ext (fun s => (X j s - fitted cols c s) ^ 2) (fun s => (X j s - fitted cols c0 s) ^ 2 + 2 * ((X j s - fitted cols c0 s) * fitted cols (fst c0 - fst c, fun k => snd c0 k - snd c k) s) + (fitted cols (fst c0 - fst c, fun k => snd c0 k - snd c k) s) ^ 2)).
  - rewrite !rsum_plus, rsum_mult, (orthogonal_fitted n cols _ _ O).
    pose proof (proj1 (rsum_nonneg (fun s => fitted cols (fst c0 - fst c, fun k => snd c0 k - snd c k) s ^ 2) (seq 0 n) ltac:(intros; apply pow2_ge_0))). lra.
  - intros s _. rewrite <- fitted_minus. ring.
Qed.
Print Assumptions C256_residuals.

(** The residuals do not depend on the order in which the set of ancestors is listed, nor on which solution of the normal equations the
    regression returns (there are several if ancestors are collinear). *)
Theorem C256_order_and_solver : forall ols ols' n X j H H', normal_equations ols n (map X H) -> normal_equations ols' n (map X H') -> (forall k, In k H <-> In k H') ->
  forall s, (s < n)%nat -> resid ols n X j H s = resid ols' n X j H' s.
Proof.
  intros ols ols' n X j H H' HO HO' E s Hs. unfold resid. destruct (HO (X j)) as [A0 A]. destruct (HO' (X j)) as [B0 B]. cbv zeta in *.
  set (f := fitted (map X H) (ols n (map X H) (X j))) in *. set (f' := fitted (map X H') (ols' n (map X H') (X j))) in *.
  assert (EM : forall x, In x (map X H) <-> In x (map X H')) by (intros x; rewrite !in_map_iff; split; intros (k & K1 & K2); exists k; split; auto; now apply E).
  assert (O1 : orthogonal n (map X H) (fun s => X j s - f s)) by (split; auto). assert (O1' : orthogonal n (map X H') (fun s => X j s - f s)) by (split; [auto|intros x Hx; apply A, EM, Hx]).
  assert (O2 : orthogonal n (map X H') (fun s => X j s - f' s)) by (split; auto). assert (O2' : orthogonal n (map X H) (fun s => X j s - f' s)) by (split; [auto|intros x Hx; apply B, EM, Hx]).
  assert (Z : rsum (fun s => ((X j s - f s) - (X j s - f' s)) ^ 2) (seq 0 n) = 0).
  { rewrite (rsum_ext _ (fun s => ((X j s - f s) * f' s - (X j s - f s) * f s) - ((X j s - f' s) * f' s - (X j s - f' s) * f s))) by (intros; ring).
    rewrite !rsum_minus.
    pose proof (orthogonal_fitted n _ _ (ols' n (map X H') (X j)) O1') as Q1. pose proof (orthogonal_fitted n _ _ (ols n (map X H) (X j)) O1) as Q2.
    pose proof (orthogonal_fitted n _ _ (ols' n (map X H') (X j)) O2) as Q3. pose proof (orthogonal_fitted n _ _ (ols n (map X H) (X j)) O2') as Q4.
    fold f f' in Q1, Q2, Q3, Q4. cbv beta in Q1, Q2, Q3, Q4. rewrite Q1, Q2, Q3, Q4. ring. }
  destruct (rsum_nonneg (fun s => ((X j s - f s) - (X j s - f' s)) ^ 2) (seq 0 n)) as [_ [Q _]]; [intros; apply pow2_ge_0|].
  specialize (Q Z s (proj2 (in_seq n 0 s) ltac:(lia))). cbv beta in Q. nra.
Qed.
Print Assumptions C256_order_and_solver.

(** On integers the residuals are cut off towards zero: off by less than 1, and zero wherever they are below 1 in absolute value. *)
Theorem C257_cut_off_partial : forall ols n X U H j s, H <> [] -> In j U ->
  let Y := residual_matrix same ols n X U H j s in let Y' := residual_matrix truncate ols n X U H j s in Rabs (Y' - Y) < 1 /\ (Rabs Y < 1 -> Y' = 0).
Proof.
  intros ols n X U H j s N Hj. cbv zeta. rewrite !residual_matrix_spec by exact N. rewrite (proj2 (memb_In j U) Hj). unfold same. split; [apply truncate_near|apply truncate_small].
Qed.
Print Assumptions C257_cut_off_partial.

(** "Integer data are treated as the same numbers in floats" fails: there is an integer data set and a pair of variables whose residuals
    on their ancestor are all zero on integers (a constant column, which no test takes for non-Gaussian or correlated), but not as floats. *)
Theorem C257_integers_refuted : exists X : nat -> rvec, (forall i s, exists z, X i s = IZR z) /\ forall ols, normal_equations ols 4 (map X [0%nat]) ->
  (forall s, (s < 4)%nat -> residual_matrix truncate ols 4 X [1%nat] [0%nat] 1%nat s = 0) /\ residual_matrix same ols 4 X [1%nat] [0%nat] 1%nat 1%nat = 1 / 2.
Proof.
  destruct C239_type_matters_refuted as (X & HX & H). exists X. split; [exact HX|]. intros ols HO. destruct (H ols HO) as [H1 H2].
  split; [intros s Hs; rewrite <- (H1 s Hs)|rewrite <- H2]; rewrite residual_matrix_spec, remove_spec by discriminate; reflexivity.
Qed.
Print Assumptions C257_integers_refuted.

Example C256_example : normal_equations simple_ols 4 (map (fun i : nat => if Nat.eqb i 0 then bin0 else bin1) [0%nat]).
Proof. apply simple_ols_normal. lia. Qed.
