From Verif Require Import Base UtilsModel BICModel UtilsProofs BICProofs EffectModel EffectProofs VARModel VARProofs ChisqProps CALMProofs KCIProofs CacheModel FisherSpec FisherModel FisherProofs.
From Coq Require Import Permutation Reals Lra.
Local Open Scope R_scope.

Lemma solve2 a b p00 p01 p10 p11 xx xy yy : 0 < a -> 0 < b -> 0 <= xx -> 0 <= yy -> xy * xy <= xx * yy ->
  a = p00 * (xx / a) + p01 * (xy / b) -> 0 = p10 * (xx / a) + p11 * (xy / b) -> 0 = p00 * (xy / a) + p01 * (yy / b) -> b = p10 * (xy / a) + p11 * (yy / b) ->
  0 < xx * yy - xy * xy /\ p00 = a * a * yy / (xx * yy - xy * xy) /\ p01 = - (a * b * xy) / (xx * yy - xy * xy) /\ p11 = b * b * xx / (xx * yy - xy * xy).
Proof.
  intros Ha Hb Hx Hy CS E1 E2 E3 E4. set (D := xx * yy - xy * xy) in *.
  assert (F1 : p00 * D = a * a * yy).
  { apply (f_equal (fun t => t * a * yy)) in E1. apply (f_equal (fun t => t * a * xy)) in E3. unfold D. replace ((p00 * (xx / a) + p01 * (xy / b)) * a * yy) with (p00 * xx * yy + a * xy * (p01 * (yy / b))) in E1 by (field; lra).
    replace ((p00 * (xy / a) + p01 * (yy / b)) * a * xy) with (p00 * xy * xy + a * xy * (p01 * (yy / b))) in E3 by (field; lra). lra. }
  assert (F2 : p01 * D = - (a * b * xy)).
  { apply (f_equal (fun t => t * b * xy)) in E1. apply (f_equal (fun t => t * b * xx)) in E3. unfold D. replace ((p00 * (xx / a) + p01 * (xy / b)) * b * xy) with (p01 * xy * xy + b * xx * xy * (p00 / a)) in E1 by (field; lra).
    replace ((p00 * (xy / a) + p01 * (yy / b)) * b * xx) with (p01 * xx * yy + b * xx * xy * (p00 / a)) in E3 by (field; lra). lra. }
  assert (F3 : p11 * D = b * b * xx).
  { apply (f_equal (fun t => t * b * xy)) in E2. apply (f_equal (fun t => t * b * xx)) in E4. unfold D. replace ((p10 * (xx / a) + p11 * (xy / b)) * b * xy) with (p11 * xy * xy + b * xx * xy * (p10 / a)) in E2 by (field; lra).
    replace ((p10 * (xy / a) + p11 * (yy / b)) * b * xx) with (p11 * xx * yy + b * xx * xy * (p10 / a)) in E4 by (field; lra). lra. }
  assert (DP : 0 < D).
  { destruct (Req_EM_T D 0) as [Z|NZ]; [|unfold D in *; lra]. exfalso. rewrite Z in F1, F3. rewrite Rmult_0_r in F1, F3. assert (AA : a * a > 0) by nra. assert (BB : b * b > 0) by nra. assert (Y0 : yy = 0) by (symmetry in F1; apply Rmult_integral in F1; destruct F1; lra). assert (X0 : xx = 0) by (symmetry in F3; apply Rmult_integral in F3; destruct F3; lra). assert (XY : xy = 0) by nra. rewrite Y0, XY in E4. unfold Rdiv in E4. lra. }
  split; [exact DP|]. repeat split; (apply (Rmult_eq_reg_r D); [|lra]); unfold Rdiv; rewrite Rmult_assoc, Rinv_l by lra; lra.
Qed.
Section M.
Variables (rows : list nat) (D : nat -> nat -> R) (X Y : nat) (S : list nat).
Notation var := (X :: Y :: S).
Notation k := (length var).
Notation ipr := (ip rows).
Notation wc := (w rows D).
Notation dc := (d rows D).
Notation Am := (A rows D var).
Hypothesis NE : rows <> [].
Hypothesis ND : NoDup var.
Hypothesis NC : forall v, In v var -> ~ constant_in rows D v.
Variable B : rmat.
Hypothesis AB : forall i j, (i < k)%nat -> (j < k)%nat -> mmul k Am B i j = eye i j.
Hypothesis BA : forall i j, (i < k)%nat -> (j < k)%nat -> mmul k B Am i j = eye i j.
Lemma NX : ~ In X S /\ ~ In Y S /\ X <> Y.
Proof. inversion ND as [|? ? N1 N2]; subst. inversion N2; subst. split; [intros H; apply N1; now right|split; [assumption|intros E; apply N1; now left]]. Qed.
Lemma dX : 0 < dc X. Proof. apply (d_pos rows D NE), NC. now left. Qed.
Lemma dY : 0 < dc Y. Proof. apply (d_pos rows D NE), NC. right; now left. Qed.
(** A combination orthogonal to the columns of S: its coefficients from the first two columns of the inverse. *)
Lemma coefficients g e l : (forall s, In s rows -> e s = rsum (fun v => g v / dc v * wc v s) var) -> (forall v, In v S -> ipr (wc v) e = 0) -> (l < k)%nat ->
  g (nth l var 0%nat) = B l 0%nat * (ipr (wc X) e / dc X) + B l 1%nat * (ipr (wc Y) e / dc Y).
Proof.
  intros He HS Hl. rewrite <- (rsum_eye k l (fun j => g (nth j var 0%nat)) Hl).
  rewrite (rsum_ext _ (fun j => rsum (fun i => B l i * (Am i j * g (nth j var 0%nat))) (seq 0 k))).
  2:{ intros j Hj. apply in_seq0 in Hj. rewrite <- (BA l j Hl Hj). unfold mmul. rewrite Rmult_comm, <- rsum_mult. apply rsum_ext. intros; ring. }
  rewrite rsum_swap. rewrite (rsum_ext _ (fun i => B l i * (ipr (wc (nth i var 0%nat)) e / dc (nth i var 0%nat)))).
  - cbn [length]. change (seq 0 (Datatypes.S (Datatypes.S (length S)))) with (0%nat :: 1%nat :: seq 2 (length S)). rewrite !rsum_cons. rewrite (rsum_ext _ (fun _ => 0)), rsum_0; [cbn [nth]; ring|].
    intros i Hi. apply in_seq in Hi. destruct i as [|[|i]]; [lia|lia|]. cbn [nth]. rewrite HS by (apply nth_In; lia). unfold Rdiv. ring.
  - intros i Hi. apply in_seq0 in Hi. rewrite rsum_mult. f_equal. rewrite (mat_vec rows D NE var NC g i Hi). f_equal. rewrite (ip_sym rows (wc _)), (ip_sym rows (wc (nth i var 0%nat)) e). symmetry. now apply ip_ext.
Qed.
Lemma res_orth x e : is_residual rows D S x e -> forall v, In v S -> ipr (wc v) e = 0.
Proof. intros (_ & H0 & HS) v Hv. rewrite (ip_dev rows D v e H0), ip_sym. now apply HS. Qed.
(** The inner product of a residual with another variable is that with its residual. *)
Lemma ip_res x y ex ey : is_residual rows D S x ex -> is_residual rows D S y ey -> ~ In y S -> ipr (wc y) ex = ipr ey ex.
Proof.
  intros RX RY Ny. destruct (residual_form rows D NE S y ey RY Ny) as (b & Hb).
  rewrite (ip_ext rows ey (fun s => wc y s + rsum (fun v => - b v * wc v s) S)) by (intros s Hs; rewrite (Hb s Hs); rewrite (rsum_ext (fun v => - b v * wc v s) (fun v => (-1) * (b v * wc v s))) by (intros; ring); rewrite rsum_mult; ring).
  rewrite ip_plus, ip_comb. rewrite (rsum_ext _ (fun _ => 0)), rsum_0; [ring|]. intros v Hv. rewrite (res_orth x ex RX v Hv). ring.
Qed.
Lemma res_coeff x e : is_residual rows D S x e -> In x var -> ~ In x S ->
  exists g, (forall s, In s rows -> e s = rsum (fun v => g v / dc v * wc v s) var) /\ g x = dc x /\ (forall y, In y var -> ~ In y S -> y <> x -> g y = 0).
Proof.
  intros RX Hx Nx. destruct (residual_form rows D NE S x e RX Nx) as (b & Hb).
  exists (fun v => if Nat.eqb v x then dc x else if memb v S then - b v * dc v else 0). split; [|split; [now rewrite Nat.eqb_refl|intros y _ Ny N; destruct (Nat.eqb_spec y x); [contradiction|]; destruct (memb y S) eqn:M; [apply memb_In in M; contradiction|reflexivity]]].
  intros s Hs. rewrite (Hb s Hs). destruct NX as (N1 & N2 & N3). set (F := fun v => _ / dc v * wc v s).
  assert (FS : rsum F S = (-1) * rsum (fun v => b v * wc v s) S).
  { rewrite <- rsum_mult. apply rsum_ext. intros v Hv. unfold F. destruct (Nat.eqb_spec v x) as [->|_]; [contradiction|]. rewrite (proj2 (memb_In v S) Hv). pose proof (d_pos rows D NE v (NC v (or_intror (or_intror Hv)))). field. lra. }
  rewrite !rsum_cons, FS. assert (FX : F x = wc x s) by (unfold F; rewrite Nat.eqb_refl; pose proof (d_pos rows D NE x (NC x Hx)); field; lra).
  assert (FO : forall y, In y var -> ~ In y S -> y <> x -> F y = 0) by (intros y _ Ny N; unfold F; destruct (Nat.eqb_spec y x); [contradiction|]; destruct (memb y S) eqn:M; [apply memb_In in M; contradiction|unfold Rdiv; ring]).
  destruct Hx as [<-|[<-|Hx]]; [|  |contradiction].
  - rewrite FX, (FO Y); [ring|right; now left|exact N2|congruence].
  - rewrite FX, (FO X); [ring|now left|exact N1|congruence].
Qed.
Theorem partial_corr ex ey : is_residual rows D S X ex -> is_residual rows D S Y ey ->
  0 < ipr ex ex /\ 0 < ipr ey ey /\ Rabs (pcorr rows ex ey) < 1 /\ - B 0%nat 1%nat / sqrt (Rabs (B 0%nat 0%nat * B 1%nat 1%nat)) = pcorr rows ex ey.
Proof.
  intros RX RY. destruct NX as (N1 & N2 & N3). pose proof dX as PX. pose proof dY as PY.
  destruct (res_coeff X ex RX (or_introl eq_refl) N1) as (gx & Gx1 & Gx2 & Gx3). destruct (res_coeff Y ey RY (or_intror (or_introl eq_refl)) N2) as (gy & Gy1 & Gy2 & Gy3).
  specialize (Gx3 Y (or_intror (or_introl eq_refl)) N2 ltac:(congruence)). specialize (Gy3 X (or_introl eq_refl) N1 N3).
  pose proof (ip_res X X ex ex RX RX N1) as I1. pose proof (ip_res X Y ex ey RX RY N2) as I2. pose proof (ip_res Y X ey ex RY RX N1) as I3. pose proof (ip_res Y Y ey ey RY RY N2) as I4.
  assert (K0 : (0 < k)%nat) by (cbn [length]; lia). assert (K1 : (1 < k)%nat) by (cbn [length]; lia).
  pose proof (coefficients gx ex 0%nat Gx1 (res_orth X ex RX) K0) as E1. pose proof (coefficients gx ex 1%nat Gx1 (res_orth X ex RX) K1) as E2.
  pose proof (coefficients gy ey 0%nat Gy1 (res_orth Y ey RY) K0) as E3. pose proof (coefficients gy ey 1%nat Gy1 (res_orth Y ey RY) K1) as E4.
  cbn [nth] in E1, E2, E3, E4. rewrite Gx2, I1, I2 in E1. rewrite Gx3, I1, I2 in E2. rewrite Gy3, I3, I4 in E3. rewrite Gy2, I3, I4 in E4.
  rewrite (ip_sym rows ey ex) in E1, E2.
  destruct (solve2 (dc X) (dc Y) (B 0%nat 0%nat) (B 0%nat 1%nat) (B 1%nat 0%nat) (B 1%nat 1%nat) (ipr ex ex) (ipr ex ey) (ipr ey ey) PX PY (ip_pos rows ex) (ip_pos rows ey) (cauchy rows ex ey) E1 E2 E3 E4) as (DP & P0 & P1 & P2).
  set (xx := ipr ex ex) in *. set (yy := ipr ey ey) in *. set (xy := ipr ex ey) in *. set (a := dc X) in *. set (b := dc Y) in *. set (dl := xx * yy - xy * xy) in *.
  pose proof (ip_pos rows ex) as XP. pose proof (ip_pos rows ey) as YP. fold xx in XP. fold yy in YP. assert (XYP : 0 < xx * yy) by (unfold dl in DP; nra). assert (XX : 0 < xx) by nra. assert (YY : 0 < yy) by nra.
  split; [exact XX|]. split; [exact YY|]. unfold pcorr. fold xx yy xy. set (q := sqrt (xx * yy)). assert (QP : 0 < q) by now apply sqrt_lt_R0. assert (QQ : q * q = xx * yy) by (apply sqrt_sqrt; lra). split.
  - apply Rabs_def1; [apply (Rmult_lt_reg_r q); [exact QP|]; unfold Rdiv; rewrite Rmult_assoc, Rinv_l by lra; unfold dl in DP; nra|apply (Rmult_lt_reg_r q); [exact QP|]; unfold Rdiv; rewrite Rmult_assoc, Rinv_l by lra; unfold dl in DP; nra].
  - rewrite P0, P1, P2. replace (a * a * yy / dl * (b * b * xx / dl)) with ((a * b * q / dl) * (a * b * q / dl)) by (replace (a * b * q / dl * (a * b * q / dl)) with (a * b * a * b * (q * q) / (dl * dl)) by (field; lra); rewrite QQ; field; lra).
    assert (TP : 0 <= a * b * q / dl) by (left; apply Rmult_lt_0_compat; [|now apply Rinv_0_lt_compat]; apply Rmult_lt_0_compat; [nra|exact QP]).
    rewrite Rabs_right by (apply Rle_ge, (Rle_0_sqr (a * b * q / dl))). rewrite sqrt_square by exact TP. field. repeat split; lra.
Qed.
(** Residuals exist: the combinations of the first two columns of the inverse. *)
Definition h (c : nat) (v : nat) : R := B (posn v var) c.
Definition E (c : nat) : nat -> R := fun s => rsum (fun v => h c v / dc v * wc v s) var.
Lemma ip_E c i : (c < k)%nat -> (i < k)%nat -> ipr (wc (nth i var 0%nat)) (E c) = dc (nth i var 0%nat) * eye i c.
Proof.
  intros Hc Hi. pose proof (mat_vec rows D NE var NC (h c) i Hi) as MV. pose proof (d_pos rows D NE _ (NC _ (nth_In var 0%nat Hi))) as DP. fold (E c) in MV. change (fun s => rsum (fun v => h c v / dc v * wc v s) var) with (E c) in MV.
  rewrite <- (AB i c Hi Hc). unfold mmul. rewrite (rsum_ext _ (fun j => Am i j * h c (nth j var 0%nat))) by (intros j Hj; apply in_seq0 in Hj; unfold h; now rewrite posn_nth). rewrite MV. field. lra.
Qed.
Lemma E_sum c : rsum (E c) rows = 0.
Proof. unfold E. rewrite rsum_swap. rewrite (rsum_ext _ (fun _ => 0)), rsum_0; [reflexivity|]. intros v _. rewrite rsum_mult. unfold w. rewrite (dev_sum rows NE). ring. Qed.
Lemma make_residual x u : In x var -> ~ In x S -> (forall y, In y var -> ~ In y S -> y <> x -> u y = 0) -> u x <> 0 ->
  (forall v, In v S -> ipr (fun s => rsum (fun v => u v * wc v s) var) (wc v) = 0) -> exists e, is_residual rows D S x e.
Proof.
  intros Hx Nx HO Hu HS. destruct NX as (N1 & N2 & N3). set (f := fun s => rsum (fun v => u v * wc v s) var) in *. exists (fun s => / u x * f s).
  assert (FS : rsum f rows = 0) by (unfold f; rewrite rsum_swap; rewrite (rsum_ext _ (fun _ => 0)), rsum_0; [reflexivity|]; intros v _; rewrite rsum_mult; unfold w; rewrite (dev_sum rows NE); ring).
  split; [|split].
  - exists (fun v => - (u v / u x)), (rmean rows (col D x) + rsum (fun v => u v / u x * rmean rows (col D v)) S). intros s Hs. unfold f.
    assert (FF : rsum (fun v => u v * wc v s) var = u x * wc x s + rsum (fun v => u v * wc v s) S).
    { rewrite !rsum_cons. destruct Hx as [<-|[<-|Hx]]; [| |contradiction]; [rewrite (HO Y)|rewrite (HO X)]; try ring; try assumption; try congruence; [right; now left|now left]. }
    rewrite FF. assert (SS : rsum (fun v => u v * wc v s) S = u x * (rsum (fun v => u v / u x * D s v) S - rsum (fun v => u v / u x * rmean rows (col D v)) S)).
    { rewrite <- rsum_minus, <- rsum_mult. apply rsum_ext. intros v _. unfold w, dev, col. field. exact Hu. }
    rewrite SS. rewrite (rsum_ext (fun v => - (u v / u x) * D s v) (fun v => (-1) * (u v / u x * D s v))) by (intros; ring). rewrite rsum_mult. unfold w, dev. unfold col at 1. field. exact Hu.
  - rewrite rsum_mult, FS. ring.
  - intros v Hv. rewrite ip_scale. rewrite ip_sym. change (fun s => D s v) with (col D v). rewrite <- (ip_dev rows D v f FS), ip_sym, HS by exact Hv. ring.
Qed.
Lemma residuals_exist : (exists ex, is_residual rows D S X ex) /\ exists ey, is_residual rows D S Y ey.
Proof.
  destruct NX as (N1 & N2 & N3). pose proof dX as PX. pose proof dY as PY. assert (K0 : (0 < k)%nat) by (cbn [length]; lia). assert (K1 : (1 < k)%nat) by (cbn [length]; lia).
  pose proof (ip_E 0 0 K0 K0) as X0. pose proof (ip_E 0 1 K0 K1) as Y0. pose proof (ip_E 1 0 K1 K0) as X1. pose proof (ip_E 1 1 K1 K1) as Y1. cbn [nth] in X0, Y0, X1, Y1.
  unfold eye in X0, Y0, X1, Y1. cbn [Nat.eqb] in X0, Y0, X1, Y1. rewrite Rmult_1_r in X0, Y1. rewrite Rmult_0_r in X1, Y0.
  assert (ES : forall c v, (c < 2)%nat -> In v S -> ipr (wc v) (E c) = 0).
  { intros c v Hc Hv. apply (In_nth _ _ 0%nat) in Hv. destruct Hv as (i & Hi & <-). assert (Hk : (2 + i < k)%nat) by (cbn [length]; lia). pose proof (ip_E c (2 + i) ltac:(lia) Hk) as H. cbn [nth Nat.add] in H. rewrite H. unfold eye. destruct (Nat.eqb_spec (Datatypes.S (Datatypes.S i)) c); [lia|ring]. }
  set (p00 := h 0 X). set (p10 := h 0 Y). set (p01 := h 1 X). set (p11 := h 1 Y).
  assert (EE : forall c c', (c < 2)%nat -> ipr (E c') (E c) = h c' X / dc X * ipr (wc X) (E c) + h c' Y / dc Y * ipr (wc Y) (E c)).
  { intros c c' Hc. unfold E at 1. rewrite ip_comb, !rsum_cons. rewrite (rsum_ext _ (fun _ => 0)), rsum_0; [ring|]. intros v Hv. rewrite ES by assumption. ring. }
  assert (E00 : ipr (E 0) (E 0) = p00) by (rewrite EE, X0, Y0 by lia; fold p00; field; lra). assert (E11 : ipr (E 1) (E 1) = p11) by (rewrite EE, X1, Y1 by lia; fold p11; field; lra).
  assert (E10 : ipr (E 1) (E 0) = p01) by (rewrite EE, X0, Y0 by lia; fold p01; field; lra). assert (E01 : ipr (E 0) (E 1) = p10) by (rewrite EE, X1, Y1 by lia; fold p10; field; lra).
  assert (SY : p01 = p10) by (rewrite <- E10, <- E01; apply ip_sym).
  assert (P0 : 0 < p00). { rewrite <- E00. pose proof (ip_pos rows (E 0)). destruct (Req_EM_T (ipr (E 0) (E 0)) 0) as [Z|]; [|lra]. exfalso. assert (ipr (wc X) (E 0) = 0); [|lra]. unfold ip. rewrite (rsum_ext _ (fun _ => 0)), rsum_0; [reflexivity|]. intros s Hs. rewrite (ip_zero rows (E 0) Z s Hs). ring. }
  assert (P1 : 0 < p11). { rewrite <- E11. pose proof (ip_pos rows (E 1)). destruct (Req_EM_T (ipr (E 1) (E 1)) 0) as [Z|]; [|lra]. exfalso. assert (ipr (wc Y) (E 1) = 0); [|lra]. unfold ip. rewrite (rsum_ext _ (fun _ => 0)), rsum_0; [reflexivity|]. intros s Hs. rewrite (ip_zero rows (E 1) Z s Hs). ring. }
  assert (DT : p00 * p11 - p01 * p01 <> 0).
  { intros Z. set (f := fun s => p11 * E 0 s + (- p01) * E 1 s). assert (IF : forall g, ipr f g = p11 * ipr (E 0) g + (- p01) * ipr (E 1) g) by (intros g; unfold f; rewrite (ip_plus rows (fun s => p11 * E 0 s) (fun s => - p01 * E 1 s)), !ip_scale; reflexivity).
    assert (FZ : ipr f f = 0) by (rewrite (IF f), (ip_sym rows (E 0) f), (ip_sym rows (E 1) f), !IF, E00, E11, E10, E01, <- SY; nra).
    assert (C : ipr f (wc X) = 0) by (unfold ip; rewrite (rsum_ext _ (fun _ => 0)), rsum_0; [reflexivity|]; intros s Hs; rewrite (ip_zero rows f FZ s Hs); ring).
    rewrite IF, (ip_sym rows (E 0)), (ip_sym rows (E 1)), X0, X1 in C. nra. }
  assert (CB : forall al be, exists u, (forall s, rsum (fun v => u v * wc v s) var = al * E 0 s + be * E 1 s) /\ u X = (al * p00 + be * p01) / dc X /\ u Y = (al * p10 + be * p11) / dc Y).
  { intros al be. exists (fun v => (al * h 0 v + be * h 1 v) / dc v). split; [|split; reflexivity]. intros s. unfold E. rewrite <- !rsum_mult, <- rsum_plus. apply rsum_ext. intros v _. unfold Rdiv. ring. }
  assert (IC : forall al be u v, (forall s, rsum (fun v => u v * wc v s) var = al * E 0 s + be * E 1 s) -> In v S -> ipr (fun s => rsum (fun v => u v * wc v s) var) (wc v) = 0).
  { intros al be u v Hu Hv. rewrite (ip_ext rows _ (fun s => al * E 0 s + be * E 1 s)) by (intros; apply Hu). rewrite (ip_plus rows (fun s => al * E 0 s) (fun s => be * E 1 s)), !ip_scale, !(ip_sym rows (E _)), !ES by (lia || assumption). ring. }
  split.
  - destruct (CB p11 (- p01)) as (u & U1 & U2 & U3). apply (make_residual X u); [now left|exact N1| | |].
    + intros y [<-|[<-|Hy]] Ny NXy; [congruence| |contradiction]. rewrite U3, SY. unfold Rdiv. ring.
    + rewrite U2. replace (p11 * p00 + - p01 * p01) with (p00 * p11 - p01 * p01) by ring. intros Z. apply Rmult_integral in Z. destruct Z as [Z|Z]; [contradiction|]. pose proof (Rinv_0_lt_compat _ PX). lra.
    + intros v Hv. now apply (IC p11 (- p01)).
  - destruct (CB (- p01) p00) as (u & U1 & U2 & U3). apply (make_residual Y u); [right; now left|exact N2| | |].
    + intros y [<-|[<-|Hy]] Ny NXy; [|congruence|contradiction]. rewrite U2. unfold Rdiv. ring.
    + rewrite U3, <- SY. replace (- p01 * p01 + p00 * p11) with (p00 * p11 - p01 * p01) by ring. intros Z. apply Rmult_integral in Z. destruct Z as [Z|Z]; [contradiction|]. pose proof (Rinv_0_lt_compat _ PY). lra.
    + intros v Hv. now apply (IC (- p01) p00).
Qed.
End M.
