(** The randomised independence tests. *)
From Verif Require Import Base UtilsModel BICModel BICProofs EffectModel EffectProofs VARModel VARProofs ChisqProps CALMProofs KCIModel KCIProofs HSICModel HSICMedian RCITModel RCITProofs.
From Coq Require Import Permutation Reals Lra FunctionalExtensionality.
Local Open Scope R_scope.

(** ** C219: units and order of the samples *)
(** Rescaling and shifting the columns (positively or negatively) is the same as changing the sign of the random coefficients of the columns that were reversed, which has the
    same distribution; in particular positive factors change nothing at all. *)
Theorem C219_rit_units : forall sw hbe lpb4 chi2cdf eig pinv approx perms n dx dy wx bx wy by_ a b a' b' X Y, (0 < n)%nat -> (forall c, a c <> 0) -> (forall c, a' c <> 0) ->
  rit_p sw hbe lpb4 chi2cdf eig pinv approx perms n dx dy wx bx wy by_ (rescaled a b X) (rescaled a' b' Y) =
  rit_p sw hbe lpb4 chi2cdf eig pinv approx perms n dx dy (fun k c => wx k c * sgn (a c)) bx (fun k c => wy k c * sgn (a' c)) by_ X Y.
Proof.
  intros sw hbe lpb4 chi2cdf eig pinv approx perms n dx dy wx bx wy by_ a b a' b' X Y Hn Ha Ha'. unfold rit_p, rit_defined, rit.
  rewrite !varying_rescaled, !zscore_signs, !signed_raw, !signed_features by (assumption || apply signs_sgn). reflexivity.
Qed.
Theorem C219_rcit_units : forall sw hbe lpb4 chi2cdf eig pinv cinv approx num_f num_f2 with_z perms n dx dy dz wx bx wy by_ wz bz a b a' b' a'' b'' X Y Z,
  (0 < n)%nat -> (forall c, a c <> 0) -> (forall c, a' c <> 0) -> (forall c, a'' c <> 0) ->
  rcit_p sw hbe lpb4 chi2cdf eig pinv cinv approx num_f num_f2 with_z perms n dx dy dz wx bx wy by_ wz bz (rescaled a b X) (rescaled a' b' Y) (rescaled a'' b'' Z) =
  rcit_p sw hbe lpb4 chi2cdf eig pinv cinv approx num_f num_f2 with_z perms n dx dy dz (fun k c => wx k c * sgn (a c)) bx
    (fun k c => wy k c * if with_z then (if Nat.ltb c dy then sgn (a' c) else sgn (a'' (c - dy)%nat)) else sgn (a' c)) by_ (fun k c => wz k c * sgn (a'' c)) bz X Y Z.
Proof.
  intros sw hbe lpb4 chi2cdf eig pinv cinv approx num_f num_f2 with_z perms n dx dy dz wx bx wy by_ wz bz a b a' b' a'' b'' X Y Z Hn Ha Ha' Ha''. unfold rcit_p, rcit_defined, rcit.
  rewrite !varying_rescaled, !zscore_signs, !signed_raw, !signed_features by (assumption || apply signs_sgn). destruct with_z.
  - rewrite !beside_signed. pose proof (beside_signs dy (fun c => sgn (a' c)) (fun c => sgn (a'' c)) (signs_sgn a') (signs_sgn a'')) as BS.
    rewrite !(signed_raw _ _ _ _ _ _ BS), !(signed_features _ _ _ _ _ _ BS). reflexivity.
  - rewrite ?signed_raw, ?signed_features by apply signs_sgn. reflexivity.
Qed.
(** The conclusion users rely on: changing the units (positive factors) does not change the p-value. *)
Theorem C219_positive_units : forall sw hbe lpb4 chi2cdf eig pinv approx perms n dx dy wx bx wy by_ a b a' b' X Y, (0 < n)%nat -> (forall c, 0 < a c) -> (forall c, 0 < a' c) ->
  rit_p sw hbe lpb4 chi2cdf eig pinv approx perms n dx dy wx bx wy by_ (rescaled a b X) (rescaled a' b' Y) = rit_p sw hbe lpb4 chi2cdf eig pinv approx perms n dx dy wx bx wy by_ X Y.
Proof.
  intros sw hbe lpb4 chi2cdf eig pinv approx perms n dx dy wx bx wy by_ a b a' b' X Y Hn Ha Ha'. rewrite C219_rit_units by (auto; intros c; apply Rgt_not_eq, Ha || apply Rgt_not_eq, Ha').
  assert (E : forall (w : rmat) f, (forall c : nat, 0 < f c) -> (fun k c => w k c * sgn (f c)) = w).
  { intros w f Hf. apply functional_extensionality. intros k. apply functional_extensionality. intros c. unfold sgn. specialize (Hf c). destruct (Rlt_dec (f c) 0); [lra|ring]. }
  now rewrite !E.
Qed.
(** With at most 500 samples the order of the samples does not matter (permutations are those of the reordered samples). *)
Definition same_permutations (n : nat) (sg : nat -> nat) (perms' perms : list (nat -> nat)) : Prop := Forall2 (fun q' q => forall s, (s < n)%nat -> sg (q' s) = q (sg s)) perms' perms.
Lemma perm_map n sg perms' perms (SH : shuffle n sg) (f : nat) A B : same_permutations n sg perms' perms ->
  map (fun perm => INR n * sumsq f (mcov n (fun s => moved sg A (perm s)) (moved sg B))) perms' = map (fun perm => INR n * sumsq f (mcov n (fun s => A (perm s)) B)) perms.
Proof. intros H. induction H as [|q' q l l' H _ IH]; [reflexivity|]. cbn [map]. rewrite IH, (perm_mcov n sg SH A B q q' H). reflexivity. Qed.
Lemma moved_p_value sw hbe lpb4 chi2cdf eig pinv n sg f approx perms' perms C rx ry D (SH : shuffle n sg) : same_permutations n sg perms' perms ->
  p_value sw hbe lpb4 chi2cdf eig pinv n f approx perms' C (moved sg rx) (moved sg ry) D = p_value sw hbe lpb4 chi2cdf eig pinv n f approx perms C rx ry D.
Proof.
  intros H. unfold p_value. change (column_products f (moved sg rx) (moved sg ry)) with (moved sg (column_products f rx ry)). rewrite (moved_second n sg SH), (perm_map n sg perms' perms SH f rx ry H). reflexivity.
Qed.
Theorem C219_rit_sample_order : forall sw hbe lpb4 chi2cdf eig pinv approx perms' perms n sg dx dy wx bx wy by_ X Y, (n <= 500)%nat -> shuffle n sg -> same_permutations n sg perms' perms ->
  rit_p sw hbe lpb4 chi2cdf eig pinv approx perms' n dx dy wx bx wy by_ (fun s c => X (sg s) c) (fun s c => Y (sg s) c) =
  rit_p sw hbe lpb4 chi2cdf eig pinv approx perms n dx dy wx bx wy by_ X Y.
Proof.
  intros sw hbe lpb4 chi2cdf eig pinv approx perms' perms n sg dx dy wx bx wy by_ X Y L SH H. change (fun s c => X (sg s) c) with (moved sg X). change (fun s c => Y (sg s) c) with (moved sg Y). unfold rit_p, rit_defined, rit.
  rewrite !(moved_varying n sg SH), !(moved_zscore n sg SH), !(moved_raw n sg SH), !(moved_features n sg SH), !(moved_varying n sg SH) by exact L.
  set (fx := features n dx wx bx (zscore n X)). set (fy := features n dy wy by_ (zscore n Y)). rewrite (moved_mcov n sg SH), (perm_map n sg perms' perms SH 5 fx fy H).
  assert (M : forall A : data, (fun s k => moved sg A s k - cmean n (moved sg A) k) = moved sg (fun s k => A s k - cmean n A k)).
  { intros A. apply functional_extensionality. intros s. apply functional_extensionality. intros k. now rewrite (moved_mean n sg SH). }
  rewrite !M. destruct approx; rewrite ?(moved_p_value sw hbe lpb4 chi2cdf eig pinv n sg 5 _ perms' perms _ _ _ _ SH H); reflexivity.
Qed.
Theorem C219_rcit_sample_order : forall sw hbe lpb4 chi2cdf eig pinv cinv approx num_f num_f2 with_z perms' perms n sg dx dy dz wx bx wy by_ wz bz X Y Z, (n <= 500)%nat -> shuffle n sg -> same_permutations n sg perms' perms ->
  rcit_p sw hbe lpb4 chi2cdf eig pinv cinv approx num_f num_f2 with_z perms' n dx dy dz wx bx wy by_ wz bz (fun s c => X (sg s) c) (fun s c => Y (sg s) c) (fun s c => Z (sg s) c) =
  rcit_p sw hbe lpb4 chi2cdf eig pinv cinv approx num_f num_f2 with_z perms n dx dy dz wx bx wy by_ wz bz X Y Z.
Proof.
  intros sw hbe lpb4 chi2cdf eig pinv cinv approx num_f num_f2 with_z perms' perms n sg dx dy dz wx bx wy by_ wz bz X Y Z L SH H.
  change (fun s c => X (sg s) c) with (moved sg X). change (fun s c => Y (sg s) c) with (moved sg Y). change (fun s c => Z (sg s) c) with (moved sg Z). unfold rcit_p, rcit_defined, rcit.
  rewrite !(moved_varying n sg SH), !(moved_zscore n sg SH). change (beside dy (moved sg (zscore n Y)) (moved sg (zscore n Z))) with (moved sg (beside dy (zscore n Y) (zscore n Z))).
  set (Y' := if with_z then beside dy (zscore n Y) (zscore n Z) else zscore n Y). replace (if with_z then moved sg (beside dy (zscore n Y) (zscore n Z)) else moved sg (zscore n Y)) with (moved sg Y') by (unfold Y'; destruct with_z; reflexivity).
  rewrite !(moved_raw n sg SH), !(moved_features n sg SH), !(moved_varying n sg SH) by exact L.
  set (fx := features n dx wx bx (zscore n X)). set (fy := features n _ wy by_ Y'). set (fz := features n dz wz bz (zscore n Z)).
  replace (varying n num_f2 (if with_z then moved sg (raw_features n (dy + dz) wy by_ (beside dy (zscore n Y) (zscore n Z))) else moved sg (raw_features n dy wy by_ (zscore n Y)))) with
    (varying n num_f2 (if with_z then raw_features n (dy + dz) wy by_ (beside dy (zscore n Y) (zscore n Z)) else raw_features n dy wy by_ (zscore n Y))) by (destruct with_z; now rewrite (moved_varying n sg SH)).
  assert (I : inv_Czz cinv n num_f (moved sg fz) = inv_Czz cinv n num_f fz) by (unfold inv_Czz; now rewrite (moved_mcov n sg SH)).
  assert (RX : residual_x cinv n num_f (moved sg fx) (moved sg fz) = moved sg (residual_x cinv n num_f fx fz)) by (unfold residual_x; rewrite I, (moved_xprod n sg SH); reflexivity).
  assert (RY : residual_y cinv n num_f (moved sg fy) (moved sg fz) = moved sg (residual_y cinv n num_f fy fz)) by (unfold residual_y; rewrite I, (moved_xprod n sg SH); reflexivity).
  rewrite RX, RY, (moved_mcov n sg SH). assert (P : partial_cov cinv n num_f (moved sg fx) (moved sg fy) (moved sg fz) = partial_cov cinv n num_f fx fy fz) by (unfold partial_cov; rewrite I, !(moved_xprod n sg SH); reflexivity).
  rewrite P, (moved_p_value sw hbe lpb4 chi2cdf eig pinv n sg num_f2 _ perms' perms _ _ _ _ SH H). reflexivity.
Qed.

(** ** C220: the conditional statistic *)
Definition inverse_of (m : nat) (A I : rmat) : Prop := forall a b, (a < m)%nat -> (b < m)%nat -> mmul m A I a b = eye a b.
(** The ridge coefficients of the features of x and of y on those of z. *)
Definition coef_x cinv n m (fx fz : data) : rmat := fun b k => rsum (fun a => inv_Czz cinv n m fz b a * xprod n fx fz k a) (seq 0 m).
Definition coef_y cinv n m (fy fz : data) : rmat := fun b l => rsum (fun a => inv_Czz cinv n m fz b a * xprod n fz fy a l) (seq 0 m).
Lemma swap_lin m (P : data) (I M : rmat) s k : rsum (fun a => rsum (fun b => P s b * I b a) (seq 0 m) * M a k) (seq 0 m) = lin m P (fun b k => rsum (fun a => I b a * M a k) (seq 0 m)) s k.
Proof.
  unfold lin. rewrite (rsum_ext _ (fun a => rsum (fun b => P s b * I b a * M a k) (seq 0 m))) by (intros a _; rewrite (Rmult_comm _ (M a k)), <- rsum_mult; apply rsum_ext; intros; ring).
  rewrite rsum_swap. apply rsum_ext. intros b _. rewrite <- rsum_mult. apply rsum_ext. intros. ring.
Qed.
Section Ridge.
Variables (cinv : nat -> rmat -> rmat) (n m : nat) (fx fy fz : data).
Hypothesis Hn : (0 < n)%nat.
Hypothesis Mz : forall a, (a < m)%nat -> cmean n fz a = 0.
Hypothesis Inv : inverse_of m (fun a b => mcov n fz fz a b + ridge * eye a b) (inv_Czz cinv n m fz).
Lemma solves b l : (b < m)%nat -> rsum (fun c => (xprod n fz fz b c + ridge * eye b c) * coef_y cinv n m fy fz c l) (seq 0 m) = xprod n fz fy b l.
Proof.
  intros Hb. unfold coef_y. rewrite (rsum_ext _ (fun c => rsum (fun a => (mcov n fz fz b c + ridge * eye b c) * inv_Czz cinv n m fz c a * xprod n fz fy a l) (seq 0 m))).
  - rewrite rsum_swap. rewrite (rsum_ext _ (fun a => eye b a * xprod n fz fy a l)); [apply (rsum_eye m b (fun a => xprod n fz fy a l) Hb)|]. intros a Ha. apply in_seq0 in Ha. rewrite <- (Inv b a Hb Ha). unfold mmul.
    rewrite (Rmult_comm _ (xprod n fz fy a l)), <- rsum_mult. apply rsum_ext. intros. ring.
  - intros c Hc. apply in_seq0 in Hc. rewrite <- rsum_mult. apply rsum_ext. intros a _. rewrite (mcov_centred n fz fz b c) by auto. ring.
Qed.
Lemma res_x_lin : residual_x cinv n m fx fz = fun s k => fx s k - lin m fz (coef_x cinv n m fx fz) s k.
Proof. apply functional_extensionality. intros s. apply functional_extensionality. intros k. unfold residual_x. now rewrite (swap_lin m fz (inv_Czz cinv n m fz) (fun a k => xprod n fx fz k a)). Qed.
Lemma res_y_lin : residual_y cinv n m fy fz = fun s l => fy s l - lin m fz (coef_y cinv n m fy fz) s l.
Proof. apply functional_extensionality. intros s. apply functional_extensionality. intros k. unfold residual_y. now rewrite (swap_lin m fz (inv_Czz cinv n m fz) (fun a l => xprod n fz fy a l)). Qed.
End Ridge.
(** The residuals are those of a ridge regression: their covariance with a feature of z is 1e-10 times the coefficient of that feature. *)
Theorem C220_residuals : forall cinv n m fy fz a l, (forall a, (a < m)%nat -> cmean n fz a = 0) ->
  inverse_of m (fun a b => mcov n fz fz a b + ridge * eye a b) (inv_Czz cinv n m fz) -> (a < m)%nat ->
  xprod n fz (residual_y cinv n m fy fz) a l = ridge * coef_y cinv n m fy fz a l.
Proof. intros cinv n m fy fz a l Mz Inv Ha. rewrite res_y_lin. apply ridge_normal; [exact Ha|]. intros b Hb. now apply solves. Qed.
(** The statistic of the permutation test is the covariance of the residuals; the other approximations use Cxy - Cxz Czz^-1 Czy.  The two differ by the ridge term only. *)
Theorem C220_two_statistics : forall cinv n m fx fy fz k l, (forall c, cmean n fx c = 0) -> (forall c, cmean n fy c = 0) -> (forall a, (a < m)%nat -> cmean n fz a = 0) ->
  inverse_of m (fun a b => mcov n fz fz a b + ridge * eye a b) (inv_Czz cinv n m fz) ->
  mcov n (residual_x cinv n m fx fz) (residual_y cinv n m fy fz) k l =
  partial_cov cinv n m fx fy fz k l - ridge * rsum (fun a => coef_x cinv n m fx fz a k * coef_y cinv n m fy fz a l) (seq 0 m).
Proof.
  intros cinv n m fx fy fz k l Mx My Mz Inv. rewrite res_x_lin, res_y_lin.
  rewrite mcov_centred by (rewrite (cmean_minus n _ (lin m fz _)), cmean_lin by exact Mz; rewrite ?Mx, ?My; ring).
  rewrite (ridge_cov n m fz fx fy (coef_x cinv n m fx fz) (coef_y cinv n m fy fz) ridge k l) by (intros b Hb; now apply solves). f_equal. unfold partial_cov. f_equal.
  unfold coef_y, mmul. rewrite (rsum_ext _ (fun a => rsum (fun b => xprod n fx fz k a * inv_Czz cinv n m fz a b * xprod n fz fy b l) (seq 0 m))) by (intros a _; rewrite <- rsum_mult; apply rsum_ext; intros; ring).
  rewrite rsum_swap. apply rsum_ext. intros b _. rewrite (Rmult_comm _ (xprod n fz fy b l)), <- rsum_mult. apply rsum_ext. intros. ring.
Qed.
(** The features satisfy these hypotheses. *)
Theorem C220_features_centred : forall n d w b X c, (0 < n)%nat -> cmean n (features n d w b X) c = 0.
Proof. intros. now apply mean_zscore. Qed.

(** ** C221: p-values *)
Lemma at_least_0_range p : p <= 1 -> 0 <= at_least_0 p <= 1.
Proof. intros H. unfold at_least_0. destruct (Rlt_dec p 0); lra. Qed.
Lemma perm_p_eq sta stas : stas <> [] -> perm_p sta stas = INR (length (filter (fun x => if Rlt_dec sta x then true else false) stas)) / INR (length stas).
Proof.
  intros N. unfold perm_p. assert (E : forall l, length l = (length (filter (fun x => if Rle_dec x sta then true else false) l) + length (filter (fun x => if Rlt_dec sta x then true else false) l))%nat).
  { induction l as [|x l IH]; [reflexivity|]. cbn [filter]. destruct (Rle_dec x sta), (Rlt_dec sta x); cbn [length]; lra || lia. }
  rewrite (E stas) at 1 2. assert (P : INR (length stas) <> 0) by (apply not_0_INR; destruct stas; [congruence|cbn; lia]). rewrite (E stas) in P. rewrite <- (E stas) in P |- *. rewrite (E stas), plus_INR. rewrite (E stas), plus_INR in P. field. exact P.
Qed.
Section P.
Variables sw hbe : list R -> R -> R.
Variable lpb4 : list R -> R -> option R.
Variable chi2cdf : R -> nat -> R.
Variable eig : nat -> rmat -> list R.
Variable pinv cinv : nat -> rmat -> rmat.
Notation pv := (p_value sw hbe lpb4 chi2cdf eig pinv).
Lemma p_value_range n f approx perms C rx ry D p sta : (forall l s, 0 <= sw l s) -> (forall l s, 0 <= hbe l s) -> (forall l s v, lpb4 l s = Some v -> 0 <= v) -> (forall s k, 0 <= chi2cdf s k) -> perms <> [] ->
  pv n f approx perms C rx ry D = Some (p, sta) -> 0 <= p <= 1.
Proof.
  intros H1 H2 H3 H4 HP. unfold p_value. destruct approx; intros E; try discriminate; injection E as <- _; apply at_least_0_range.
  - destruct (lpb4 _ _) as [v|] eqn:Q; [specialize (H3 _ _ _ Q); lra|]. match goal with |- 1 - hbe ?a ?b <= 1 => specialize (H2 a b); lra end.
  - match goal with |- 1 - hbe ?a ?b <= 1 => specialize (H2 a b); lra end.
  - match goal with |- 1 - sw ?a ?b <= 1 => specialize (H1 a b); lra end.
  - match goal with |- 1 - chi2cdf ?a ?b <= 1 => specialize (H4 a b); lra end.
  - unfold perm_p. match goal with |- 1 - INR ?a / INR ?b <= 1 => assert (0 <= INR a / INR b); [|lra]; apply Rmult_le_pos; [apply pos_INR|] end.
    left. apply Rinv_0_lt_compat, lt_0_INR. rewrite map_length. destruct perms; [congruence|cbn; lia].
Qed.
(** p-values are between 0 and 1. *)
Theorem C221_range : forall approx perms n dx dy wx bx wy by_ X Y p sta, (forall l s, 0 <= sw l s) -> (forall l s, 0 <= hbe l s) -> (forall l s v, lpb4 l s = Some v -> 0 <= v) -> (forall s k, 0 <= chi2cdf s k) -> perms <> [] ->
  rit_p sw hbe lpb4 chi2cdf eig pinv approx perms n dx dy wx bx wy by_ X Y = Some (p, sta) -> 0 <= p <= 1.
Proof.
  intros approx perms n dx dy wx bx wy by_ X Y p sta H1 H2 H3 H4 HP. unfold rit_p. destruct (rit_defined _ _ _ _ _ _ _ _ _); [|discriminate]. unfold rit. destruct approx; try (apply p_value_range; assumption).
  intros E. injection E as <- _. apply at_least_0_range. unfold perm_p. match goal with |- 1 - INR ?a / INR ?b <= 1 => assert (0 <= INR a / INR b); [|lra]; apply Rmult_le_pos; [apply pos_INR|] end.
  left. apply Rinv_0_lt_compat, lt_0_INR. rewrite map_length. destruct perms; [congruence|cbn; lia].
Qed.
Theorem C221_conditional_range : forall approx num_f num_f2 with_z perms n dx dy dz wx bx wy by_ wz bz X Y Z p sta,
  (forall l s, 0 <= sw l s) -> (forall l s, 0 <= hbe l s) -> (forall l s v, lpb4 l s = Some v -> 0 <= v) -> (forall s k, 0 <= chi2cdf s k) -> perms <> [] ->
  rcit_p sw hbe lpb4 chi2cdf eig pinv cinv approx num_f num_f2 with_z perms n dx dy dz wx bx wy by_ wz bz X Y Z = Some (p, sta) -> 0 <= p <= 1.
Proof.
  intros approx num_f num_f2 with_z perms n dx dy dz wx bx wy by_ wz bz X Y Z p sta H1 H2 H3 H4 HP. unfold rcit_p. destruct (rcit_defined _ _ _ _ _ _ _ _ _ _ _ _ _ _ _ _); [|discriminate]. unfold rcit. apply p_value_range; assumption.
Qed.
(** The permutation p-value is the fraction of the permutations with a larger statistic... *)
Theorem C221_permutation : forall perms n dx dy wx bx wy by_ X Y p sta, perms <> [] -> rit_p sw hbe lpb4 chi2cdf eig pinv Perm perms n dx dy wx bx wy by_ X Y = Some (p, sta) ->
  let f := fun A B => INR n * rsum (fun k => rsum (fun l => mcov n A B k l ^ 2) (seq 0 5)) (seq 0 5) in
  let fx := features n dx wx bx (zscore n X) in let fy := features n dy wy by_ (zscore n Y) in
  sta = f fx fy /\ p = INR (length (filter (fun perm => if Rlt_dec sta (f (fun s => fx (perm s)) fy) then true else false) perms)) / INR (length perms).
Proof.
  intros perms n dx dy wx bx wy by_ X Y p sta HP E. cbv zeta. unfold rit_p in E. destruct (rit_defined _ _ _ _ _ _ _ _ _); [|discriminate]. unfold rit in E. injection E as <- <-. split; [reflexivity|].
  rewrite perm_p_eq by (destruct perms; [congruence|discriminate]). rewrite map_length. set (st := INR n * sumsq 5 _).
  assert (L : forall l, length (filter (fun x => if Rlt_dec st x then true else false) (map (fun perm => INR n * sumsq 5 (mcov n (fun s => features n dx wx bx (zscore n X) (perm s)) (features n dy wy by_ (zscore n Y)))) l)) =
    length (filter (fun perm => if Rlt_dec st (INR n * rsum (fun k => rsum (fun l => mcov n (fun s => features n dx wx bx (zscore n X) (perm s)) (features n dy wy by_ (zscore n Y)) k l ^ 2) (seq 0 5)) (seq 0 5)) then true else false) l)).
  { induction l as [|q l IH]; [reflexivity|]. cbn [map filter]. unfold sumsq at 1. destruct (Rlt_dec st _); cbn [length]; now rewrite IH. }
  rewrite L. unfold at_least_0. destruct (Rlt_dec _ 0) as [N|_]; [|reflexivity]. exfalso. apply (Rlt_not_le _ _ N), Rmult_le_pos; [apply pos_INR|]. left. apply Rinv_0_lt_compat, lt_0_INR. destruct perms; [congruence|cbn; lia].
Qed.
(** ... so it can be zero: a permutation test with N random permutations should never report less than 1 / (N + 1).  Whenever no permutation exceeds the observed statistic (for instance
    when they are all the identity) p = 0. *)
Theorem C221_permutation_zero_refuted : forall n dx dy wx bx wy by_ X Y, rit_defined n dx dy wx bx wy by_ X Y = true ->
  exists sta, rit_p sw hbe lpb4 chi2cdf eig pinv Perm (repeat (fun s => s) 1000) n dx dy wx bx wy by_ X Y = Some (0, sta).
Proof.
  intros n dx dy wx bx wy by_ X Y D. destruct (rit_p sw hbe lpb4 chi2cdf eig pinv Perm (repeat (fun s => s) 1000) n dx dy wx bx wy by_ X Y) as [[p sta]|] eqn:E.
  - exists sta. assert (N : repeat (fun s : nat => s) 1000 <> []) by (intros Q; apply (f_equal (@length _)) in Q; rewrite repeat_length in Q; discriminate).
    destruct (C221_permutation _ _ _ _ _ _ _ _ _ _ _ _ N E) as [Es Ep]. rewrite Ep. f_equal. f_equal.
    assert (F : forall k, filter (fun perm : nat -> nat => if Rlt_dec sta (INR n * rsum (fun k => rsum (fun l => mcov n (fun s => features n dx wx bx (zscore n X) (perm s)) (features n dy wy by_ (zscore n Y)) k l ^ 2) (seq 0 5)) (seq 0 5)) then true else false) (repeat (fun s => s) k) = []).
    { induction k as [|k IH]; [reflexivity|]. cbn [repeat filter]. destruct (Rlt_dec _ _) as [L|_]; [exfalso; rewrite Es in L; now apply Rlt_irrefl in L|exact IH]. }
    rewrite F. cbn [length INR]. unfold Rdiv. ring.
  - exfalso. unfold rit_p in E. rewrite D in E. discriminate.
Qed.
(** The statistic is never negative (chi2 apart), and zero exactly when the features are uncorrelated. *)
Lemma sumsq_nonneg f C : 0 <= sumsq f C.
Proof. unfold sumsq. apply rsum_nonneg. intros. apply rsum_nonneg. intros. replace (C x x0 ^ 2) with (Rsqr (C x x0)) by (unfold Rsqr; ring). apply Rle_0_sqr. Qed.
Lemma rsum_0_inv {A} (f : A -> R) l : (forall x, In x l -> 0 <= f x) -> rsum f l = 0 -> forall x, In x l -> f x = 0.
Proof.
  induction l as [|a l IH]; intros H E x Hx; [destruct Hx|]. rewrite rsum_cons in E. assert (0 <= rsum f l) by (clear - H; induction l as [|b l IH]; [unfold rsum; cbn; lra|]; rewrite rsum_cons; pose proof (H b ltac:(cbn; auto)); assert (0 <= rsum f l) by (apply IH; intros y Hy; apply H; destruct Hy; cbn; auto); lra).
  pose proof (H a (or_introl eq_refl)). destruct Hx as [<-|Hx]; [lra|]. apply IH; [intros; apply H; now right|lra|exact Hx].
Qed.
Theorem C221_statistic : forall approx perms n dx dy wx bx wy by_ X Y p sta, (0 < n)%nat -> approx <> Chi2 -> rit_p sw hbe lpb4 chi2cdf eig pinv approx perms n dx dy wx bx wy by_ X Y = Some (p, sta) ->
  0 <= sta /\ (sta = 0 <-> forall k l, (k < 5)%nat -> (l < 5)%nat -> mcov n (features n dx wx bx (zscore n X)) (features n dy wy by_ (zscore n Y)) k l = 0).
Proof.
  intros approx perms n dx dy wx bx wy by_ X Y p sta Hn HA E. assert (S1 : sta = INR n * sumsq 5 (mcov n (features n dx wx bx (zscore n X)) (features n dy wy by_ (zscore n Y)))).
  { unfold rit_p in E. destruct (rit_defined _ _ _ _ _ _ _ _ _); [|discriminate]. unfold rit, p_value in E. destruct approx; try congruence; injection E as _ <-; reflexivity. }
  subst sta. assert (NP : 0 < INR n) by now apply lt_0_INR. set (C := mcov _ _ _). pose proof (sumsq_nonneg 5 C). split; [apply Rmult_le_pos; lra|]. split.
  - intros Q k l Hk Hl. apply Rmult_integral in Q. destruct Q as [Q|Q]; [lra|]. unfold sumsq in Q.
    assert (SQ : forall x y, 0 <= C x y ^ 2) by (intros; replace (C x y ^ 2) with (Rsqr (C x y)) by (unfold Rsqr; ring); apply Rle_0_sqr).
    pose proof (rsum_0_inv _ _ (fun k _ => proj1 (rsum_nonneg (fun l => C k l ^ 2) (seq 0 5) (fun l _ => SQ k l))) Q k (proj2 (in_seq0 5 k) Hk)) as Q1. pose proof (rsum_0_inv _ _ (fun l _ => SQ k l) Q1 l (proj2 (in_seq0 5 l) Hl)) as Q2. cbn beta in Q2.
    replace (C k l ^ 2) with (C k l * C k l) in Q2 by ring. apply Rmult_integral in Q2. tauto.
  - intros Z0. unfold sumsq. rewrite (rsum_ext _ (fun _ => 0)); [rewrite rsum_0; ring|]. intros k Hk. apply in_seq0 in Hk. rewrite (rsum_ext _ (fun _ => 0)); [apply rsum_0|]. intros l Hl. apply in_seq0 in Hl. rewrite Z0 by assumption. ring.
Qed.
(** With one feature per variable the requested approximation is ignored: it is always hbe. *)
Theorem C221_single_feature_refuted : forall approx num_f with_z perms n dx dy dz wx bx wy by_ wz bz X Y Z,
  rcit_p sw hbe lpb4 chi2cdf eig pinv cinv approx num_f 1 with_z perms n dx dy dz wx bx wy by_ wz bz X Y Z = rcit_p sw hbe lpb4 chi2cdf eig pinv cinv Hbe num_f 1 with_z perms n dx dy dz wx bx wy by_ wz bz X Y Z.
Proof. reflexivity. Qed.
(** When lpb4 raises or gives NaN the p-value is that of hbe. *)
Theorem C221_fallback : forall perms n dx dy wx bx wy by_ X Y, (forall l s, lpb4 l s = None) ->
  rit_p sw hbe lpb4 chi2cdf eig pinv Lpd4 perms n dx dy wx bx wy by_ X Y = rit_p sw hbe lpb4 chi2cdf eig pinv Hbe perms n dx dy wx bx wy by_ X Y.
Proof. intros perms n dx dy wx bx wy by_ X Y H. unfold rit_p, rit, p_value. now rewrite H. Qed.
End P.

(** ** The hypotheses can be met *)
Lemma seq2 (f : nat -> R) : rsum f (seq 0 2) = f 0%nat + f 1%nat. Proof. unfold rsum. cbn. ring. Qed.
Lemma cvar2 X c : cvar 2 X c = (X 1%nat c - X 0%nat c) * (X 1%nat c - X 0%nat c) / 2.
Proof. unfold cvar, cmean. rewrite !seq2. cbn [Nat.sub INR]. field. Qed.
Lemma varying2 d X : (forall c, (c < d)%nat -> X 0%nat c <> X 1%nat c) -> varying 2 d X = true.
Proof.
  intros H. unfold varying. apply forallb_forall. intros c Hc. apply in_seq0 in Hc. specialize (H c Hc). rewrite cvar2. destruct (Req_EM_T _ 0) as [E|_]; [|reflexivity]. exfalso.
  apply H. assert (P : (X 1%nat c - X 0%nat c) * (X 1%nat c - X 0%nat c) = 0) by lra. apply Rmult_integral in P. lra.
Qed.
(** For two samples that differ there are draws for which the test is defined. *)
Theorem C219_defined_example : forall X, X 0%nat 0%nat <> X 1%nat 0%nat -> exists w b, rit_defined 2 1 1 w b w b X X = true.
Proof.
  intros X H. set (z := zscore 2 X). assert (V : cvar 2 X 0 <> 0) by (rewrite cvar2; intros E; apply H; assert (P : (X 1%nat 0%nat - X 0%nat 0%nat) * (X 1%nat 0%nat - X 0%nat 0%nat) = 0) by lra; apply Rmult_integral in P; lra).
  assert (VP : 0 < cvar 2 X 0) by (assert (0 <= cvar 2 X 0) by (rewrite cvar2; assert (Q := Rle_0_sqr (X 1%nat 0%nat - X 0%nat 0%nat)); unfold Rsqr in Q; lra); lra).
  pose proof (sqrt_lt_R0 _ VP) as SP. assert (E0 : z 0%nat 0%nat = - z 1%nat 0%nat) by (unfold z, zscore; destruct (Req_EM_T _ 0); [lra|]; unfold cmean; rewrite seq2; cbn [INR]; field; lra).
  assert (N1 : z 1%nat 0%nat <> 0) by (unfold z, zscore; destruct (Req_EM_T _ 0); [lra|]; unfold cmean; rewrite seq2; cbn [INR]; intros E; apply Rmult_integral in E; destruct E as [E|E]; [lra|]; pose proof (Rinv_0_lt_compat _ SP); lra).
  set (sg := bandwidth 2 1 z). assert (SN : sg <> 0) by (unfold sg, bandwidth; destruct (Req_EM_T _ 0); [lra|assumption]).
  exists (fun _ _ => sg * (PI / 2) / z 1%nat 0%nat), (fun _ => PI / 2). unfold rit_defined. rewrite (varying2 1 X) by (intros c Hc; assert (c = 0)%nat by lia; subst; exact H). cbn [andb]. fold z.
  assert (W : varying 2 5 (raw_features 2 1 (fun _ _ => sg * (PI / 2) / z 1%nat 0%nat) (fun _ => PI / 2) z) = true).
  { apply varying2. intros c _. unfold raw_features, fourier. fold sg. cbn [seq]. unfold rsum. cbn [map fold_right]. rewrite E0.
    replace (1 / sg * (sg * (PI / 2) / z 1%nat 0%nat) * - z 1%nat 0%nat + 0 + PI / 2) with 0 by (field; split; assumption).
    replace (1 / sg * (sg * (PI / 2) / z 1%nat 0%nat) * z 1%nat 0%nat + 0 + PI / 2) with PI by (field; split; assumption).
    rewrite cos_0, cos_PI. pose proof (sqrt_lt_R0 2 ltac:(lra)). lra. }
  now rewrite W.
Qed.
(** The permutation test of such data on itself reports 0 if the draws of the permutations are all the identity. *)
Theorem C221_zero_example_refuted : forall sw hbe lpb4 chi2cdf eig pinv, exists w b sta,
  rit_p sw hbe lpb4 chi2cdf eig pinv Perm (repeat (fun s => s) 1000) 2 1 1 w b w b (fun s _ => INR s) (fun s _ => INR s) = Some (0, sta).
Proof.
  intros sw hbe lpb4 chi2cdf eig pinv. destruct (C219_defined_example (fun s _ => INR s)) as (w & b & D); [cbn; lra|].
  destruct (C221_permutation_zero_refuted sw hbe lpb4 chi2cdf eig pinv 2 1 1 w b w b _ _ D) as [sta E]. now exists w, b, sta.
Qed.
(** An inverse in the sense of C220 exists for every single feature whose variance is not negative. *)
Theorem C220_inverse_example : exists cinv : nat -> rmat -> rmat, forall n fz, 0 <= mcov n fz fz 0%nat 0%nat -> inverse_of 1 (fun a b => mcov n fz fz a b + ridge * eye a b) (inv_Czz cinv n 1 fz).
Proof.
  exists (fun _ A => fun _ _ => / A 0%nat 0%nat). intros n fz V a b Ha Hb. assert (a = 0)%nat by lia. assert (b = 0)%nat by lia. subst. unfold mmul, inv_Czz. cbn [seq]. unfold rsum. cbn [map fold_right].
  assert (0 < ridge) by (unfold ridge; apply Rinv_0_lt_compat; apply pow_lt; lra). change (eye 0%nat 0%nat) with 1. field. lra.
Qed.
