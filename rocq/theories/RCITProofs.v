(** Randomised tests under rescaling and reordering; the residual covariance. *)
From Verif Require Import Base UtilsModel BICModel BICProofs EffectModel EffectProofs VARModel VARProofs ChisqProps CALMProofs KCIModel KCIProofs HSICModel HSICMedian RCITModel.
From Coq Require Import Permutation Reals Lra FunctionalExtensionality.
Local Open Scope R_scope.

(** ** Signs *)
Definition signed (g : nat -> R) (X : data) : data := fun s c => g c * X s c.
Definition signs (g : nat -> R) : Prop := forall c, g c * g c = 1.
Definition signed_w (g : nat -> R) (w : rmat) : rmat := fun k c => w k c * g c.
Lemma zscore_signs n a b X : (0 < n)%nat -> (forall c, a c <> 0) -> zscore n (rescaled a b X) = signed (fun c => sgn (a c)) (zscore n X).
Proof. intros Hn Ha. apply functional_extensionality. intros s. apply functional_extensionality. intros c. now apply zscore_rescaled. Qed.
Lemma signed_sqdist g d X : signs g -> sqdist d (signed g X) = sqdist d X.
Proof.
  intros G. apply functional_extensionality. intros a. apply functional_extensionality. intros b. unfold sqdist. apply rsum_ext. intros c _. unfold signed. specialize (G c).
  replace ((g c * X a c - g c * X b c) * (g c * X a c - g c * X b c)) with ((g c * g c) * ((X a c - X b c) * (X a c - X b c))) by ring. rewrite G. ring.
Qed.
Lemma signed_bandwidth n g d X : signs g -> bandwidth n d (signed g X) = bandwidth n d X.
Proof. intros G. unfold bandwidth, pos_dists. now rewrite (signed_sqdist g d X G). Qed.
Lemma signed_raw n g d w b X : signs g -> raw_features n d w b (signed g X) = raw_features n d (signed_w g w) b X.
Proof.
  intros G. unfold raw_features. rewrite (signed_bandwidth n g d X G). apply functional_extensionality. intros s. apply functional_extensionality. intros k. unfold fourier. do 3 f_equal.
  apply rsum_ext. intros c _. unfold signed, signed_w. ring.
Qed.
Lemma signed_features n g d w b X : signs g -> features n d w b (signed g X) = features n d (signed_w g w) b X.
Proof. intros G. unfold features. now rewrite signed_raw. Qed.
Lemma cvar_rescaled n a b X c : (0 < n)%nat -> cvar n (rescaled a b X) c = a c * a c * cvar n X c.
Proof.
  intros Hn. assert (NP : INR n <> 0) by (apply not_0_INR; lia).
  assert (M : cmean n (rescaled a b X) c = a c * cmean n X c + b c) by (unfold cmean, rescaled; rewrite rsum_plus, rsum_mult, rsum_const, seq_length; field; exact NP).
  unfold cvar. rewrite M. unfold rescaled. rewrite (rsum_ext _ (fun s => a c * a c * ((X s c - cmean n X c) * (X s c - cmean n X c)))) by (intros; ring). rewrite rsum_mult. unfold Rdiv. ring.
Qed.
Lemma forallb_ext' {A} (f g : A -> bool) l : (forall x, f x = g x) -> forallb f l = forallb g l.
Proof. intros H. induction l as [|x l IH]; [reflexivity|]. cbn. now rewrite H, IH. Qed.
Lemma varying_rescaled n d a b X : (0 < n)%nat -> (forall c, a c <> 0) -> varying n d (rescaled a b X) = varying n d X.
Proof.
  intros Hn Ha. unfold varying. apply forallb_ext'. intros c. rewrite (cvar_rescaled n a b X c Hn). destruct (Req_EM_T (cvar n X c) 0) as [E|N].
  - rewrite E, Rmult_0_r. destruct (Req_EM_T 0 0); [reflexivity|congruence].
  - destruct (Req_EM_T (a c * a c * cvar n X c) 0) as [Q|_]; [|reflexivity]. exfalso. apply Rmult_integral in Q. destruct Q as [Q|Q]; [apply Rmult_integral in Q; specialize (Ha c); tauto|tauto].
Qed.
Lemma signs_sgn (a : nat -> R) : signs (fun c => sgn (a c)). Proof. intros c. apply sgn_sq. Qed.
Lemma beside_signed dy g h Y Z : beside dy (signed g Y) (signed h Z) = signed (fun c => if Nat.ltb c dy then g c else h (c - dy)%nat) (beside dy Y Z).
Proof. apply functional_extensionality. intros s. apply functional_extensionality. intros c. unfold beside, signed. destruct (Nat.ltb c dy); reflexivity. Qed.
Lemma beside_signs dy g h : signs g -> signs h -> signs (fun c => if Nat.ltb c dy then g c else h (c - dy)%nat).
Proof. intros G H c. destruct (Nat.ltb c dy); [apply G|apply H]. Qed.

(** ** Reordered samples *)
Section Order.
Variable n : nat.
Variable sg : nat -> nat.
Hypothesis SH : shuffle n sg.
Definition moved (X : data) : data := fun s c => X (sg s) c.
Lemma moved_zscore X : zscore n (moved X) = moved (zscore n X).
Proof. apply functional_extensionality. intros s. apply functional_extensionality. intros c. exact (sh_zscore n sg SH X s c). Qed.
Lemma moved_mean X c : cmean n (moved X) c = cmean n X c.
Proof. unfold cmean. f_equal. apply (sh_sum n sg SH (fun s => X s c)). Qed.
Lemma moved_var X c : cvar n (moved X) c = cvar n X c.
Proof. unfold cvar. rewrite moved_mean. f_equal. apply (sh_sum n sg SH (fun s => (X s c - cmean n X c) * (X s c - cmean n X c))). Qed.
Lemma moved_varying d X : varying n d (moved X) = varying n d X.
Proof. apply forallb_ext'. intros c. now rewrite moved_var. Qed.
Lemma moved_bandwidth d X : (n <= 500)%nat -> bandwidth n d (moved X) = bandwidth n d X.
Proof. intros L. unfold bandwidth. replace (Nat.ltb 500 n) with false by (symmetry; apply Nat.ltb_ge; lia). unfold moved. now rewrite (rmedian_perm _ _ (sh_dists n sg SH d X)). Qed.
Lemma moved_raw d w b X : (n <= 500)%nat -> raw_features n d w b (moved X) = moved (raw_features n d w b X).
Proof. intros L. unfold raw_features. now rewrite moved_bandwidth. Qed.
Lemma moved_features d w b X : (n <= 500)%nat -> features n d w b (moved X) = moved (features n d w b X).
Proof. intros L. unfold features. rewrite moved_raw by exact L. apply moved_zscore. Qed.
Lemma moved_mcov A B : mcov n (moved A) (moved B) = mcov n A B.
Proof.
  apply functional_extensionality. intros k. apply functional_extensionality. intros l. unfold mcov. rewrite !moved_mean. f_equal.
  apply (sh_sum n sg SH (fun s => (A s k - cmean n A k) * (B s l - cmean n B l))).
Qed.
Lemma moved_xprod A B : xprod n (moved A) (moved B) = xprod n A B.
Proof. apply functional_extensionality. intros k. apply functional_extensionality. intros l. unfold xprod. f_equal. apply (sh_sum n sg SH (fun s => A s k * B s l)). Qed.
Lemma moved_second P : second_moments n (moved P) = second_moments n P.
Proof. apply functional_extensionality. intros k. apply functional_extensionality. intros l. unfold second_moments. f_equal. apply (sh_sum n sg SH (fun s => P s k * P s l)). Qed.
Lemma perm_mcov A B (q q' : nat -> nat) : (forall s, (s < n)%nat -> sg (q' s) = q (sg s)) -> mcov n (fun s => moved A (q' s)) (moved B) = mcov n (fun s => A (q s)) B.
Proof.
  intros H. apply functional_extensionality. intros k. apply functional_extensionality. intros l.
  assert (M : cmean n (fun s => moved A (q' s)) k = cmean n (fun s => A (q s)) k) by (unfold cmean; f_equal; apply (sh_sum' n sg SH); intros s Hs; unfold moved; now rewrite H).
  unfold mcov. rewrite M, moved_mean. f_equal. apply (sh_sum' n sg SH). intros s Hs. unfold moved. now rewrite H.
Qed.
End Order.

(** ** The residual covariance *)
Lemma mean_zscore n X c : (0 < n)%nat -> cmean n (zscore n X) c = 0.
Proof.
  intros Hn. assert (NP : INR n <> 0) by (apply not_0_INR; lia). unfold cmean. unfold zscore. destruct (Req_EM_T (cvar n X c) 0) as [Z|NZ].
  - rewrite rsum_0. unfold Rdiv. ring.
  - rewrite (rsum_ext (fun s => (X s c - cmean n X c) / sqrt (cvar n X c)) (fun s => / sqrt (cvar n X c) * (X s c - cmean n X c))) by (intros; unfold Rdiv; ring).
    rewrite rsum_mult, rsum_minus, rsum_const, seq_length. unfold cmean. replace (rsum (fun s => X s c) (seq 0 n) - INR n * (rsum (fun s => X s c) (seq 0 n) / INR n)) with 0 by (field; exact NP). unfold Rdiv. ring.
Qed.
Lemma mcov_centred n A B k l : cmean n A k = 0 -> cmean n B l = 0 -> mcov n A B k l = xprod n A B k l.
Proof. intros HA HB. unfold mcov, xprod. rewrite HA, HB. f_equal. apply rsum_ext. intros. ring. Qed.

Definition lin (m : nat) (P : data) (M : rmat) : data := fun s k => rsum (fun a => P s a * M a k) (seq 0 m).
Lemma xprod_lin_r n m F P M k l : xprod n F (lin m P M) k l = rsum (fun a => xprod n F P k a * M a l) (seq 0 m).
Proof.
  unfold xprod, lin. rewrite (rsum_ext (fun s => F s k * rsum (fun a => P s a * M a l) (seq 0 m)) (fun s => rsum (fun a => F s k * P s a * M a l) (seq 0 m))) by (intros s _; rewrite <- rsum_mult; apply rsum_ext; intros; ring).
  rewrite rsum_swap. unfold Rdiv. rewrite Rmult_comm, <- rsum_mult. apply rsum_ext. intros a _. rewrite (rsum_ext (fun s => F s k * P s a * M a l) (fun s => M a l * (F s k * P s a))) by (intros; ring). rewrite rsum_mult. ring.
Qed.
Lemma xprod_sym n A B k l : xprod n A B k l = xprod n B A l k.
Proof. unfold xprod. f_equal. apply rsum_ext. intros. ring. Qed.
Lemma xprod_lin_l n m P M G k l : xprod n (lin m P M) G k l = rsum (fun a => M a k * xprod n P G a l) (seq 0 m).
Proof. rewrite xprod_sym, xprod_lin_r. apply rsum_ext. intros a _. rewrite (xprod_sym n G P). ring. Qed.
Lemma xprod_minus_r n F A B k l : xprod n F (fun s k => A s k - B s k) k l = xprod n F A k l - xprod n F B k l.
Proof. unfold xprod. rewrite (rsum_ext _ (fun s => F s k * A s l - F s k * B s l)) by (intros; ring). rewrite rsum_minus. unfold Rdiv. ring. Qed.
Lemma xprod_minus_l n A B G k l : xprod n (fun s k => A s k - B s k) G k l = xprod n A G k l - xprod n B G k l.
Proof. rewrite xprod_sym, xprod_minus_r, (xprod_sym n G A), (xprod_sym n G B). reflexivity. Qed.
Lemma cmean_lin n m P M k : (forall a, (a < m)%nat -> cmean n P a = 0) -> cmean n (lin m P M) k = 0.
Proof.
  intros H. unfold cmean, lin. rewrite rsum_swap. unfold Rdiv. rewrite Rmult_comm, <- rsum_mult. rewrite (rsum_ext _ (fun _ => 0)); [apply rsum_0|]. intros a Ha. apply in_seq0 in Ha. specialize (H a Ha). unfold cmean in H.
  rewrite (rsum_ext (fun s => P s a * M a k) (fun s => M a k * P s a)) by (intros; ring). rewrite rsum_mult. unfold Rdiv in H. replace (/ INR n * (M a k * rsum (fun s => P s a) (seq 0 n))) with (M a k * (rsum (fun s => P s a) (seq 0 n) * / INR n)) by ring. rewrite H. ring.
Qed.
Lemma cmean_minus n A B k : cmean n (fun s k => A s k - B s k) k = cmean n A k - cmean n B k.
Proof. unfold cmean. rewrite rsum_minus. unfold Rdiv. ring. Qed.
(** A regression of both sides on P with coefficients U, V, where V solves the ridge equations. *)
Lemma ridge_normal n m P FY V eps a l : (a < m)%nat -> (forall b, (b < m)%nat -> rsum (fun c => (xprod n P P b c + eps * eye b c) * V c l) (seq 0 m) = xprod n P FY b l) ->
  xprod n P (fun s k => FY s k - lin m P V s k) a l = eps * V a l.
Proof.
  intros Ha H. rewrite (xprod_minus_r n P FY (lin m P V)), xprod_lin_r. rewrite <- (H a Ha). rewrite (rsum_ext (fun c => (xprod n P P a c + eps * eye a c) * V c l) (fun c => xprod n P P a c * V c l + eps * (eye a c * V c l))) by (intros; ring).
  rewrite rsum_plus, rsum_mult, (rsum_eye m a (fun c => V c l) Ha). ring.
Qed.
Lemma ridge_cov n m P FX FY U V eps k l : (forall b, (b < m)%nat -> rsum (fun c => (xprod n P P b c + eps * eye b c) * V c l) (seq 0 m) = xprod n P FY b l) ->
  xprod n (fun s k => FX s k - lin m P U s k) (fun s k => FY s k - lin m P V s k) k l =
  xprod n FX FY k l - rsum (fun a => xprod n FX P k a * V a l) (seq 0 m) - eps * rsum (fun a => U a k * V a l) (seq 0 m).
Proof.
  intros H. rewrite (xprod_minus_l n FX (lin m P U)), (xprod_minus_r n FX FY (lin m P V)), xprod_lin_r, xprod_lin_l.
  rewrite (rsum_ext (fun a => U a k * xprod n P (fun s k => FY s k - lin m P V s k) a l) (fun a => eps * (U a k * V a l))); [rewrite rsum_mult; ring|].
  intros a Ha. apply in_seq0 in Ha. rewrite (ridge_normal n m P FY V eps a l Ha H). ring.
Qed.
