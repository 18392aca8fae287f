(** C190 partial correlation, C191 invariance, C192 missing values, C193 missingness correction. *)
From Verif Require Import Base UtilsModel UtilsProofs BICModel BICProofs EffectModel EffectProofs VARModel VARProofs ChisqProps CALMProofs KCIProofs CacheModel CacheProofs FisherSpec FisherModel FisherProofs FisherMain.
From Coq Require Import Permutation Reals Lra.
Local Open Scope R_scope.

Lemma existsb_constant rows D var : rows <> [] ->
  existsb (fun v => if Req_EM_T (cross rows (fun s => D s v) (fun s => D s v)) 0 then true else false) var = true <-> exists v, In v var /\ constant_in rows D v.
Proof.
  intros NE. rewrite existsb_exists. split; intros (v & Hv & H); exists v; (split; [exact Hv|]).
  - apply (constant_cross rows D NE). unfold col. now destruct (Req_EM_T _ 0).
  - apply (constant_cross rows D NE) in H. unfold col in H. now destruct (Req_EM_T _ 0).
Qed.
Lemma clip_id r : Rabs r < 1 -> clip r = r. Proof. intros H. unfold clip. destruct (Rle_dec 1 (Rabs r)); [lra|reflexivity]. Qed.
Lemma fisher_p_eq Phi (rows : list nat) k r : 2 * (1 - Phi (Rabs (sqrt (INR (length rows - k - 3)) * Rabs (atanh r)))) = fisher_p Phi (length rows) k r.
Proof. unfold fisher_p, atanh. rewrite Rabs_right; [reflexivity|]. apply Rle_ge, Rmult_le_pos; [apply sqrt_pos|apply Rabs_pos]. Qed.
Lemma rows_ne (rows : list nat) k : (k + 3 <= length rows)%nat -> rows <> []. Proof. intros H ->. cbn in H. lia. Qed.

(** ** C190: the test computes Fisher's p-value of the partial correlation *)
Theorem C190_partial_correlation : forall minv Phi rows D X Y S p, minv_ok (2 + length S) minv -> NoDup (X :: Y :: S) -> fisher minv Phi rows D X Y S = PV p ->
  ((exists ex, is_residual rows D S X ex) /\ exists ey, is_residual rows D S Y ey) /\
  forall ex ey, is_residual rows D S X ex -> is_residual rows D S Y ey ->
    0 < ip rows ex ex /\ 0 < ip rows ey ey /\ Rabs (pcorr rows ex ey) < 1 /\ p = fisher_p Phi (length rows) (length S) (pcorr rows ex ey).
Proof.
  intros minv Phi rows D X Y S p MO ND. unfold fisher. destruct (Nat.ltb_spec (length rows) (length S + 3)) as [|LE]; [discriminate|]. pose proof (rows_ne rows _ LE) as NE.
  destruct (existsb _ _) eqn:EB; [discriminate|]. specialize (MO (A rows D (X :: Y :: S))). change (2 + length S)%nat with (length (X :: Y :: S)) in MO.
  change (fun i j => corr rows (fun s => D s (nth i (X :: Y :: S) 0%nat)) (fun t => D t (nth j (X :: Y :: S) 0%nat))) with (A rows D (X :: Y :: S)).
  destruct (minv (length (X :: Y :: S)) (A rows D (X :: Y :: S))) as [B|]; [|discriminate]. destruct MO as (AB & BA). intros E. injection E as <-.
  assert (NC : forall v, In v (X :: Y :: S) -> ~ constant_in rows D v) by (intros v Hv C; assert (T := proj2 (existsb_constant rows D (X :: Y :: S) NE) (ex_intro _ v (conj Hv C))); congruence).
  split; [exact (residuals_exist rows D X Y S NE ND NC B AB)|]. intros ex ey RX RY.
  destruct (partial_corr rows D X Y S NE ND NC B BA ex ey RX RY) as (H1 & H2 & H3 & H4). split; [exact H1|]. split; [exact H2|]. split; [exact H3|]. rewrite H4, clip_id by exact H3. apply fisher_p_eq.
Qed.
(** When it raises and when it is NaN. *)
Theorem C190_outcome : forall minv Phi rows D X Y S, minv_ok (2 + length S) minv -> NoDup (X :: Y :: S) ->
  let const := exists v, In v (X :: Y :: S) /\ constant_in rows D v in
  (fisher minv Phi rows D X Y S = PNaN <-> (length S + 3 <= length rows)%nat /\ const) /\
  (fisher minv Phi rows D X Y S = PError <-> (length rows < length S + 3)%nat \/ ~ const /\ collinear rows D (X :: Y :: S)).
Proof.
  intros minv Phi rows D X Y S MO ND const. unfold fisher. destruct (Nat.ltb_spec (length rows) (length S + 3)) as [LT|LE]; [split; split; try discriminate; try tauto; lia|]. pose proof (rows_ne rows _ LE) as NE.
  pose proof (existsb_constant rows D (X :: Y :: S) NE) as EC. fold const in EC. destruct (existsb _ _) eqn:EB.
  - assert (C : const) by now apply EC. split; split; try discriminate; try tauto. intros [H|H]; [lia|tauto].
  - assert (NC' : ~ const) by (intros C; apply EC in C; discriminate). assert (NC : forall v, In v (X :: Y :: S) -> ~ constant_in rows D v) by (intros v Hv C; apply NC'; now exists v).
    specialize (MO (A rows D (X :: Y :: S))). change (2 + length S)%nat with (length (X :: Y :: S)) in MO.
    change (fun i j => corr rows (fun s => D s (nth i (X :: Y :: S) 0%nat)) (fun t => D t (nth j (X :: Y :: S) 0%nat))) with (A rows D (X :: Y :: S)).
    destruct (minv (length (X :: Y :: S)) (A rows D (X :: Y :: S))) as [B|].
    + destruct MO as (_ & BA). pose proof (no_inverse_if_collinear rows D NE (X :: Y :: S) NC B BA) as NI. split; split; try discriminate; try tauto. intros [H|H]; [lia|tauto].
    + destruct MO as (t & T1 & T2). pose proof (collinear_if_kernel rows D NE (X :: Y :: S) ND NC t T1 T2) as CL. split; split; try discriminate; tauto.
Qed.
(** The p-value is between 0 and 1, and 1 exactly if the partial correlation is 0 or there are as few as |S| + 3 samples; otherwise it decreases with the size of the correlation. *)
Lemma atanh_pos r : 0 <= r -> r < 1 -> 0 <= 1 / 2 * ln ((1 + r) / (1 - r)).
Proof.
  intros H0 H1. assert (1 <= (1 + r) / (1 - r)); [|destruct H as [H|H]; [apply Rmult_le_pos; [lra|]; left; rewrite <- ln_1; apply ln_increasing; lra|rewrite <- H, ln_1; lra]].
  apply (Rmult_le_reg_r (1 - r)); [lra|]. unfold Rdiv. rewrite Rmult_assoc, Rinv_l by lra. lra.
Qed.
Lemma atanh_odd r : Rabs r < 1 -> Rabs (1 / 2 * ln ((1 + r) / (1 - r))) = 1 / 2 * ln ((1 + Rabs r) / (1 - Rabs r)).
Proof.
  intros H. destruct (Rle_dec 0 r) as [P|N].
  - rewrite (Rabs_right r) in * by lra. apply Rabs_right, Rle_ge, atanh_pos; lra.
  - rewrite (Rabs_left r) in * by lra. replace ((1 + r) / (1 - r)) with (/ ((1 + - r) / (1 - - r))) by (field; lra). rewrite ln_Rinv by (apply Rmult_lt_0_compat; [lra|apply Rinv_0_lt_compat; lra]).
    replace (1 / 2 * - ln ((1 + - r) / (1 - - r))) with (- (1 / 2 * ln ((1 + - r) / (1 - - r)))) by ring. rewrite Rabs_Ropp. apply Rabs_right, Rle_ge, atanh_pos; lra.
Qed.
Lemma atanh_lt r q : 0 <= r -> r < q -> q < 1 -> 1 / 2 * ln ((1 + r) / (1 - r)) < 1 / 2 * ln ((1 + q) / (1 - q)).
Proof.
  intros H0 H1 H2. apply Rmult_lt_compat_l; [lra|]. apply ln_increasing; [apply Rmult_lt_0_compat; [lra|apply Rinv_0_lt_compat; lra]|].
  assert (E : (1 + q) / (1 - q) - (1 + r) / (1 - r) = 2 * (q - r) / ((1 - q) * (1 - r))) by (field; lra). assert (0 < 2 * (q - r) / ((1 - q) * (1 - r))) by (apply Rmult_lt_0_compat; [lra|apply Rinv_0_lt_compat; nra]). lra.
Qed.
Lemma fisher_p_abs Phi m k r q : Rabs r < 1 -> Rabs q = Rabs r -> fisher_p Phi m k q = fisher_p Phi m k r.
Proof. intros H E. unfold fisher_p. rewrite !atanh_odd by (rewrite ?E; exact H). now rewrite E. Qed.
Theorem C190_p_value : forall Phi m k r, normal_cdf Phi -> Rabs r < 1 -> (k + 3 <= m)%nat ->
  0 <= fisher_p Phi m k r <= 1 /\ (fisher_p Phi m k r = 1 <-> r = 0 \/ m = (k + 3)%nat) /\
  ((k + 3 < m)%nat -> forall q, Rabs r < Rabs q -> Rabs q < 1 -> fisher_p Phi m k q < fisher_p Phi m k r).
Proof.
  intros Phi m k r (P0 & PM & PB) H LE. assert (MON : forall s t, s <= t -> Phi s <= Phi t) by (intros s t [L|E]; [left; now apply PM|rewrite E; lra]).
  unfold fisher_p. rewrite (atanh_odd r H). set (t := 1 / 2 * ln ((1 + Rabs r) / (1 - Rabs r))). set (n := sqrt (INR (m - k - 3))).
  assert (T0 : 0 <= t) by (apply atanh_pos; [apply Rabs_pos|exact H]). assert (N0 : 0 <= n) by apply sqrt_pos. assert (NP : (k + 3 < m)%nat -> 0 < n) by (intros L; apply sqrt_lt_R0, lt_0_INR; lia).
  split; [|split].
  - pose proof (PB (n * t)). pose proof (MON 0 (n * t) ltac:(nra)). lra.
  - split.
    + intros E. destruct (Nat.eq_dec m (k + 3)) as [->|NM]; [now right|left]. specialize (NP ltac:(lia)). destruct (Req_EM_T r 0) as [Z|NZ]; [exact Z|exfalso].
      assert (TP : 0 < t) by (replace 0 with (1 / 2 * ln ((1 + 0) / (1 - 0))) by (replace ((1 + 0) / (1 - 0)) with 1 by field; rewrite ln_1; ring); apply atanh_lt; [lra|now apply Rabs_pos_lt|exact H]).
      pose proof (PM 0 (n * t) ltac:(nra)). lra.
    + intros [-> | ->].
      * assert (Z : t = 0) by (unfold t; rewrite Rabs_R0; replace ((1 + 0) / (1 - 0)) with 1 by field; rewrite ln_1; ring). rewrite Z, Rmult_0_r, P0. field.
      * assert (Z : n = 0) by (unfold n; replace (k + 3 - k - 3)%nat with 0%nat by lia; apply sqrt_0). rewrite Z, Rmult_0_l, P0. field.
  - intros L q H1 H2. specialize (NP L). rewrite (atanh_odd q H2). pose proof (atanh_lt (Rabs r) (Rabs q) (Rabs_pos r) H1 H2) as TL. fold t in TL. pose proof (PM (n * t) (n * (1 / 2 * ln ((1 + Rabs q) / (1 - Rabs q)))) ltac:(apply Rmult_lt_compat_l; assumption)). lra.
Qed.

(** ** C191: what the result does not depend on *)
Lemma fisher_congr minv Phi rows D X Y S rows' D' X' Y' S' : minv_ok (2 + length S) minv -> length rows' = length rows -> length S' = length S -> NoDup (X :: Y :: S) -> NoDup (X' :: Y' :: S') ->
  ((exists v, In v (X :: Y :: S) /\ constant_in rows D v) <-> exists v, In v (X' :: Y' :: S') /\ constant_in rows' D' v) ->
  (collinear rows D (X :: Y :: S) <-> collinear rows' D' (X' :: Y' :: S')) ->
  (forall ex ey, is_residual rows D S X ex -> is_residual rows D S Y ey -> exists ex' ey', is_residual rows' D' S' X' ex' /\ is_residual rows' D' S' Y' ey' /\ Rabs (pcorr rows' ex' ey') = Rabs (pcorr rows ex ey)) ->
  fisher minv Phi rows' D' X' Y' S' = fisher minv Phi rows D X Y S.
Proof.
  intros MO LR LS ND ND' HC HL HR. assert (MO' : minv_ok (2 + length S') minv) by now rewrite LS.
  destruct (C190_outcome minv Phi rows D X Y S MO ND) as (N1 & E1). destruct (C190_outcome minv Phi rows' D' X' Y' S' MO' ND') as (N2 & E2). rewrite LR, LS, <- HC in N2. rewrite LR, LS, <- HC, <- HL in E2.
  destruct (fisher minv Phi rows D X Y S) as [p| |] eqn:F1.
  - destruct (fisher minv Phi rows' D' X' Y' S') as [p'| |] eqn:F2; [|exfalso|exfalso].
    + destruct (C190_partial_correlation _ _ _ _ _ _ _ _ MO ND F1) as (((ex & RX) & ey & RY) & R1). destruct (C190_partial_correlation _ _ _ _ _ _ _ _ MO' ND' F2) as (_ & R2).
      destruct (HR ex ey RX RY) as (ex' & ey' & RX' & RY' & HP). destruct (R1 ex ey RX RY) as (_ & _ & P1 & ->). destruct (R2 ex' ey' RX' RY') as (_ & _ & P2 & ->). rewrite LR, LS. f_equal. now apply fisher_p_abs.
    + assert (T : PNaN = PNaN) by reflexivity. apply N2, N1 in T. discriminate.
    + assert (T : PError = PError) by reflexivity. apply E2, E1 in T. discriminate.
  - assert (T : PNaN = PNaN) by reflexivity. apply N1, N2 in T. exact T.
  - assert (T : PError = PError) by reflexivity. apply E1, E2 in T. exact T.
Qed.
Lemma collinear_perm rows D l m : Permutation l m -> collinear rows D l -> collinear rows D m.
Proof.
  intros P (u & c & (v & Hv & Uv) & H). exists u, c. split; [exists v; split; [now apply (Permutation_in _ P)|exact Uv]|]. intros s Hs. now rewrite <- (rsum_perm _ _ _ P), H.
Qed.
Lemma residual_perm rows D S S' x e : Permutation S S' -> is_residual rows D S x e -> is_residual rows D S' x e.
Proof.
  intros P ((b & c & H) & H0 & HS). split; [exists b, c; intros s Hs; now rewrite <- (rsum_perm _ _ _ P), H|]. split; [exact H0|]. intros k Hk. apply HS. now apply (Permutation_in _ (Permutation_sym P)).
Qed.
(** Exchanging X and Y, and reordering the conditioning variables. *)
Theorem C191_swap_and_reorder : forall minv Phi rows D X Y S S', minv_ok (2 + length S) minv -> NoDup (X :: Y :: S) -> Permutation S S' ->
  fisher minv Phi rows D X Y S' = fisher minv Phi rows D X Y S /\ fisher minv Phi rows D Y X S' = fisher minv Phi rows D X Y S.
Proof.
  intros minv Phi rows D X Y S S' MO ND P. assert (P1 : Permutation (X :: Y :: S) (X :: Y :: S')) by now do 2 apply perm_skip. assert (P2 : Permutation (X :: Y :: S) (Y :: X :: S')) by (rewrite perm_swap; now do 2 apply perm_skip).
  split; apply fisher_congr; auto using Permutation_length, Permutation_sym; try (eapply Permutation_NoDup; eassumption).
  - split; intros (v & Hv & C); exists v; (split; [|exact C]); [now apply (Permutation_in _ P1)|now apply (Permutation_in _ (Permutation_sym P1))].
  - split; apply collinear_perm; [exact P1|now apply Permutation_sym].
  - intros ex ey RX RY. exists ex, ey. split; [now apply (residual_perm rows D S S')|]. split; [now apply (residual_perm rows D S S')|reflexivity].
  - split; intros (v & Hv & C); exists v; (split; [|exact C]); [now apply (Permutation_in _ P2)|now apply (Permutation_in _ (Permutation_sym P2))].
  - split; apply collinear_perm; [exact P2|now apply Permutation_sym].
  - intros ex ey RX RY. exists ey, ex. split; [now apply (residual_perm rows D S S')|]. split; [now apply (residual_perm rows D S S')|]. unfold pcorr. now rewrite (ip_sym rows ey ex), (Rmult_comm (ip rows ey ey)).
Qed.
(** Row s of the new data is row f s of the old. *)
Lemma fisher_rows minv Phi rows rows' f D X Y S : minv_ok (2 + length S) minv -> NoDup (X :: Y :: S) -> Permutation (map f rows') rows ->
  fisher minv Phi rows' (fun s => D (f s)) X Y S = fisher minv Phi rows D X Y S.
Proof.
  intros MO ND P.
  assert (SUM : forall g : nat -> R, rsum (fun s => g (f s)) rows' = rsum g rows) by (intros g; rewrite <- (rsum_map f g); now apply rsum_perm).
  assert (IN : forall (Q : nat -> Prop), (forall s, In s rows' -> Q (f s)) <-> forall s, In s rows -> Q s).
  { intros Q. split; intros H s Hs.
    - apply (Permutation_in _ (Permutation_sym P)) in Hs. apply in_map_iff in Hs. destruct Hs as (t & <- & Ht). now apply H.
    - apply H. apply (Permutation_in _ P). now apply in_map. }
  apply fisher_congr; auto; [now rewrite <- (Permutation_length P), map_length| | |].
  - split; intros (v & Hv & c & C); exists v; (split; [exact Hv|]); exists c; [apply (proj2 (IN (fun t => D t v = c)) C)|apply (proj1 (IN (fun t => D t v = c)) C)].
  - split; intros (u & c & U & C); exists u, c; (split; [exact U|]); [apply (proj2 (IN (fun t => rsum (fun v => u v * D t v) (X :: Y :: S) = c)) C)|apply (proj1 (IN (fun t => rsum (fun v => u v * D t v) (X :: Y :: S) = c)) C)].
  - assert (RES : forall x e, is_residual rows D S x e -> is_residual rows' (fun s => D (f s)) S x (fun s => e (f s))).
    { intros x e ((b & c & H) & H0 & HS). split; [exists b, c; exact (proj2 (IN (fun t => e t = D t x - c - rsum (fun k => b k * D t k) S)) H)|]. split; [now rewrite SUM|]. intros k Hk. unfold ip. rewrite (SUM (fun s => e s * D s k)). now apply HS. }
    intros ex ey RX RY. exists (fun s => ex (f s)), (fun s => ey (f s)). split; [now apply RES|]. split; [now apply RES|]. unfold pcorr, ip. now rewrite (SUM (fun s => ex s * ey s)), (SUM (fun s => ex s * ex s)), (SUM (fun s => ey s * ey s)).
Qed.
(** Reordering the samples. *)
Theorem C191_sample_order : forall minv Phi n f D X Y S, minv_ok (2 + length S) minv -> NoDup (X :: Y :: S) -> Permutation (map f (seq 0 n)) (seq 0 n) ->
  fisher minv Phi (seq 0 n) (fun s => D (f s)) X Y S = fisher minv Phi (seq 0 n) D X Y S.
Proof. intros minv Phi n f D X Y S MO ND P. now apply fisher_rows. Qed.
(** Shifting and rescaling the columns (also by negative factors). *)
Theorem C191_units : forall minv Phi rows D X Y S a b, minv_ok (2 + length S) minv -> NoDup (X :: Y :: S) -> (forall v, In v (X :: Y :: S) -> a v <> 0) ->
  fisher minv Phi rows (fun s v => a v * D s v + b v) X Y S = fisher minv Phi rows D X Y S.
Proof.
  intros minv Phi rows D X Y S a b MO ND HA. apply fisher_congr; auto.
  - split; intros (v & Hv & c & C); exists v; (split; [exact Hv|]).
    + exists (a v * c + b v). intros s Hs. now rewrite C.
    + exists ((c - b v) / a v). intros s Hs. specialize (C s Hs). cbv beta in C. rewrite <- C. field. now apply HA.
  - split; intros (u & c & (v & Hv & Uv) & C).
    + exists (fun x => u x / a x), (c + rsum (fun x => u x / a x * b x) (X :: Y :: S)). split; [exists v; split; [exact Hv|]; intros Z; apply Rmult_integral in Z; destruct Z as [Z|Z]; [contradiction|]; specialize (HA v Hv); apply Rinv_neq_0_compat in HA; contradiction|].
      intros s Hs. rewrite <- (C s Hs), <- rsum_plus. apply rsum_ext. intros x Hx. field. now apply HA.
    + exists (fun x => u x * a x), (c - rsum (fun x => u x * b x) (X :: Y :: S)). split; [exists v; split; [exact Hv|]; apply Rmult_integral_contrapositive; split; auto|].
      intros s Hs. rewrite <- (C s Hs), <- rsum_minus. apply rsum_ext. intros x Hx. ring.
  - assert (RES : forall x e, In x (X :: Y :: S) -> is_residual rows D S x e -> is_residual rows (fun s v => a v * D s v + b v) S x (fun s => a x * e s)).
    { intros x e Hx ((be & c & H) & H0 & HS). split; [|split].
      - exists (fun k => a x * be k / a k), (a x * c + b x - rsum (fun k => a x * be k / a k * b k) S). intros s Hs. rewrite (H s Hs).
        rewrite (rsum_ext (fun k => a x * be k / a k * (a k * D s k + b k)) (fun k => a x * (be k * D s k) + a x * be k / a k * b k)) by (intros k Hk; field; apply HA; right; now right). rewrite rsum_plus, rsum_mult. ring.
      - rewrite rsum_mult, H0. ring.
      - intros k Hk. rewrite ip_scale. unfold ip. rewrite (rsum_ext _ (fun s => a k * (e s * D s k) + b k * e s)) by (intros; ring). rewrite rsum_plus, !rsum_mult, H0. change (rsum (fun s => e s * D s k) rows) with (ip rows e (fun s => D s k)). rewrite HS by exact Hk. ring. }
    intros ex ey RX RY. assert (AX : a X <> 0) by (apply HA; now left). assert (AY : a Y <> 0) by (apply HA; right; now left). exists (fun s => a X * ex s), (fun s => a Y * ey s). split; [apply RES; [now left|exact RX]|]. split; [apply RES; [right; now left|exact RY]|].
    unfold pcorr. assert (E1 : forall f g c q, ip rows (fun s => c * f s) (fun s => q * g s) = c * q * ip rows f g) by (intros f g c q; rewrite ip_scale, ip_sym, ip_scale, ip_sym; ring). rewrite !E1.
    replace (a X * a X * ip rows ex ex * (a Y * a Y * ip rows ey ey)) with ((a X * a Y) * (a X * a Y) * (ip rows ex ex * ip rows ey ey)) by ring.
    rewrite sqrt_mult by (exact (Rle_0_sqr _) || (apply Rmult_le_pos; apply ip_pos)). change (a X * a Y * (a X * a Y)) with (Rsqr (a X * a Y)). rewrite sqrt_Rsqr_abs. set (t := a X * a Y). assert (T : t <> 0) by now apply Rmult_integral_contrapositive.
    set (q := sqrt (ip rows ex ex * ip rows ey ey)). set (z := ip rows ex ey). unfold Rdiv. rewrite Rinv_mult, !Rabs_mult, (Rabs_inv (Rabs t)), Rabs_Rabsolu. pose proof (Rabs_no_R0 _ T) as T'. set (u := Rabs (/ q)). field. exact T'.
Qed.

(** The calls: repetitions and order of the conditioning variables, and the order of X and Y, do not matter; the outcome is that of [fisher] for them. *)
Lemma sort_set_NoDup l : NoDup (sort_set l).
Proof.
  pose proof (sort_set_sorted l) as H. induction H as [|a m H IH F]; constructor; [|exact IH]. intros I. rewrite Forall_forall in F. specialize (F a I). lia.
Qed.
Theorem C190_call : forall minv Phi n D X Y S, minv_ok (2 + length S) minv -> NoDup (X :: Y :: S) -> fisherz minv Phi n D X Y S = fisher minv Phi (seq 0 n) D X Y S.
Proof.
  intros minv Phi n D X Y S MO ND. unfold fisherz, with_args. inversion ND as [|? ? N1 N2]; subst. inversion N2 as [|? ? N3 N4]; subst. cbn [In] in N1.
  assert (MX : memb X (sort_set S) = false) by (apply memb_not_In; rewrite sort_set_In; tauto). assert (MY : memb Y (sort_set S) = false) by (apply memb_not_In; rewrite sort_set_In; tauto). rewrite MX, MY. cbn [orb].
  assert (P : Permutation S (sort_set S)) by (apply NoDup_Permutation; [exact N4|apply sort_set_NoDup|intros v; now rewrite sort_set_In]).
  destruct (C191_swap_and_reorder minv Phi (seq 0 n) D X Y S (sort_set S) MO ND P) as (E1 & E2). destruct (Nat.le_ge_cases X Y) as [L|L]; [rewrite Nat.min_l, Nat.max_r by exact L; exact E1|rewrite Nat.min_r, Nat.max_l by exact L; exact E2].
Qed.
Theorem C191_call : forall minv Phi n D X Y S S', (forall v, In v S <-> In v S') -> fisherz minv Phi n D X Y S = fisherz minv Phi n D Y X S'.
Proof.
  intros minv Phi n D X Y S S' H. unfold fisherz, with_args. assert (E : sort_set S = sort_set S') by (apply sort_set_eq; exact H). rewrite E, (Nat.min_comm X Y), (Nat.max_comm X Y). now rewrite orb_comm.
Qed.
(** A concrete case: columns s and s^2, four samples; np.linalg.inv for two by two matrices. *)
Definition minv2 (k : nat) (M : rmat) : option rmat :=
  let dt := M 0%nat 0%nat * M 1%nat 1%nat - M 0%nat 1%nat * M 1%nat 0%nat in
  if Req_EM_T dt 0 then None else Some (fun i j => (if Nat.eqb i j then M (1 - i)%nat (1 - j)%nat else - M i j) / dt).
Lemma minv2_ok : minv_ok 2 minv2.
Proof.
  intros M. unfold minv2. set (dt := M 0%nat 0%nat * M 1%nat 1%nat - M 0%nat 1%nat * M 1%nat 0%nat). destruct (Req_EM_T dt 0) as [Z|NZ].
  - unfold dt in Z. destruct (Req_EM_T (M 0%nat 0%nat) 0) as [A0|A0]; [destruct (Req_EM_T (M 0%nat 1%nat) 0) as [A1|A1]|].
    + destruct (Req_EM_T (M 1%nat 0%nat) 0) as [A2|A2]; [exists (fun i => if Nat.eqb i 0 then 1 else 0)|exists (fun i => if Nat.eqb i 0 then M 1%nat 1%nat else - M 1%nat 0%nat)]; (split; [exists (if Req_EM_T (M 1%nat 0%nat) 0 then 0%nat else 1%nat)|]).
      * destruct (Req_EM_T _ 0); [|contradiction]. cbn. split; [lia|lra].
      * intros i Hi. unfold rsum. destruct i as [|[|i]]; [| |lia]; cbn; lra.
      * destruct (Req_EM_T _ 0); [contradiction|]. cbn. split; [lia|lra].
      * intros i Hi. unfold rsum. destruct i as [|[|i]]; [| |lia]; cbn; lra.
    + exists (fun i => if Nat.eqb i 0 then M 0%nat 1%nat else - M 0%nat 0%nat). split; [exists 0%nat; split; [lia|exact A1]|]. intros i Hi. unfold rsum. destruct i as [|[|i]]; [| |lia]; cbn; lra.
    + exists (fun i => if Nat.eqb i 0 then M 0%nat 1%nat else - M 0%nat 0%nat). split; [exists 1%nat; split; [lia|cbn; lra]|]. intros i Hi. unfold rsum. destruct i as [|[|i]]; [| |lia]; cbn; lra.
  - split; intros i j Hi Hj; unfold mmul, eye, rsum; (destruct i as [|[|i]]; [| |lia]); (destruct j as [|[|j]]; [| |lia]); cbn; unfold dt in *; field; exact NZ.
Qed.
Example C190_example : forall Phi, exists p, fisherz minv2 Phi 4 (fun s v => INR s ^ Datatypes.S v) 0 1 [] = PV p.
Proof.
  intros Phi. assert (ND : NoDup [0; 1]%nat) by (repeat constructor; cbn; intuition lia). rewrite (C190_call minv2 Phi 4 _ 0 1 [] minv2_ok ND). destruct (C190_outcome minv2 Phi (seq 0 4) (fun s v => INR s ^ Datatypes.S v) 0 1 [] minv2_ok ND) as (N1 & E1).
  destruct (fisher _ _ _ _ _ _ _) as [p| |]; [now exists p| |]; exfalso.
  - destruct (proj1 N1 eq_refl) as (_ & v & [<-|[<-|[]]] & c & C); pose proof (C 0%nat ltac:(cbn; auto)) as C0; pose proof (C 1%nat ltac:(cbn; auto)) as C1; cbn in C0, C1; lra.
  - destruct (proj1 E1 eq_refl) as [L|(_ & u & c & (v & Hv & Uv) & C)]; [cbn in L; lia|]. pose proof (C 0%nat ltac:(cbn; auto)) as C0. pose proof (C 1%nat ltac:(cbn; auto)) as C1. pose proof (C 2%nat ltac:(cbn; auto)) as C2. unfold rsum in C0, C1, C2. cbn in C0, C1, C2. destruct Hv as [<-|[<-|[]]]; apply Uv; lra.
Qed.
