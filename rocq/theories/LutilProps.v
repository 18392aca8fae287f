(** C238-C240: remove_effect and make_dot. *)
From Verif Require Import Base UtilsModel UtilsProofs BICModel BICProofs EffectModel EffectProofs ChisqProps DLModel DLProofs DLProps LutilModel.
From Coq Require Import Reals Psatz.
Local Open Scope R_scope.

(** What least squares gives: the normal equations. *)
Definition normal_equations (ols : regressor) (n : nat) (cols : list rvec) : Prop := forall y, let r := fun s => y s - fitted cols (ols n cols y) s in
  rsum r (seq 0 n) = 0 /\ forall x, In x cols -> rsum (fun s => r s * x s) (seq 0 n) = 0.
Definition in_span (n : nat) (cols : list rvec) (q : rvec) : Prop := exists c, forall s, (s < n)%nat -> q s = fitted cols c s.
Definition orthogonal (n : nat) (cols : list rvec) (r : rvec) : Prop := rsum r (seq 0 n) = 0 /\ forall x, In x cols -> rsum (fun s => r s * x s) (seq 0 n) = 0.
Lemma orthogonal_fitted n cols r c : orthogonal n cols r -> rsum (fun s => r s * fitted cols c s) (seq 0 n) = 0.
Proof.
  intros [H0 H]. unfold fitted. rewrite (rsum_ext _ (fun s => fst c * r s + rsum (fun k => snd c k * (r s * nth k cols (fun _ => 0) s)) (seq 0 (length cols)))).
  2:{ intros s _. rewrite Rmult_plus_distr_l, <- rsum_mult. rewrite Rmult_comm. f_equal. apply rsum_ext. intros; ring. }
  rewrite rsum_plus, rsum_mult, H0, rsum_swap. rewrite (rsum_ext _ (fun _ => 0)); [rewrite rsum_0; ring|].
  intros k Hk. rewrite rsum_mult, (H (nth k cols (fun _ => 0))); [ring|]. apply nth_In. apply in_seq in Hk. lia.
Qed.
Lemma fitted_minus cols c d s : fitted cols c s - fitted cols d s = fitted cols (fst c - fst d, fun k => snd c k - snd d k) s.
Proof. unfold fitted. cbn [fst snd]. rewrite (rsum_ext (fun k => (snd c k - snd d k) * _) (fun k => snd c k * nth k cols (fun _ => 0) s + (-1) * (snd d k * nth k cols (fun _ => 0) s))) by (intros; ring). rewrite rsum_plus, rsum_mult. ring. Qed.
Lemma projection_unique n cols r1 r2 : orthogonal n cols r1 -> orthogonal n cols r2 -> in_span n cols (fun s => r1 s - r2 s) -> forall s, (s < n)%nat -> r1 s = r2 s.
Proof.
  intros O1 O2 (c & E) s Hs.
  assert (Z : rsum (fun s => (r1 s - r2 s) ^ 2) (seq 0 n) = 0).
  { rewrite (rsum_ext _ (fun s => r1 s * fitted cols c s + (-1) * (r2 s * fitted cols c s))).
    - rewrite rsum_plus, rsum_mult, !orthogonal_fitted by assumption. ring.
    - intros t Ht. apply in_seq in Ht. rewrite <- (E t) by lia. ring. }
  destruct (rsum_nonneg (fun s => (r1 s - r2 s) ^ 2) (seq 0 n)) as [_ [Q _]]; [intros; apply pow2_ge_0|]. specialize (Q Z s (proj2 (in_seq n 0 s) ltac:(lia))). cbv beta in Q. nra.
Qed.
(** The loop in closed form: no column used for the regressions is ever changed. *)
Lemma remove_closed keep ols n removed fs : forall X, (forall f, In f fs -> memb f removed = false) -> NoDup fs -> forall i,
  fold_left (effect_step keep ols n removed) fs X i = if memb i fs then (fun s => keep (X i s - fitted (map X removed) (ols n (map X removed) (X i)) s)) else X i.
Proof.
  induction fs as [|f fs IH]; intros X H ND i; [reflexivity|]. inversion ND as [|? ? Nf Nfs]; subst. cbn [fold_left]. rewrite IH; [|intros; apply H; now right|exact Nfs].
  assert (EM : map (effect_step keep ols n removed X f) removed = map X removed).
  { apply map_ext_in. intros j Hj. unfold effect_step, set_column. destruct (Nat.eqb_spec j f) as [-> |]; [|reflexivity]. exfalso. specialize (H f (or_introl eq_refl)). apply memb_not_In in H. contradiction. }
  rewrite EM. unfold effect_step at 1 2 3, set_column. cbn [memb existsb]. destruct (Nat.eqb_spec i f) as [-> |N].
  - pose proof (proj2 (memb_not_In f fs) Nf) as Q. unfold memb in Q |- *. rewrite Q. reflexivity.
  - unfold memb. reflexivity.
Qed.
Lemma remove_spec keep ols n p removed X i : remove_effect keep ols n p removed X i =
  if Nat.ltb i p && negb (memb i removed) then (fun s => keep (X i s - fitted (map X removed) (ols n (map X removed) (X i)) s)) else X i.
Proof.
  unfold remove_effect. rewrite remove_closed.
  - destruct (memb i (filter (fun i => negb (memb i removed)) (seq 0 p))) eqn:E.
    + apply memb_In, filter_In in E. destruct E as [E1 E2]. apply in_seq in E1. rewrite (proj2 (Nat.ltb_lt i p)) by lia. rewrite E2. reflexivity.
    + destruct (Nat.ltb i p && negb (memb i removed)) eqn:F; [|reflexivity]. exfalso. apply memb_not_In in E. apply E. apply andb_true_iff in F. destruct F as [F1 F2]. apply Nat.ltb_lt in F1. apply filter_In. split; [apply in_seq; lia|exact F2].
  - intros f Hf. apply filter_In in Hf. destruct Hf as [_ Hf]. now apply negb_true_iff in Hf.
  - apply NoDup_filter, seq_NoDup.
Qed.
(** * C238 *)
Definition same (x : R) : R := x.
(** The removed features stay; what is left of every other one has mean zero, is orthogonal to the removed ones, and no other combination of them would have left less. *)
Theorem C238_removed : forall ols n p removed X i, normal_equations ols n (map X removed) -> let R := remove_effect same ols n p removed X in
  (In i removed -> R i = X i) /\
  ((i < p)%nat -> ~ In i removed -> rsum (R i) (seq 0 n) = 0 /\ (forall j, In j removed -> rsum (fun s => R i s * X j s) (seq 0 n) = 0) /\
    forall c, rsum (fun s => (R i s) ^ 2) (seq 0 n) <= rsum (fun s => (X i s - fitted (map X removed) c s) ^ 2) (seq 0 n)).
Proof.
  intros ols n p removed X i HO R. unfold R. rewrite remove_spec. split; [intros Hi; rewrite (proj2 (memb_In i removed) Hi); now rewrite andb_false_r|].
  intros Hp Hi. rewrite (proj2 (Nat.ltb_lt i p) Hp), (proj2 (memb_not_In i removed) Hi). cbn [andb negb]. unfold same. set (cols := map X removed). set (c0 := ols n cols (X i)).
  destruct (HO (X i)) as [H0 H]. fold c0 in H0, H. cbv zeta in H0, H. split; [exact H0|]. split; [intros j Hj; apply H, in_map, Hj|].
  intros c. assert (O : orthogonal n cols (fun s => X i s - fitted cols c0 s)) by (split; assumption).
  rewrite (rsum_ext (fun s => (X i s - fitted cols c s) ^ 2) (fun s => ((X i s - fitted cols c0 s) ^ 2 + 2 * ((X i s - fitted cols c0 s) * fitted cols (fst c0 - fst c, fun k => snd c0 k - snd c k) s)) + (fitted cols (fst c0 - fst c, fun k => snd c0 k - snd c k) s) ^ 2)).
  2:{ intros s _. rewrite <- fitted_minus. ring. }
  rewrite !rsum_plus, rsum_mult, (orthogonal_fitted n cols _ _ O). pose proof (rsum_nonneg (fun s => (fitted cols (fst c0 - fst c, fun k => snd c0 k - snd c k) s) ^ 2) (seq 0 n)) as [Q _]; [intros; apply pow2_ge_0|]. lra.
Qed.
(** Doing it twice changes nothing more, and neither does it matter what combination of the removed features was in a variable. *)
Theorem C238_idempotent : forall ols n p removed X i s, normal_equations ols n (map X removed) -> (s < n)%nat ->
  remove_effect same ols n p removed (remove_effect same ols n p removed X) i s = remove_effect same ols n p removed X i s.
Proof.
  intros ols n p removed X i s HO Hs. set (Y := remove_effect same ols n p removed X). rewrite (remove_spec same ols n p removed Y). destruct (Nat.ltb i p && negb (memb i removed)) eqn:E; [|reflexivity].
  assert (EC : map Y removed = map X removed) by (apply map_ext_in; intros j Hj; apply (C238_removed ols n p removed X j HO); exact Hj). rewrite EC. unfold same. set (cols := map X removed).
  assert (EY : forall s, Y i s = X i s - fitted cols (ols n cols (X i)) s) by (intros t; unfold Y; rewrite remove_spec, E; reflexivity).
  apply (projection_unique n cols (fun s => Y i s - fitted cols (ols n cols (Y i)) s) (Y i)); [apply HO| |exists (0 - fst (ols n cols (Y i)), fun k => 0 - snd (ols n cols (Y i)) k)|exact Hs].
  - destruct (HO (X i)) as [H0 H]. split; [rewrite (rsum_ext _ _ _ (fun t _ => EY t)); exact H0|]. intros x Hx. rewrite (rsum_ext _ (fun t => (X i t - fitted cols (ols n cols (X i)) t) * x t)) by (intros; rewrite EY; ring). now apply H.
  - intros t _. unfold fitted. cbn [fst snd]. rewrite (rsum_ext (fun k => (0 - snd (ols n cols (Y i)) k) * _) (fun k => (-1) * (snd (ols n cols (Y i)) k * nth k cols (fun _ => 0) t))) by (intros; ring). rewrite rsum_mult. ring.
Qed.
Theorem C238_what_was_added : forall ols n p removed (X X' : nat -> rvec) i s c, normal_equations ols n (map X removed) -> (s < n)%nat -> (i < p)%nat -> ~ In i removed -> (forall j, In j removed -> X' j = X j) ->
  (forall s, X' i s = X i s + fitted (map X removed) c s) -> remove_effect same ols n p removed X' i s = remove_effect same ols n p removed X i s.
Proof.
  intros ols n p removed X X' i s c HO Hs Hp Hi EJ EI. rewrite !remove_spec, (proj2 (Nat.ltb_lt i p) Hp), (proj2 (memb_not_In i removed) Hi). cbn [andb negb]. unfold same.
  assert (EC : @map nat rvec X' removed = @map nat rvec X removed) by (apply map_ext_in; auto). rewrite EC. set (cols := @map nat rvec X removed) in *.
  apply (projection_unique n cols (fun s => X' i s - fitted cols (ols n cols (X' i)) s) (fun s => X i s - fitted cols (ols n cols (X i)) s)); [apply HO|apply HO| |exact Hs].
  exists (fst c - fst (ols n cols (X' i)) - (0 - fst (ols n cols (X i))), fun k => snd c k - snd (ols n cols (X' i)) k - (0 - snd (ols n cols (X i)) k)). intros t _. rewrite EI.
  pose proof (fitted_minus cols (fst c - fst (ols n cols (X' i)), fun k => snd c k - snd (ols n cols (X' i)) k) (0 - fst (ols n cols (X i)), fun k => 0 - snd (ols n cols (X i)) k) t) as Q. cbn [fst snd] in Q. rewrite <- Q, <- fitted_minus.
  pose proof (fitted_minus cols (0, fun _ => 0) (ols n cols (X i)) t) as Q2. cbn [fst snd] in Q2. rewrite <- Q2.
  assert (Z0 : fitted cols (0, fun _ => 0) t = 0) by (unfold fitted; cbn [fst snd]; rewrite (rsum_ext _ (fun _ => 0)) by (intros; ring); rewrite rsum_0; ring). rewrite Z0. ring.
Qed.

(** One removed feature: the least squares line meets the normal equations. *)
Definition simple_ols : regressor := fun n cols y => match cols with
  | [x] => let b := if Req_EM_T (var n x) 0 then 0 else cov1 n y x * (INR n - 1) / (var n x * INR n) in (mean n y - b * mean n x, fun _ => b)
  | _ => (0, fun _ => 0) end.
Lemma simple_ols_normal n x : (2 <= n)%nat -> normal_equations simple_ols n [x].
Proof.
  intros Hn y. cbv zeta. assert (Hn0 : INR n <> 0) by (apply not_0_INR; lia). assert (Hn1 : INR n - 1 <> 0) by (apply (le_INR 2) in Hn; cbn in Hn; lra).
  set (b := if Req_EM_T (var n x) 0 then 0 else cov1 n y x * (INR n - 1) / (var n x * INR n)).
  assert (EF : forall s, y s - fitted [x] (simple_ols n [x] y) s = (y s - mean n y) - b * (x s - mean n x)) by (intros s; unfold fitted, simple_ols; cbn [fst snd length seq nth]; fold b; unfold rsum; cbn; ring).
  assert (E0 : rsum (fun s => y s - fitted [x] (simple_ols n [x] y) s) (seq 0 n) = 0).
  { rewrite (rsum_ext _ (fun s => (y s - mean n y) + (- b) * (x s - mean n x))) by (intros; rewrite EF; ring). rewrite rsum_plus, rsum_mult, !rsum_dev by lia. ring. }
  split; [exact E0|]. intros z [<-|[]].
  assert (EX : rsum (fun s => (y s - fitted [x] (simple_ols n [x] y) s) * x s) (seq 0 n) = rsum (fun s => (y s - fitted [x] (simple_ols n [x] y) s) * (x s - mean n x)) (seq 0 n)).
  { rewrite (rsum_ext (fun s => _ * (x s - mean n x)) (fun s => (y s - fitted [x] (simple_ols n [x] y) s) * x s + (- mean n x) * (y s - fitted [x] (simple_ols n [x] y) s))) by (intros; ring). rewrite rsum_plus, rsum_mult, E0. ring. }
  rewrite EX. rewrite (rsum_ext _ (fun s => (y s - mean n y) * (x s - mean n x) + (- b) * ((x s - mean n x) * (x s - mean n x)))) by (intros; rewrite EF; ring). rewrite rsum_plus, rsum_mult.
  assert (C1 : rsum (fun s => (y s - mean n y) * (x s - mean n x)) (seq 0 n) = cov1 n y x * (INR n - 1)) by (unfold cov1; field; exact Hn1).
  assert (C2 : rsum (fun s => (x s - mean n x) * (x s - mean n x)) (seq 0 n) = var n x * INR n).
  { unfold var. unfold mean at 3. rewrite (rsum_ext (fun s => (x s - mean n x) * (x s - mean n x)) (fun s => (x s - mean n x) ^ 2)) by (intros; ring). field. exact Hn0. }
  rewrite C1, C2. unfold b. destruct (Req_EM_T (var n x) 0) as [V|V].
  - rewrite <- C1. rewrite (rsum_ext _ (fun _ => 0)); [rewrite rsum_0; ring|]. intros s Hs. apply in_seq in Hs. rewrite (var_zero n x V s) at 1 by lia. ring.
  - field. split; assumption.
Qed.
Example C238_nonvacuous : normal_equations simple_ols 4 (map (fun i : nat => if Nat.eqb i 0 then bin0 else bin1) [0%nat]).
Proof. apply simple_ols_normal. lia. Qed.

(** * C239: of integers what is left is cut off *)
Theorem C239_cut_off_partial : forall ols n p removed X i s, let R := remove_effect same ols n p removed X i s in let R' := remove_effect truncate ols n p removed X i s in
  R' = R \/ (R' = truncate R /\ Rabs (R' - R) < 1).
Proof.
  intros ols n p removed X i s. cbv zeta. rewrite !remove_spec. destruct (_ && _); [|now left]. right. unfold same. split; [reflexivity|apply truncate_near].
Qed.
Theorem C239_type_matters_refuted : exists X : nat -> rvec, (forall i s, exists z, X i s = IZR z) /\ forall ols, normal_equations ols 4 (map X [0%nat]) ->
  (forall s, (s < 4)%nat -> remove_effect truncate ols 4 2 [0%nat] X 1%nat s = 0) /\ remove_effect same ols 4 2 [0%nat] X 1%nat 1%nat = 1 / 2.
Proof.
  set (X := fun i : nat => if Nat.eqb i 0 then bin0 else bin1). exists X. split.
  { intros i s. unfold X, bin0, bin1. destruct (Nat.eqb i 0); (do 4 (destruct s as [|s]; [cbn; eexists; reflexivity|])); exists 0%Z; destruct s; reflexivity. }
  intros ols HO. assert (ES : forall s, (s < 4)%nat -> remove_effect same ols 4 2 [0%nat] X 1%nat s = nth s [0; 1 / 2; - 1 / 2; 0] 0).
  { rewrite remove_spec. cbn [Nat.ltb Nat.leb memb existsb Nat.eqb orb negb andb]. unfold same. intros s Hs.
    apply (projection_unique 4 (map X [0%nat]) (fun s => X 1%nat s - fitted (map X [0%nat]) (ols 4%nat (map X [0%nat]) (X 1%nat)) s) (fun s => nth s [0; 1 / 2; - 1 / 2; 0] 0)); [apply HO| | |exact Hs].
    - split; [unfold rsum; cbn; lra|]. intros x [<-|[]]. unfold X, bin0, rsum. cbn. lra.
    - exists (0 - fst (ols 4%nat (map X [0%nat]) (X 1%nat)), fun k => 1 / 2 - snd (ols 4%nat (map X [0%nat]) (X 1%nat)) k). intros t Ht.
      unfold fitted. cbn [map length seq fst snd]. unfold rsum. cbn [fold_right nth map]. unfold X. cbn [Nat.eqb]. unfold bin0, bin1. do 4 (destruct t as [|t]; [cbn [nth]; cbn; lra|]). lia. }
  split; [|rewrite ES by lia; reflexivity]. intros s Hs.
  assert (ET : remove_effect truncate ols 4 2 [0%nat] X 1%nat s = truncate (remove_effect same ols 4 2 [0%nat] X 1%nat s)) by (rewrite !remove_spec; reflexivity).
  rewrite ET, ES by exact Hs. apply truncate_small. do 4 (destruct s as [|s]; [cbn [nth]; apply Rabs_def1; lra|]). lia.
Qed.

(** * C240: make_dot *)
Local Open Scope Z_scope.
Lemma in_grid {A} p (f : nat -> nat -> list A) x : In x (flat_map (fun i => flat_map (f i) (seq 0 p)) (seq 0 p)) <-> exists i j, (i < p)%nat /\ (j < p)%nat /\ In x (f i j).
Proof.
  rewrite in_flat_map. split.
  - intros (i & Hi & H). apply in_flat_map in H. destruct H as (j & Hj & H). apply in_seq in Hi, Hj. exists i, j. do 2 (split; [lia|]). exact H.
  - intros (i & j & Hi & Hj & H). exists i. split; [apply in_seq; lia|]. apply in_flat_map. exists j. split; [apply in_seq; lia|exact H].
Qed.
(** An arrow from x_j to x_i with the coefficient B[i, j] exactly where that exceeds the limit in size. *)
Theorem C240_arrows : forall p limit A i j c, 0 <= limit -> (In (Arrow j i c) (make_dot p limit A) <-> (i < p)%nat /\ (j < p)%nat /\ A i j = Some c /\ limit < Z.abs c).
Proof.
  intros p limit A i j c Hl. unfold make_dot. rewrite in_app_iff, !in_grid. split.
  - intros [(a & b & Ha & Hb & H)|(a & b & _ & _ & H)].
    + destruct (limit <? Z.abs (to_num (A a b))) eqn:E; [|destruct H]. destruct H as [[= -> -> <-]|[]]. apply Z.ltb_lt in E. destruct (A i j) as [z|]; [auto|]. cbn in E. lia.
    + destruct (if Nat.leb b a then A a b else Some 0); cbn in H; [destruct H|]. destruct H as [[=]|[]].
  - intros (Hi & Hj & E & L). left. exists i, j. do 2 (split; [assumption|]). rewrite E. cbn [to_num]. rewrite (proj2 (Z.ltb_lt _ _) L). now left.
Qed.
(** A double line for every unknown entry below the diagonal or on it. *)
Theorem C240_double_lines : forall p limit A i j, In (Both j i) (make_dot p limit A) <-> (j <= i /\ i < p)%nat /\ A i j = None.
Proof.
  intros p limit A i j. unfold make_dot. rewrite in_app_iff, !in_grid. split.
  - intros [(a & b & Ha & Hb & H)|(a & b & Ha & Hb & H)].
    + destruct (limit <? Z.abs (to_num (A a b))); [|destruct H]. destruct H as [[=]|[]].
    + destruct (Nat.leb b a) eqn:E; [|destruct H]. apply Nat.leb_le in E. destruct (A a b) eqn:EA; [destruct H|]. destruct H as [[= -> ->]|[]]. split; [lia|exact EA].
  - intros [[L Hi] E]. right. exists i, j. do 2 (split; [lia|]). rewrite (proj2 (Nat.leb_le j i) L), E. now left.
Qed.
(** With NaN on both sides, as RCD, CAM-UV and BottomUpParceLiNGAM write it, every unknown pair has its line; with NaN above the diagonal only, it has none. *)
Theorem C240_unknown_pairs_partial : forall p limit A i j, (forall a b, A a b = None -> A b a = None) -> (i < p)%nat -> (j < p)%nat -> A i j = None ->
  In (Both j i) (make_dot p limit A) \/ In (Both i j) (make_dot p limit A).
Proof. intros p limit A i j S Hi Hj E. rewrite !C240_double_lines. destruct (Nat.le_gt_cases j i); [left|right]; (split; [lia|auto]). Qed.
Theorem C240_upper_refuted : forall p limit A i j, 0 <= limit -> (i < j)%nat -> A i j = None -> A j i = Some 0 -> forall e, In e (make_dot p limit A) ->
  e <> Both i j /\ e <> Both j i /\ (forall c, e <> Arrow i j c) /\ (forall c, e <> Arrow j i c).
Proof.
  intros p limit A i j Hl L E1 E2 e He. split; [|split; [|split]]; [intros -> |intros -> |intros c -> |intros c ->].
  - apply C240_double_lines in He. destruct He as [_ He]. congruence.
  - apply C240_double_lines in He. destruct He as [He _]. lia.
  - apply C240_arrows in He; [|exact Hl]. destruct He as (_ & _ & He & Hc). rewrite E2 in He. injection He as <-. cbn in Hc. lia.
  - apply C240_arrows in He; [|exact Hl]. destruct He as (_ & _ & He & _). congruence.
Qed.
