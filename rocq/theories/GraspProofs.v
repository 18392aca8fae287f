(** GRaSP: the state stays consistent, failed searches are undone, successful ones raise the score. *)
From Verif Require Import Base UtilsModel UtilsProofs CpdagModel ExactSpec BossModel BossTree BossProofs.
From Coq Require Import Permutation.
Local Open Scope Z_scope.

Definition zsum (l : list Z) : Z := fold_right Z.add 0 l.
Lemma zsum_perm l l' : Permutation l l' -> zsum l = zsum l'.
Proof. unfold zsum. induction 1; cbn [fold_right]; lia. Qed.
Lemma zsum_app l l' : zsum (l ++ l') = zsum l + zsum l'.
Proof. unfold zsum. induction l as [|x l IH]; cbn [fold_right app]; [reflexivity|]. rewrite IH. lia. Qed.

Lemma NoDup_app_r {A} (l m : list A) : NoDup (l ++ m) -> NoDup m.
Proof. induction l as [|a l IH]; [auto|]. cbn. inversion 1; auto. Qed.
Lemma NoDup_app_l {A} (l m : list A) : NoDup (l ++ m) -> NoDup l.
Proof. induction l as [|a l IH]; [constructor|]. cbn. inversion 1 as [|? ? N1 N2]; subst. constructor; [|auto]. intros H'. apply N1. apply in_app_iff. now left. Qed.
Lemma NoDup_app_disj {A} (l m : list A) : NoDup (l ++ m) -> forall v, In v l -> ~ In v m.
Proof.
  induction l as [|a l IH]; intros H v Hv; [destruct Hv|]. cbn in H. inversion H as [|? ? N1 N2]; subst. destruct Hv as [<-|Hv]; [|auto]. intros H'. apply N1. apply in_app_iff. now right.
Qed.
(** *** tuck *)
Lemma tuck_fold anc P x M1 M2 Q : 
  fold_left (tuck_one anc (length P)) (seq (S (length P) + length M1) (length M2))
    (P ++ filter (fun v => memb v anc) M1 ++ x :: filter (fun v => negb (memb v anc)) M1 ++ M2 ++ Q, length (filter (fun v => memb v anc) M1)) =
  (P ++ filter (fun v => memb v anc) (M1 ++ M2) ++ x :: filter (fun v => negb (memb v anc)) (M1 ++ M2) ++ Q, length (filter (fun v => memb v anc) (M1 ++ M2))).
Proof.
  revert M1. induction M2 as [|m M2 IH]; intros M1; [now rewrite app_nil_r|]. cbn [length seq fold_left].
  set (A := filter (fun v => memb v anc) M1). set (B := filter (fun v => negb (memb v anc)) M1).
  assert (LM : (length A + length B = length M1)%nat).
  { unfold A, B. clear. induction M1 as [|a M IH]; [reflexivity|]. cbn. destruct (memb a anc); cbn; lia. }
  assert (EQ : P ++ A ++ x :: B ++ (m :: M2) ++ Q = (P ++ A ++ x :: B) ++ m :: M2 ++ Q) by (rewrite <- !app_assoc; cbn; rewrite <- ?app_assoc; reflexivity).
  assert (LN : length (P ++ A ++ x :: B) = (S (length P) + length M1)%nat) by (rewrite !app_length; cbn; lia).
  assert (N : nth (S (length P) + length M1) (P ++ A ++ x :: B ++ (m :: M2) ++ Q) 0%nat = m) by (rewrite EQ, <- LN; now rewrite nth_middle).
  specialize (IH (M1 ++ [m])). rewrite <- app_assoc in IH. cbn [app] in IH. rewrite app_length in IH. cbn [length] in IH.
  replace (S (length P) + (length M1 + 1))%nat with (S (S (length P) + length M1)) in IH by lia. rewrite <- IH. clear IH. f_equal.
  unfold tuck_one. rewrite N. rewrite !filter_app. cbn [filter]. fold A. fold B. destruct (memb m anc); cbn [negb].
  - f_equal; [|rewrite app_length; cbn; lia]. rewrite EQ. rewrite <- LN. rewrite firstn_app, Nat.sub_diag, firstn_all. cbn [firstn]. rewrite app_nil_r.
    rewrite skipn_app. rewrite (skipn_all2 (P ++ A ++ x :: B)) by lia. replace (S (length (P ++ A ++ x :: B)) - length (P ++ A ++ x :: B))%nat with 1%nat by lia. cbn [skipn app].
    unfold linsert. replace ((P ++ A ++ x :: B) ++ M2 ++ Q) with ((P ++ A) ++ x :: B ++ M2 ++ Q) by (rewrite <- !app_assoc; cbn; rewrite <- ?app_assoc; reflexivity).
    replace (length P + length A)%nat with (length (P ++ A)) by apply app_length. rewrite firstn_app, skipn_app, Nat.sub_diag, firstn_all, skipn_all. cbn [firstn skipn app].
    rewrite !app_nil_r. rewrite <- !app_assoc. reflexivity.
  - f_equal; [|now rewrite app_nil_r]. rewrite !app_nil_r. rewrite <- !app_assoc. reflexivity.
Qed.
Lemma filter_split_perm (f : nat -> bool) l : Permutation (filter f l ++ filter (fun x => negb (f x)) l) l.
Proof. induction l as [|a l IH]; [reflexivity|]. cbn. destruct (f a); cbn; [now apply perm_skip|]. rewrite <- Permutation_middle. now apply perm_skip. Qed.

Section Grasp.
Variable sc : nat -> list nat -> Z.
Hypothesis Hsc : set_score sc.
Variable p : nat.
Variable sh : nat -> list nat -> list nat.
Hypothesis Hsh : forall k l, Permutation (sh k l) l.
Notation val := (val sc p).
Notation gok := (gok sc p).
Notation tot := (tot sc p).
Notation tr := (tr sc p).

(** tuck moves the ancestors between the two positions in front of position j, keeping the order within both groups. *)
Lemma tuck_spec i j s : (j <= i)%nat -> (i < length (g_order s))%nat -> exists P x M Q anc,
  g_order s = P ++ x :: M ++ Q /\ length P = j /\ length M = (i - j)%nat /\ anc = get_anc (S p) (g_pa s) (g_get s i) [] /\
  tuck p i j s = with_order s (P ++ filter (fun v => memb v anc) M ++ x :: filter (fun v => negb (memb v anc)) M ++ Q).
Proof.
  intros H1 H2. set (o := g_order s) in *. pose proof (firstn_skipn j o) as E. assert (L : length (firstn j o) = j) by (apply firstn_length_le; lia).
  destruct (skipn j o) as [|x r] eqn:Es; [apply (f_equal (@length nat)) in Es; rewrite skipn_length in Es; cbn in Es; lia|].
  assert (Lr : (length r = length o - S j)%nat) by (apply (f_equal (@length nat)) in Es; rewrite skipn_length in Es; cbn in Es; lia).
  exists (firstn j o), x, (firstn (i - j) r), (skipn (i - j) r), (get_anc (S p) (g_pa s) (g_get s i) []). rewrite firstn_skipn. split; [now rewrite E|]. split; [exact L|].
  split; [apply firstn_length_le; lia|]. split; [reflexivity|]. unfold tuck. f_equal. fold o.
  pose proof (tuck_fold (get_anc (S p) (g_pa s) (g_get s i) []) (firstn j o) x [] (firstn (i - j) r) (skipn (i - j) r)) as T. cbn [filter length app] in T. rewrite firstn_skipn in T. rewrite E in T.
  rewrite L, Nat.add_0_r in T. rewrite firstn_length_le in T by lia. rewrite T. reflexivity.
Qed.
Lemma tuck_none i j s : (i < j)%nat -> tuck p i j s = s.
Proof. intros H. unfold tuck. replace (i - j)%nat with O by lia. now destruct s. Qed.

(** *** Consistency *)
Definition at_pos (s : gstate) (before : list nat) (v : nat) : Prop := Permutation (g_pa s v) (snd (tr v before)) /\ g_loc s v = val v before.
Definition good (s : gstate) : Prop := forall l1 v l2, g_order s = l1 ++ v :: l2 -> at_pos s l1 v.
Definition refs (s : gstate) : Prop := forall v w, (v < p)%nat -> (w < p)%nat -> (g_ref s v = g_ref s w -> v = w) /\ (g_ref s v < g_next s)%nat.
Definition Inv (s : gstate) : Prop := gok (g_gst s) /\ Permutation (g_order s) (seq 0 p) /\ refs s /\ good s.

Lemma at_ext s b b' v : (forall x, In x b <-> In x b') -> at_pos s b v -> at_pos s b' v.
Proof. intros H [H1 H2]. unfold at_pos. rewrite <- (tr_ext sc p v b b' H), <- (val_ext sc p v b b' H). auto. Qed.
Lemma at_same s s' b v : g_pa s' v = g_pa s v -> g_loc s' v = g_loc s v -> at_pos s b v -> at_pos s' b v.
Proof. intros H1 H2 [H3 H4]. unfold at_pos. rewrite H1, H2. auto. Qed.

(** *** update *)
Lemma update_seg R : forall s P D Q eb old new, gok (g_gst s) -> refs s -> g_order s = P ++ D ++ R ++ Q -> NoDup (g_order s) -> (forall v, In v (g_order s) -> (v < p)%nat) ->
  exists s' eb', fold_left (update_one sc p) (seq (length P + length D) (length R)) (s, eb, old, new) = (s', eb', old + zsum (map (g_loc s) R), new + tot (P ++ D) R) /\
    g_order s' = g_order s /\ g_ref s' = g_ref s /\ g_next s' = g_next s /\ g_edges s' = g_edges s /\ gok (g_gst s') /\
    (forall l1 v l2, R = l1 ++ v :: l2 -> at_pos s' (P ++ D ++ l1) v) /\ (forall v, (v < p)%nat -> ~ In v R -> g_pa s' v = g_pa s v /\ g_loc s' v = g_loc s v).
Proof.
  induction R as [|z R IH]; intros s P D Q eb old new HG HR HO HN HB.
  - cbn. exists s, eb. rewrite !Z.add_0_r. do 5 (split; [reflexivity|]). split; [exact HG|]. split; [|auto]. intros [|? ?] v l2 E; discriminate.
  - cbn [length seq fold_left]. unfold update_one at 2.
    assert (EG : g_get s (length P + length D) = z). { unfold g_get. rewrite HO. rewrite app_assoc, <- app_length. cbn [app]. now rewrite nth_middle. }
    assert (EF : firstn (length P + length D) (g_order s) = P ++ D).
    { rewrite HO. rewrite app_assoc, <- app_length. rewrite firstn_app, Nat.sub_diag, firstn_all. cbn. apply app_nil_r. }
    cbv zeta. rewrite EG, EF. pose proof (gst_trace_ok sc Hsc p (g_gst s) z (P ++ D) HG) as T. destruct (gst_trace sc p (g_gst s) z (P ++ D)) as [[G score] ps]. destruct T as (T1 & T2 & T3).
    set (s1 := with_loc (with_heap (with_gst s G) (g_ref s z) ps) z score).
    assert (Hz : (z < p)%nat) by (apply HB; rewrite HO, !in_app_iff; right; right; left; now left).
    assert (NZ : ~ In z R). { rewrite HO in HN. apply NoDup_app_r in HN. apply NoDup_app_r in HN. inversion HN as [|? ? N1 N2]; subst. intros H. apply N1. apply in_app_iff. now left. }
    assert (HO1 : g_order s1 = P ++ (D ++ [z]) ++ R ++ Q) by (cbn; rewrite HO, <- !app_assoc; reflexivity).
    destruct (IH s1 P (D ++ [z]) Q (eb - Z.of_nat (length (g_heap s (g_ref s z))) + Z.of_nat (length ps)) (old + g_loc s z) (new + score) T1 HR HO1 HN HB)
      as (s' & eb' & I0 & I1 & I2 & I3 & I4 & I5 & I6 & I7).
    rewrite app_length in I0. cbn [length] in I0. replace (length P + (length D + 1))%nat with (S (length P + length D)) in I0 by lia.
    exists s', eb'. rewrite I0. split.
    { f_equal; [f_equal|].
      - cbn [map zsum fold_right]. rewrite <- Z.add_assoc. f_equal. f_equal. unfold zsum. f_equal. apply map_ext_in. intros v Hv. unfold s1, with_loc, fset. cbn. destruct (Nat.eqb_spec v z) as [->|]; [contradiction|reflexivity].
      - cbn [BossProofs.tot]. rewrite T2, <- app_assoc. lia. }
    split; [exact I1|]. split; [exact I2|]. split; [exact I3|]. split; [exact I4|]. split; [exact I5|]. split.
    + intros [|a l1] v l2 E; cbn in E; injection E as E1 E2.
      * subst v. rewrite app_nil_r. destruct (I7 z Hz NZ) as [J1 J2]. apply (at_same s1 s'); auto. split; cbn.
        -- unfold g_pa. cbn. unfold fset. rewrite Nat.eqb_refl. exact T3.
        -- unfold fset. now rewrite Nat.eqb_refl.
      * subst a. specialize (I6 l1 v l2 E2). rewrite <- app_assoc in I6. exact I6.
    + intros v Hv Nv. destruct (I7 v Hv) as [J1 J2]; [intros H; apply Nv; now right|]. rewrite J1, J2. assert (Nvz : v <> z) by (intros ->; apply Nv; now left). split.
      * unfold g_pa, s1. cbn. unfold fset. destruct (Nat.eqb_spec (g_ref s v) (g_ref s z)) as [E|]; [|reflexivity]. apply (HR v z Hv Hz) in E. contradiction.
      * cbn. unfold fset. destruct (Nat.eqb_spec v z); [contradiction|reflexivity].
Qed.

(** After a tuck of a segment and update. *)
Lemma good_split (s : gstate) P R Q : NoDup (g_order s) -> g_order s = P ++ R ++ Q -> good s <->
  (forall l1 v l2, P = l1 ++ v :: l2 -> at_pos s l1 v) /\ (forall l1 v l2, R = l1 ++ v :: l2 -> at_pos s (P ++ l1) v) /\ (forall l1 v l2, Q = l1 ++ v :: l2 -> at_pos s (P ++ R ++ l1) v).
Proof.
  intros HN HO. unfold good. rewrite HO. split.
  - intros H. split; [|split]; intros l1 v l2 ->; (eapply H; rewrite <- !app_assoc; cbn; rewrite <- ?app_assoc; reflexivity).
  - intros (H1 & H2 & H3) l1 v l2 E. apply app_eq_app in E. destruct E as (l & [[E1 E2]|[E1 E2]]).
    + destruct l as [|a l]; cbn in E2.
      * rewrite app_nil_r in E1. subst P. symmetry in E2. destruct R as [|b R]; cbn in E2.
        -- specialize (H3 [] v l2 E2). cbn in H3. rewrite app_nil_r in H3. exact H3.
        -- injection E2 as -> E2. specialize (H2 [] v R eq_refl). rewrite app_nil_r in H2. exact H2.
      * injection E2 as <- E2. eapply H1; eauto.
    + subst l1. symmetry in E2. apply app_eq_app in E2. destruct E2 as (m & [[F1 F2]|[F1 F2]]).
      * subst l. specialize (H3 m v l2 F2). exact H3.
      * destruct m as [|a m]; cbn in F2.
        -- rewrite app_nil_r in F1. subst l. specialize (H3 [] v l2 (eq_sym F2)). rewrite app_nil_r in H3. exact H3.
        -- injection F2 as <- F2. eapply H2; eauto.
Qed.
Lemma tot_swap P R R' Q : Permutation R R' -> tot [] (P ++ R' ++ Q) - tot [] (P ++ R ++ Q) = tot P R' - tot P R.
Proof.
  intros HP. rewrite !tot_app. cbn [app]. rewrite (tot_ext sc p Q (P ++ R') (P ++ R)); [lia|]. intros x. rewrite !in_app_iff. now rewrite HP.
Qed.
Lemma good_sum P R : forall s, (forall l1 v l2, R = l1 ++ v :: l2 -> at_pos s (P ++ l1) v) -> zsum (map (g_loc s) R) = tot P R.
Proof.
  revert P. induction R as [|v R IH]; intros P s H; [reflexivity|]. cbn. destruct (H [] v R eq_refl) as [_ E]. rewrite app_nil_r in E. rewrite E. f_equal. apply IH.
  intros l1 w l2 EQ. rewrite <- app_assoc. apply (H (v :: l1) w l2). cbn. now rewrite EQ.
Qed.
Lemma order_ok s : Inv s -> NoDup (g_order s) /\ (forall v, In v (g_order s) <-> (v < p)%nat) /\ length (g_order s) = p.
Proof.
  intros (_ & H & _). split; [rewrite H; apply seq_NoDup|]. split; [intros v; rewrite H; apply in_seq0|]. rewrite (Permutation_length H). apply seq_length.
Qed.
(** The part of the order between the two positions. *)
Lemma order_seg (o : list nat) i j : (j <= i)%nat -> (i < length o)%nat -> exists P R Q, o = P ++ R ++ Q /\ length P = j /\ length R = (S i - j)%nat.
Proof.
  intros H1 H2. exists (firstn j o), (firstn (S i - j) (skipn j o)), (skipn (S i - j) (skipn j o)). rewrite !firstn_skipn. split; [reflexivity|].
  split; [apply firstn_length_le; lia|]. rewrite firstn_length_le; [reflexivity|]. rewrite skipn_length. lia.
Qed.
Lemma tuck_update i j s : Inv s -> (i < p)%nat ->
  exists s1 eb P R R' Q, update sc p i j (tuck p i j s) = (s1, eb, tot [] (g_order s1) - tot [] (g_order s)) /\ Inv s1 /\ g_edges s1 = g_edges s /\
    g_order s = P ++ R ++ Q /\ g_order s1 = P ++ R' ++ Q /\ Permutation R R' /\ ((i < j)%nat /\ R = [] \/ (j <= i)%nat /\ length P = j /\ length R = (S i - j)%nat).
Proof.
  intros HI Hi. pose proof HI as (HG & HO & HR & HD). destruct (order_ok s HI) as (HN & HB & HL).
  destruct (Nat.le_gt_cases j i) as [L|L].
  - destruct (tuck_spec i j s L ltac:(lia)) as (P & x & M & Q & anc & E1 & E2 & E3 & E4 & E5). rewrite E5. set (R' := filter (fun v => memb v anc) M ++ x :: filter (fun v => negb (memb v anc)) M).
    set (s0 := with_order s (P ++ filter (fun v => memb v anc) M ++ x :: filter (fun v => negb (memb v anc)) M ++ Q)).
    assert (EO : g_order s = P ++ (x :: M) ++ Q) by exact E1.
    assert (E0 : g_order s0 = P ++ [] ++ R' ++ Q) by (cbn; unfold R'; rewrite <- !app_assoc; reflexivity).
    assert (HP : Permutation (x :: M) R') by (unfold R'; rewrite <- Permutation_middle; apply perm_skip, Permutation_sym, filter_split_perm).
    assert (HPo : Permutation (g_order s0) (g_order s)) by (rewrite E0, EO; apply Permutation_app_head; exact (Permutation_app_tail Q (Permutation_sym HP))).
    assert (N0 : NoDup (g_order s0)) by now rewrite HPo.
    assert (B0 : forall v, In v (g_order s0) -> (v < p)%nat) by (intros v Hv; apply HB; now rewrite <- HPo).
    destruct (update_seg R' s0 P [] Q 0 0 0 HG HR E0 N0 B0) as (s1 & eb & I0 & I1 & I2 & I3 & I4 & I5 & I6 & I7).
    assert (LR : length R' = (S i - j)%nat) by (rewrite <- (Permutation_length HP); cbn [length]; lia).
    assert (E1' : g_order s1 = P ++ R' ++ Q) by now rewrite I1.
    assert (NR : forall v, In v P \/ In v Q -> ~ In v R').
    { intros v Hv Hr. rewrite E0 in N0. cbn [app] in N0. destruct Hv as [Hv|Hv].
      - eapply NoDup_app_disj; [exact N0|exact Hv|]. apply in_app_iff. now left.
      - apply NoDup_app_r in N0. eapply NoDup_app_disj; [exact N0|exact Hr|exact Hv]. }
    assert (HD0 := proj1 (good_split s P (x :: M) Q HN EO) HD). destruct HD0 as (D1 & D2 & D3).
    exists s1, eb, P, (x :: M), R', Q.
    split.
    { unfold update. cbn [length] in I0. rewrite Nat.add_0_r, E2, LR in I0. rewrite I0. f_equal. rewrite app_nil_r. rewrite E1', EO. rewrite tot_swap by exact HP.
      rewrite <- (good_sum P (x :: M) s D2). rewrite (zsum_perm (map (g_loc s0) R') (map (g_loc s) (x :: M))); [lia|]. apply Permutation_map, Permutation_sym, HP. }
    split.
    { split; [exact I5|]. split; [rewrite I1, HPo; exact HO|]. split; [intros v w Hv Hw; rewrite I2, I3; now apply HR|].
      apply (good_split s1 P R' Q); [now rewrite I1|exact E1'|]. split; [|split].
      - intros l1 v l2 EP. assert (Hv : In v P) by (rewrite EP; apply in_app_iff; right; now left).
        destruct (I7 v) as [J1 J2]; [apply HB; rewrite EO; apply in_app_iff; now left|apply NR; now left|]. apply (at_same s s1); auto. eapply D1; eauto.
      - exact I6.
      - intros l1 v l2 EQ. assert (Hv : In v Q) by (rewrite EQ; apply in_app_iff; right; now left).
        destruct (I7 v) as [J1 J2]; [apply HB; rewrite EO; rewrite !in_app_iff; now right; right|apply NR; now right|]. apply (at_same s s1); auto.
        apply (at_ext s (P ++ (x :: M) ++ l1)); [|eapply D3; eauto]. intros y. rewrite !in_app_iff. now rewrite HP. }
    split; [exact I4|]. split; [exact EO|]. split; [exact E1'|]. split; [exact HP|]. right. split; [exact L|]. split; [exact E2|]. cbn [length]. lia.
  - rewrite tuck_none by exact L. exists s, 0, [], [], [], (g_order s). unfold update. replace (S i - j)%nat with O by lia. cbn [seq fold_left]. rewrite !Z.sub_diag.
    split; [reflexivity|]. split; [exact HI|]. split; [reflexivity|]. split; [reflexivity|]. split; [reflexivity|]. split; [reflexivity|]. left. auto.
Qed.

(** *** restore *)
Lemma nset_mid P a v R : nset (P ++ a :: R) (length P) v = P ++ v :: R.
Proof. induction P as [|b P IH]; cbn; [reflexivity|]. now rewrite IH. Qed.
Lemma restore_seg R : forall s0 s P R2 Q, refs s -> g_order s = P ++ R2 ++ Q -> length R2 = length R -> NoDup R -> (forall v, In v R -> (v < p)%nat) ->
  exists s', fold_left restore_one (map (fun k => (k, (nth k (P ++ R ++ Q) 0%nat, g_pa s0 (nth k (P ++ R ++ Q) 0%nat), g_loc s0 (nth k (P ++ R ++ Q) 0%nat)))) (seq (length P) (length R))) s = s' /\
    g_order s' = P ++ R ++ Q /\ refs s' /\ g_gst s' = g_gst s /\
    (forall v, In v R -> g_pa s' v = g_pa s0 v /\ g_loc s' v = g_loc s0 v) /\ (forall v, (v < p)%nat -> ~ In v R -> g_pa s' v = g_pa s v /\ g_loc s' v = g_loc s v).
Proof.
  induction R as [|z R IH]; intros s0 s P R2 Q HR HO HL HN HB.
  - destruct R2; [|discriminate]. cbn. exists s. split; [reflexivity|]. split; [exact HO|]. split; [exact HR|]. split; [reflexivity|]. split; [intros v []|auto].
  - destruct R2 as [|z2 R2]; [discriminate|]. cbn [length seq map fold_left]. cbn [app]. rewrite nth_middle.
    set (s1 := restore_one s (length P, (z, g_pa s0 z, g_loc s0 z))).
    inversion HN as [|? ? N1 N2]; subst.
    assert (Hz : (z < p)%nat) by (apply HB; now left).
    assert (HR1 : refs s1).
    { intros v w Hv Hw. unfold s1. cbn. unfold fset. split.
      - destruct (Nat.eqb_spec v z) as [->|], (Nat.eqb_spec w z) as [->|]; intros E; auto.
        + destruct (HR w w Hw Hw). lia.
        + destruct (HR v v Hv Hv). lia.
        + now apply (HR v w Hv Hw).
      - destruct (Nat.eqb_spec v z); [lia|]. destruct (HR v v Hv Hv). lia. }
    assert (HO1 : g_order s1 = (P ++ [z]) ++ R2 ++ Q). { unfold s1. cbn. rewrite HO. cbn [app]. rewrite nset_mid, <- app_assoc. reflexivity. }
    destruct (IH s0 s1 (P ++ [z]) R2 Q HR1 HO1 ltac:(cbn in HL; lia) N2 (fun v H => HB v (or_intror H))) as (s' & I0 & I1 & I2 & I3 & I4 & I5).
    exists s'. split.
    { rewrite <- I0. rewrite app_length. cbn [length]. replace (length P + 1)%nat with (S (length P)) by lia. rewrite <- app_assoc. reflexivity. }
    split; [rewrite I1, <- app_assoc; reflexivity|]. split; [exact I2|]. split; [rewrite I3; reflexivity|].
    assert (V : forall v, (v < p)%nat -> v <> z -> g_pa s1 v = g_pa s v /\ g_loc s1 v = g_loc s v).
    { intros v Hv N. unfold s1, g_pa. cbn. unfold fset. destruct (Nat.eqb_spec v z); [contradiction|]. split; [|reflexivity].
      destruct (HR v v Hv Hv). destruct (Nat.eqb_spec (g_ref s v) (g_next s)); [lia|reflexivity]. }
    split.
    + intros v [<-|Hv]; [|now apply I4]. destruct (I5 z Hz N1) as [-> ->]. unfold s1, g_pa. cbn. unfold fset. rewrite !Nat.eqb_refl. auto.
    + intros v Hv N. assert (Nz : v <> z) by (intros ->; apply N; now left). destruct (I5 v Hv) as [-> ->]; [intros H; apply N; now right|]. now apply V.
Qed.
Lemma snapshot_eq s i j P R Q : g_order s = P ++ R ++ Q -> ((i < j)%nat /\ R = [] \/ (j <= i)%nat /\ length P = j /\ length R = (S i - j)%nat) ->
  snapshot s i j = map (fun k => (k, (nth k (P ++ R ++ Q) 0%nat, g_pa s (nth k (P ++ R ++ Q) 0%nat), g_loc s (nth k (P ++ R ++ Q) 0%nat)))) (seq (length P) (length R)).
Proof.
  intros HO H. unfold snapshot, g_get. rewrite HO. destruct H as [[H ->]|(H & H1 & H2)].
  - replace (S i - j)%nat with O by lia. reflexivity.
  - rewrite H1, H2. reflexivity.
Qed.
Lemma restore_spec s s1 i j P R R' Q : Inv s -> Inv s1 -> g_order s = P ++ R ++ Q -> g_order s1 = P ++ R' ++ Q -> Permutation R R' ->
  ((i < j)%nat /\ R = [] \/ (j <= i)%nat /\ length P = j /\ length R = (S i - j)%nat) ->
  let s2 := restore (snapshot s i j) (g_edges s) s1 in Inv s2 /\ g_order s2 = g_order s /\ g_edges s2 = g_edges s.
Proof.
  intros HI HI1 HO HO1 HP H. pose proof HI as (HG & HOp & HR & HD). pose proof HI1 as (HG1 & HOp1 & HR1 & HD1). destruct (order_ok s HI) as (HN & HB & HL).
  unfold restore. rewrite (snapshot_eq s i j P R Q HO H).
  assert (NR : NoDup R) by (rewrite HO in HN; apply NoDup_app_r in HN; now apply NoDup_app_l in HN).
  assert (BR : forall v, In v R -> (v < p)%nat) by (intros v Hv; apply HB; rewrite HO, !in_app_iff; now right; left).
  destruct (restore_seg R s s1 P R' Q HR1 HO1 (Permutation_length (Permutation_sym HP)) NR BR) as (s2 & I0 & I1 & I2 & I3 & I4 & I5). rewrite I0. cbn zeta. clear I0.
  assert (HDs := proj1 (good_split s P R Q HN HO) HD). destruct HDs as (D1 & D2 & D3).
  assert (HN1 : NoDup (g_order s1)) by (rewrite HOp1; apply seq_NoDup).
  assert (HDs1 := proj1 (good_split s1 P R' Q HN1 HO1) HD1). destruct HDs1 as (E1 & E2 & E3).
  assert (NPQ : forall v, In v P \/ In v Q -> ~ In v R).
  { intros v Hv Hr. rewrite HO in HN. destruct Hv as [Hv|Hv].
    - eapply NoDup_app_disj; [exact HN|exact Hv|]. apply in_app_iff. now left.
    - apply NoDup_app_r in HN. eapply NoDup_app_disj; [exact HN|exact Hr|exact Hv]. }
  split; [|split; [cbn; rewrite I1; now symmetry|reflexivity]].
  split; [cbn; rewrite I3; exact HG1|]. split; [cbn; rewrite I1, <- HO; exact HOp|]. split; [exact I2|].
  apply (good_split (with_edges s2 (g_edges s)) P R Q); [cbn; rewrite I1, <- HO; exact HN|exact I1|]. split; [|split].
  - intros l1 v l2 EP. assert (Hv : In v P) by (rewrite EP; apply in_app_iff; right; now left).
    destruct (I5 v) as [J1 J2]; [apply HB; rewrite HO, in_app_iff; now left|apply NPQ; now left|]. apply (at_same s1); auto. eapply E1; eauto.
  - intros l1 v l2 ER. assert (Hv : In v R) by (rewrite ER; apply in_app_iff; right; now left). destruct (I4 v Hv) as [J1 J2]. apply (at_same s); auto. eapply D2; eauto.
  - intros l1 v l2 EQ. assert (Hv : In v Q) by (rewrite EQ; apply in_app_iff; right; now left).
    destruct (I5 v) as [J1 J2]; [apply HB; rewrite HO, !in_app_iff; now right; right|apply NPQ; now right|]. apply (at_same s1); auto.
    apply (at_ext s1 (P ++ R' ++ l1)); [|eapply E3; eauto]. intros y. rewrite !in_app_iff. now rewrite HP.
Qed.

(** *** The search *)
Variable eps loss : Z.
Hypothesis Heps : 0 < eps.
Hypothesis Hloss : forall o o', Permutation o (seq 0 p) -> Permutation o' (seq 0 p) -> - eps < tot [] o' - tot [] o -> - loss <= tot [] o' - tot [] o.
Definition dfs_ok (d : Z) (s : gstate) (b : bool) (s' : gstate) : Prop :=
  Inv s' /\ (b = false -> g_order s' = g_order s /\ g_edges s' = g_edges s) /\ (b = true -> tot [] (g_order s) + eps - d * loss < tot [] (g_order s')).

Section Body.
Variable d : Z.
Hypothesis Hd : 0 <= d * loss.
Variable rec : option (pset -> list pset -> gstate -> bool * gstate).
Hypothesis Hrec : match rec with None => True | Some r => forall fl h s, Inv s -> let '(b, s') := r fl h s in dfs_ok (d - 1) s b s' end.
Variable history : list pset.
Lemma try_x_spec i yr x fl s : Inv s -> (i < p)%nat -> let '(b, fl', s') := try_x sc p eps rec history i yr x fl s in dfs_ok d s b s'.
Proof.
  intros HI Hi. unfold try_x. destruct (_ && _)%bool; [split; [exact HI|]; split; [auto|discriminate]|]. cbv zeta. set (j := lindex x (g_order s)).
  destruct (tuck_update i j s HI Hi) as (s1 & eb & P & R & R' & Q & E & HI1 & HE & HO & HO1 & HP & HS). rewrite E.
  assert (RS : forall s2, Inv s2 -> g_order s2 = g_order s1 -> forall b : bool, dfs_ok d s false (restore (snapshot s i j) (g_edges s) s2)).
  { intros s2 H2 E2 b. rewrite HO1 in E2. destruct (restore_spec s s2 i j P R R' Q HI H2 HO E2 HP HS) as (A & B & C). split; [exact A|]. split; [auto|discriminate]. }
  destruct (Z.ltb_spec eps (tot [] (g_order s1) - tot [] (g_order s))) as [L|L].
  - split; [exact HI1|]. split; [discriminate|]. intros _. cbn. lia.
  - destruct (Z.ltb_spec (- eps) (tot [] (g_order s1) - tot [] (g_order s))) as [L2|L2]; [|apply (RS s1 HI1 eq_refl true)].
    destruct (_ && _)%bool; [|apply (RS s1 HI1 eq_refl true)]. destruct rec as [r|]; [|apply (RS s1 HI1 eq_refl true)].
    match goal with |- context [r ?f ?h s1] => specialize (Hrec f h s1 HI1); destruct (r f h s1) as [[|] s2] end; destruct Hrec as (A & B & C).
    + split; [exact A|]. split; [discriminate|]. intros _. specialize (C eq_refl).
      specialize (Hloss (g_order s) (g_order s1) (proj1 (proj2 HI)) (proj1 (proj2 HI1)) L2). lia.
    + apply (RS s2 A (proj1 (B eq_refl)) true).
Qed.
Lemma x_loop_spec n : forall t i yr fl s, Inv s -> (i < p)%nat -> let '(b, fl', s') := x_loop sc p eps rec history n t i yr fl s in dfs_ok d s b s'.
Proof.
  induction n as [|n IH]; intros t i yr fl s HI Hi; cbn [x_loop]; [split; [exact HI|]; split; [auto|discriminate]|].
  destruct (nth_error _ _) as [x|]; [|split; [exact HI|]; split; [auto|discriminate]].
  pose proof (try_x_spec i yr x fl s HI Hi) as Q. destruct (try_x _ _ _ _ _ _ _ _ _ _) as [[[|] fl1] s1]; [exact Q|]. destruct Q as (Q1 & Q2 & _). destruct (Q2 eq_refl) as [Q3 Q4].
  specialize (IH (S t) i yr fl1 s1 Q1 Hi). destruct (x_loop _ _ _ _ _ _ _ _ _ _ _) as [[b fl2] s2]. destruct IH as (I1 & I2 & I3). rewrite Q3 in *. rewrite Q4 in *. split; [exact I1|]. auto.
Qed.
Lemma shuffle_inv s i : Inv s -> (i < p)%nat -> Inv (with_rnd (with_heap s (g_ref s (g_get s i)) (sh (g_rnd s) (g_heap s (g_ref s (g_get s i)))))).
Proof.
  intros (HG & HO & HR & HD) Hi. split; [exact HG|]. split; [exact HO|]. split; [exact HR|]. intros l1 v l2 E. destruct (HD l1 v l2 E) as [H1 H2]. split; [|exact H2].
  unfold g_pa in *. cbn. unfold fset. destruct (Nat.eqb_spec (g_ref s v) (g_ref s (g_get s i))) as [E'|]; [|exact H1]. rewrite Hsh, <- E'. exact H1.
Qed.
Lemma i_loop_spec is_ : forall fl s, Inv s -> (forall i, In i is_ -> (i < p)%nat) -> let '(b, s') := i_loop sc p sh eps rec history is_ fl s in dfs_ok d s b s'.
Proof.
  induction is_ as [|i r IH]; intros fl s HI Hi; cbn [i_loop]; [split; [exact HI|]; split; [auto|discriminate]|].
  set (s1 := with_rnd _). assert (HI1 : Inv s1) by (apply shuffle_inv; [exact HI|apply Hi; now left]).
  pose proof (x_loop_spec (S p) 0 i (g_ref s (g_get s i)) fl s1 HI1 (Hi i (or_introl eq_refl))) as Q. destruct (x_loop _ _ _ _ _ _ _ _ _ _ _) as [[[|] fl1] s2]; [exact Q|].
  destruct Q as (Q1 & Q2 & _). destruct (Q2 eq_refl) as [Q3 Q4]. specialize (IH fl1 s2 Q1 (fun k H => Hi k (or_intror H))). destruct (i_loop _ _ _ _ _ _ _ _ _) as [b s3].
  destruct IH as (I1 & I2 & I3). rewrite Q3 in *. rewrite Q4 in *. split; [exact I1|]. auto.
Qed.
End Body.
Hypothesis Hloss0 : 0 <= loss.
Lemma dfs_spec depth : forall fl h s, Inv s -> let '(b, s') := dfs sc p sh eps depth fl h s in dfs_ok (Z.of_nat depth) s b s'.
Proof.
  induction depth as [|n IH]; intros fl h s HI; cbn [dfs]; destruct (order_ok s HI) as (_ & _ & HL); rewrite HL.
  - apply (i_loop_spec 0 ltac:(lia) None I h _ fl (with_rnd s) HI). intros i H. rewrite Hsh in H. now apply in_seq0.
  - refine (i_loop_spec (Z.of_nat (S n)) ltac:(nia) (Some (dfs sc p sh eps n)) _ h _ fl (with_rnd s) _ _).
    + intros fl' h' s' H'. specialize (IH fl' h' s' H'). destruct (dfs _ _ _ _ _ _ _ _) as [b s2]. replace (Z.of_nat (S n) - 1) with (Z.of_nat n) by lia. exact IH.
    + exact HI.
    + intros i H. rewrite Hsh in H. now apply in_seq0.
Qed.

(** *** The start *)
Lemma grasp_init_inv : Inv (grasp_init sc p sh).
Proof.
  unfold grasp_init. set (o := sh 0 (seq 0 p)). assert (HO : Permutation o (seq 0 p)) by apply Hsh.
  assert (Gen : forall R D s, gok (g_gst s) -> refs s -> g_order s = o -> o = D ++ R -> (forall l1 v l2, D = l1 ++ v :: l2 -> at_pos s l1 v) ->
    Inv (fold_left (fun s i => let y := g_get s i in let '(G, score, ps) := gst_trace sc p (g_gst s) y (firstn i (g_order s)) in
      let s1 := with_loc (with_heap (with_gst s G) (g_ref s y) ps) y score in with_edges s1 (g_edges s1 + Z.of_nat (length ps))) (seq (length D) (length R)) s)).
  { induction R as [|z R IH]; intros D s HG HR Ho E HD.
    - cbn. rewrite app_nil_r in E. split; [exact HG|]. split; [now rewrite Ho|]. split; [exact HR|]. intros l1 v l2 E'. apply (HD l1 v l2). congruence.
    - cbn [length seq fold_left]. cbv zeta.
      assert (EG : g_get s (length D) = z) by (unfold g_get; rewrite Ho, E; apply nth_middle).
      assert (EF : firstn (length D) (g_order s) = D) by (rewrite Ho, E, firstn_app, Nat.sub_diag, firstn_all; apply app_nil_r).
      rewrite EG, EF. pose proof (gst_trace_ok sc Hsc p (g_gst s) z D HG) as T. destruct (gst_trace sc p (g_gst s) z D) as [[G score] ps]. destruct T as (T1 & T2 & T3).
      assert (Hz : (z < p)%nat) by (apply in_seq0; rewrite <- HO, E, in_app_iff; right; now left).
      assert (NO : NoDup o) by (rewrite HO; apply seq_NoDup).
      set (s1 := with_edges _ _). specialize (IH (D ++ [z]) s1 T1 HR Ho). rewrite app_length in IH. cbn [length] in IH. rewrite Nat.add_1_r in IH. apply IH.
      + rewrite E, <- app_assoc. reflexivity.
      + intros l1 v l2 E'. destruct (Nat.eq_dec v z) as [->|N].
        * assert (l1 = D).
          { destruct (exists_last (l := z :: l2) ltac:(discriminate)) as (l3 & a & E3). rewrite E3, app_assoc in E'. apply app_inj_tail in E'. destruct E' as [E1 E2]. subst a.
            rewrite E in NO. destruct l3 as [|b l3]; [rewrite app_nil_r in E1; now symmetry|]. exfalso. cbn in E3. injection E3 as -> E3. rewrite E1 in NO. rewrite <- !app_assoc in NO. cbn in NO.
            apply NoDup_app_r in NO. inversion NO as [|? ? N1 N2]. apply N1. rewrite !in_app_iff. right. now left. }
          subst l1. split; [unfold g_pa; cbn; unfold fset; rewrite Nat.eqb_refl; exact T3|cbn; unfold fset; now rewrite Nat.eqb_refl].
        * assert (HDv : exists l3, D = l1 ++ v :: l3).
          { destruct (exists_last (l := v :: l2) ltac:(discriminate)) as (l3 & a & E3). rewrite E3, app_assoc in E'. apply app_inj_tail in E'. destruct E' as [E1 E2]. subst a.
            destruct l3 as [|b l3]; cbn in E3; injection E3 as E3 E4; [congruence|]. subst b. now exists l3. }
          destruct HDv as (l3 & ED). specialize (HD l1 v l3 ED). apply (at_same s s1); [| |exact HD].
          -- unfold g_pa. cbn. unfold fset. destruct (Nat.eqb_spec (g_ref s v) (g_ref s z)) as [E2|]; [|reflexivity].
             apply (HR v z) in E2; [contradiction| |exact Hz]. apply in_seq0. rewrite <- HO, E, in_app_iff. left. rewrite ED, in_app_iff. right. now left.
          -- cbn. unfold fset. destruct (Nat.eqb_spec v z); [contradiction|reflexivity]. }
  specialize (Gen o [] (mkGS o (fun y => y) (fun _ => []) p (fun y => sc y []) 0 (new_gsts sc) 1)). cbn [length] in Gen.
  rewrite (Permutation_length HO), seq_length in Gen. apply Gen; auto.
  - exact (new_gok sc Hsc p).
  - intros v w Hv Hw. cbn. split; [auto|exact Hv].
  - intros [|? ?] v l2 E; discriminate.
Qed.
Lemma grasp_loop_inv depth fuel : forall s s', Inv s -> grasp_loop sc p sh fuel eps depth s = Some s' -> Inv s'.
Proof.
  induction fuel as [|f IH]; intros s s' HI E; cbn in E; [discriminate|]. pose proof (dfs_spec (depth - 1) [] [] s HI) as Q.
  destruct (dfs _ _ _ _ _ _ _ _) as [[|] s1]; destruct Q as (Q1 & _ & _); [eauto|]. now injection E as <-.
Qed.
Lemma grasp_loop_total depth M : Z.of_nat (depth - 1) * loss <= eps -> (forall order, Permutation order (seq 0 p) -> tot [] order <= M) ->
  forall fuel s, Inv s -> M - tot [] (g_order s) < Z.of_nat fuel -> exists s', grasp_loop sc p sh fuel eps depth s = Some s' /\ Inv s' /\ tot [] (g_order s) <= tot [] (g_order s').
Proof.
  intros Hd HM. induction fuel as [|f IH]; intros s HI Hf; [specialize (HM _ (proj1 (proj2 HI))); lia|]. cbn [grasp_loop]. pose proof (dfs_spec (depth - 1) [] [] s HI) as Q.
  destruct (dfs _ _ _ _ _ _ _ _) as [[|] s1]; destruct Q as (Q1 & Q2 & Q3).
  - specialize (Q3 eq_refl). destruct (IH s1 Q1 ltac:(lia)) as (s' & A & B & C). exists s'. split; [exact A|]. split; [exact B|]. lia.
  - exists s1. split; [reflexivity|]. split; [exact Q1|]. destruct (Q2 eq_refl) as [-> _]. lia.
Qed.
End Grasp.
