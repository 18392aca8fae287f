(** FCI: a pass that reports no change found every rule exhausted. *)
From Verif Require Import Base EdgeModel EdgeProofs GraphModel GraphSpec GraphProofs UtilsModel UtilsProofs SkelModel PCModel FCIModel FCISpec FCIProofs FCIRules FCILoops FCIFront.
Local Open Scope Z_scope.

Definition still (f : st -> outcome st) : Prop := forall s s', f s = Ret s' -> s' = s \/ snd s' = true.
Lemma still_ret : still (fun s => Ret s).
Proof. intros s s' [= <-]. auto. Qed.
Lemma obind_ret {A B} (o : outcome A) (k : A -> outcome B) b : obind o k = Ret b -> exists a, o = Ret a /\ k a = Ret b.
Proof. destruct o; cbn; try discriminate. eauto. Qed.
Lemma still_changed s o s' : (forall s0 : st, s0 = s -> changed (o s0) = Ret s' -> s' = s \/ snd s' = true).
Proof. intros s0 -> H. unfold changed in H. apply obind_ret in H. destruct H as (g & _ & [= <-]). auto. Qed.
Lemma changed_flag o s' : changed o = Ret s' -> snd s' = true.
Proof. unfold changed. intros H. apply obind_ret in H. destruct H as (g & _ & [= <-]). reflexivity. Qed.
Lemma still_bind f k : still f -> still k -> still (fun s => obind (f s) k).
Proof.
  intros Hf Hk s s' H. apply obind_ret in H. destruct H as (s1 & E1 & E2). destruct (Hf _ _ E1) as [->|F]; [now apply Hk|].
  destruct (Hk _ _ E2) as [->|]; auto.
Qed.
Lemma still_bind_last f k s g : still f -> still k -> obind (f s) k = Ret (g, false) -> f s = Ret s /\ k s = Ret (g, false).
Proof.
  intros Hf Hk H. apply obind_ret in H. destruct H as (s1 & E1 & E2). destruct (Hf _ _ E1) as [->|F]; [auto|].
  destruct (Hk _ _ E2) as [E|E]; [|discriminate]. rewrite <- E in F. discriminate.
Qed.
Lemma still_fold {A} (f : st -> A -> outcome st) l : (forall a, In a l -> still (fun s => f s a)) -> still (foldO f l).
Proof.
  induction l as [|a l IH]; intros H; cbn [foldO]; [apply still_ret|]. apply (still_bind (fun s => f s a)); [apply H; now left|]. apply IH. intros; apply H; now right.
Qed.
Lemma still_fold_each {A} (f : st -> A -> outcome st) l g : (forall a, In a l -> still (fun s => f s a)) -> foldO f l (g, false) = Ret (g, false) ->
  forall a, In a l -> f (g, false) a = Ret (g, false).
Proof.
  induction l as [|a l IH]; intros H E x Hx; [destruct Hx|]. cbn [foldO] in E. apply (still_bind_last (fun s => f s a)) in E.
  - destruct E as [E1 E2]. destruct Hx as [<-|Hx]; [exact E1|]. apply IH; auto. intros; apply H; now right.
  - apply H; now left.
  - apply still_fold. intros; apply H; now right.
Qed.
Ltac still_if := intros s s' H; repeat match type of H with (if ?c then _ else _) = _ => destruct c end; first [injection H as <-; auto|right; exact (changed_flag _ _ H)].

Section Still.
Variable ind : nat -> nat -> list nat -> bool.
Variable forb : nat -> nat -> bool.
Variable so : list nat -> list nat.
Lemma R1_still a b c : still (ruleR1 forb a b c).
Proof. unfold ruleR1. cbn zeta. still_if. Qed.
Lemma R2_still a b c : still (ruleR2 forb a b c).
Proof. unfold ruleR2. cbn zeta. still_if. Qed.
Lemma r12_still b ac : still (fun s => r12_step forb b s ac).
Proof.
  destruct ac as [a c]. unfold r12_step. apply still_bind; [apply R1_still|]. apply (still_bind (ruleR1 forb c b a)); [apply R1_still|]. apply (still_bind (ruleR2 forb a b c)); apply R2_still.
Qed.
Lemma still_app {A} (f : A -> st -> outcome st) (h : st -> A) : (forall a, still (f a)) -> still (fun s => f (h s) s).
Proof. intros H s s' E. exact (H (h s) s s' E). Qed.
Lemma R12_still : still (rulesR1R2 forb).
Proof.
  unfold rulesR1R2. apply (still_app (fun l => foldO (fun s b => foldO (r12_step forb b) (upairs (get_adjacent_nodes (fst s) b)) s) l) (fun s => seq 0 (gn (fst s)))).
  intros l. apply still_fold. intros b _. apply (still_app (fun k => foldO (r12_step forb b) k) (fun s => upairs (get_adjacent_nodes (fst s) b))).
  intros k. apply still_fold. intros ac _. apply r12_still.
Qed.
Lemma r3_still sep b d ac : still (fun s => r3_step forb sep b d s ac).
Proof. destruct ac as [a c]. unfold r3_step. cbn zeta. still_if. Qed.
Lemma R3_still sep : still (ruleR3 forb sep).
Proof.
  unfold ruleR3. apply (still_app (fun l => foldO _ l) (fun s => seq 0 (gn (fst s)))). intros l. apply still_fold. intros b _. cbn zeta.
  apply (still_app (fun p => foldO (fun s d => foldO (r3_step forb sep b d) (upairs (fst p)) s) (snd p)) (fun s => (get_nodes_into (fst s) b ARROW, get_nodes_into (fst s) b CIRCLE))).
  intros [k k']. apply still_fold. intros d _. cbn [fst]. apply still_fold. intros ac _. apply r3_still.
Qed.
Lemma r5_still fuel b a : still (fun s => r5_step fuel b s a).
Proof.
  unfold r5_step. cbn zeta. intros s s' H. destruct (epis (fst s) b a CIRCLE); [|injection H as <-; auto]. revert H. apply still_fold. intros cd _ s1 s2. unfold r5_pair. intros H.
  apply obind_ret in H. destruct H as (o & _ & H). destruct o; [right; exact (changed_flag _ _ H)|injection H as <-; auto].
Qed.
Lemma R5_still fuel : still (ruleR5 fuel).
Proof.
  unfold ruleR5. apply (still_app (fun l => foldO _ l) (fun s => seq 0 (gn (fst s)))). intros l. apply still_fold. intros b _.
  apply (still_app (fun k => foldO (r5_step fuel b) k) (fun s => get_nodes_into (fst s) b CIRCLE)). intros k. apply still_fold. intros a _. apply r5_still.
Qed.
Lemma still_ch (h : st -> outcome ggraph) : still (fun s => changed (h s)).
Proof. intros s s' H. right. exact (changed_flag _ _ H). Qed.
Lemma r6_still b : still (fun s => r6_node s b).
Proof.
  intros s s' H. unfold r6_node in H. cbn zeta in H. destruct (existsb _ _); [|injection H as <-; auto]. revert H. apply still_fold. intros c _. apply still_ch.
Qed.
Lemma R6_still : still ruleR6.
Proof. unfold ruleR6. apply (still_app (fun l => foldO r6_node l) (fun s => seq 0 (gn (fst s)))). intros l. apply still_fold. intros b _. apply r6_still. Qed.
Lemma r7_step_still b c a : still (fun s => r7_step b c s a).
Proof. unfold r7_step. still_if. Qed.
Lemma r7_still b : still (fun s => r7_node s b).
Proof. intros s s' H. unfold r7_node in H. cbn zeta in H. revert H. apply still_fold. intros c _. apply still_fold. intros a _. apply r7_step_still. Qed.
Lemma R7_still : still ruleR7.
Proof. unfold ruleR7. apply (still_app (fun l => foldO r7_node l) (fun s => seq 0 (gn (fst s)))). intros l. apply still_fold. intros b _. apply r7_still. Qed.
Lemma r8_still b ac : still (fun s => r8_step b s ac).
Proof. destruct ac as [a c]. unfold r8_step. cbn zeta. still_if. Qed.
Lemma R8_still : still rule8.
Proof.
  unfold rule8. apply (still_app (fun l => foldO _ l) (fun s => seq 0 (gn (fst s)))). intros l. apply still_fold. intros b _.
  apply (still_app (fun k => foldO (r8_step b) k) (fun s => upairs (get_adjacent_nodes (fst s) b))). intros k. apply still_fold. intros ac _. apply r8_still.
Qed.
Lemma r9_children_still fuel a c bs : still (r9_children fuel a c bs).
Proof.
  induction bs as [|b bs IH]; cbn [r9_children]; [apply still_ret|]. intros s s' H. destruct (is_adjacent_to (fst s) b c); [now apply IH|].
  apply obind_ret in H. destruct H as (v & _ & H). destruct v; [right; exact (changed_flag _ _ H)|now apply IH].
Qed.
Lemma r9_still fuel c a : still (fun s => r9_step so fuel c s a).
Proof. intros s s' H. unfold r9_step in H. cbn zeta in H. destruct (epis _ _ _ _); [revert H; apply r9_children_still|injection H as <-; auto]. Qed.
Lemma R9_still fuel : still (rule9 so fuel).
Proof.
  unfold rule9. apply (still_app (fun l => foldO _ l) (fun s => seq 0 (gn (fst s)))). intros l. apply still_fold. intros c _.
  apply (still_app (fun k => foldO (r9_step so fuel c) k) (fun s => get_nodes_into (fst s) c ARROW)). intros k. apply still_fold. intros a _. apply r9_still.
Qed.
Lemma r10_pairs_still fuel a b c d ps : still (r10_pairs fuel a b c d ps).
Proof.
  induction ps as [|(u, v) ps IH]; cbn [r10_pairs]; [apply still_ret|]. intros s s' H. apply obind_ret in H. destruct H as (p1 & _ & H). destruct (negb p1); [now apply IH|].
  apply obind_ret in H. destruct H as (p2 & _ & H). destruct (negb p2); [now apply IH|]. destruct (negb _); [right; exact (changed_flag _ _ H)|now apply IH].
Qed.
Lemma R10_still fuel : still (rule10 so fuel).
Proof.
  unfold rule10. apply (still_app (fun l => foldO (r10_node so fuel) l) (fun s => seq 0 (gn (fst s)))). intros l. apply still_fold. intros c _.
  intros s s' H. unfold r10_node in H. cbn zeta in H. destruct (Nat.ltb _ 2); [injection H as <-; auto|]. revert H. apply still_fold. intros a _ s1 s2 H. unfold r10_step in H. cbn zeta in H.
  destruct (Nat.ltb _ 2); [injection H as <-; auto|]. revert H. apply still_fold. intros bd _ s3 s4 H. unfold r10_choice in H. destruct bd as [b d].
  destruct (_ && _); [revert H; apply r10_pairs_still|injection H as <-; auto].
Qed.
Hypothesis so_in : forall l x, In x (so l) <-> In x l.
Variable n : nat.
Lemma pass_exhausted fuel mpl kall ft sep g ft' : (2 * n < fuel)%nat -> mixed n g -> fci_pass ind forb so fuel mpl kall ft sep g = Ret ((g, false), ft') ->
  rulesR1R2 forb (g, false) = Ret (g, false) /\ ruleR3 forb sep (g, false) = Ret (g, false) /\ ruleR5 fuel (g, false) = Ret (g, false) /\
  ruleR6 (g, false) = Ret (g, false) /\ ruleR7 (g, false) = Ret (g, false) /\ rule8 (g, false) = Ret (g, false) /\
  rule9 so fuel (g, false) = Ret (g, false) /\ rule10 so fuel (g, false) = Ret (g, false).
Proof.
  intros HF HM H. unfold fci_pass in H. cbn zeta in H.
  apply obind_ret in H. destruct H as (s1 & E1 & H). pose proof (R12_still _ _ E1) as F1. destruct (R12_adv ind forb n (g, false) HM) as (s1' & E1' & A1). assert (s1' = s1) by congruence. subst s1'.
  apply obind_ret in H. destruct H as (s2 & E2 & H). pose proof (R3_still _ _ _ E2) as F2. destruct (R3_adv ind forb n sep s1 (adv_mixed _ _ _ _ A1)) as (s2' & E2' & A2). assert (s2' = s2) by congruence. subst s2'.
  apply obind_ret in H. destruct H as (s3 & E3 & H).
  assert (F3 : s3 = s2 \/ snd s3 = true).
  { destruct (snd s2 || ft && kall); [|injection E3 as <-; auto]. destruct (R4_adv ind forb n fuel mpl sep s2 HF (adv_mixed _ _ _ _ A2)) as (s3' & E3' & A3). assert (s3' = s3) by congruence. subst s3'.
    destruct A3 as (_ & _ & [->|[F _]]); auto. }
  apply obind_ret in H. destruct H as (s4 & E4 & H). pose proof (R5_still _ _ _ E4) as F4.
  apply obind_ret in H. destruct H as (s5 & E5 & H). pose proof (R6_still _ _ E5) as F5.
  apply obind_ret in H. destruct H as (s6 & E6 & H). pose proof (R7_still _ _ E6) as F6.
  apply obind_ret in H. destruct H as (s7 & E7 & H). pose proof (R8_still _ _ E7) as F7.
  apply obind_ret in H. destruct H as (s8 & E8 & H). pose proof (R9_still _ _ _ E8) as F8.
  apply obind_ret in H. destruct H as (s9 & E9 & H). pose proof (R10_still _ _ _ E9) as F9.
  injection H as -> _.
  assert (s8 = (g, false)) by (destruct F9 as [<-|F]; [reflexivity|discriminate]). subst s8.
  assert (s7 = (g, false)) by (destruct F8 as [<-|F]; [reflexivity|discriminate]). subst s7.
  assert (s6 = (g, false)) by (destruct F7 as [<-|F]; [reflexivity|discriminate]). subst s6.
  assert (s5 = (g, false)) by (destruct F6 as [<-|F]; [reflexivity|discriminate]). subst s5.
  assert (s4 = (g, false)) by (destruct F5 as [<-|F]; [reflexivity|discriminate]). subst s4.
  assert (s3 = (g, false)) by (destruct F4 as [<-|F]; [reflexivity|discriminate]). subst s3.
  assert (s2 = (g, false)) by (destruct F3 as [<-|F]; [reflexivity|discriminate]). subst s2.
  assert (s1 = (g, false)) by (destruct F2 as [<-|F]; [reflexivity|discriminate]). subst s1.
  auto 20.
Qed.
Lemma may_allowed g x y : mixed n g -> (x < n)%nat -> (y < n)%nat -> may_point forb g x y -> allowed forb g x y = true.
Proof. intros HM Hx Hy H. apply (allowed_iff n g HM); auto. Qed.
Ltac flagged H := apply changed_flag in H; discriminate.

Section Exh.
Variables (fuel : nat) (sep : sepsets) (g : ggraph).
Hypothesis HM : mixed n g.
Hypothesis HF : (n < fuel)%nat.
Lemma bring a : (a < n)%nat -> In a (seq 0 (gn (fst (g, false)))).
Proof. intros. cbn [fst]. rewrite (mx_n _ _ HM). now apply in_seq0. Qed.
Lemma ep_ok x y p : is_mark p -> (x < n)%nat -> (y < n)%nat -> gm g y x = ev p -> epis g x y p = true.
Proof. intros. now apply (epis_iff n g HM). Qed.
Lemma nadj x y : ~ adj g x y -> is_adjacent_to g x y = false.
Proof. intros H. apply adj_no. unfold adj in H. destruct (Z.eq_dec (gm g y x) 0); [assumption|contradiction]. Qed.
Lemma yadj x y : adj g x y -> is_adjacent_to g x y = true.
Proof. intros H. now apply adj_iff. Qed.
Lemma adj_sym x y : (x < n)%nat -> (y < n)%nat -> adj g x y -> adj g y x.
Proof. intros Hx Hy H Q. apply H. now apply (mx_zero n g HM). Qed.
Lemma R1_exh : rulesR1R2 forb (g, false) = Ret (g, false) -> forall a b c, (a < n)%nat -> (b < n)%nat -> (c < n)%nat -> a <> c ->
  arrow_at g a b -> circle_at g c b -> ~ adj g a c -> may_point forb g b c -> False.
Proof.
  intros H a b c Ha Hb Hc N A C NA MP. unfold rulesR1R2 in H.
  pose proof (still_fold_each (fun s b => foldO (r12_step forb b) (upairs (get_adjacent_nodes (fst s) b)) s) (seq 0 (gn (fst (g, false)))) g) as K.
  specialize (K (fun b _ => still_app (fun k => foldO (r12_step forb b) k) (fun s => upairs (get_adjacent_nodes (fst s) b)) (fun k => still_fold _ k (fun ac _ => r12_still b ac))) H b (bring b Hb)).
  cbn [fst] in K.
  assert (Ia : In a (get_adjacent_nodes g b)) by (apply (in_adjn n g HM); auto; split; [exact Ha|]; unfold arrow_at in A; lia).
  assert (Ic : In c (get_adjacent_nodes g b)) by (apply (in_adjn n g HM); auto; split; [exact Hc|]; unfold circle_at in C; lia).
  assert (G : ruleR1 forb a b c (g, false) = Ret (g, false)).
  { destruct (upairs_complete _ _ _ Ia Ic N) as [P|P]; pose proof (still_fold_each _ _ g (fun ac _ => r12_still b ac) K _ P) as K2; unfold r12_step in K2.
    - now apply still_bind_last in K2; [|apply R1_still|apply (still_bind (ruleR1 forb c b a)); [apply R1_still|apply (still_bind (ruleR2 forb a b c)); apply R2_still]].
    - apply still_bind_last in K2; [|apply R1_still|apply (still_bind (ruleR1 forb a b c)); [apply R1_still|apply (still_bind (ruleR2 forb c b a)); apply R2_still]].
      destruct K2 as [_ K2]. apply (still_bind_last (ruleR1 forb a b c)) in K2; [|apply R1_still|apply (still_bind (ruleR2 forb c b a)); apply R2_still]. tauto. }
  unfold ruleR1 in G. cbn [fst] in G. rewrite (nadj a c NA), (ep_ok a b ARROW mkA Ha Hb A), (ep_ok c b CIRCLE mkC Hc Hb C), (may_allowed g b c HM Hb Hc MP) in G. cbn [andb] in G. flagged G.
Qed.
Lemma R2_exh : rulesR1R2 forb (g, false) = Ret (g, false) -> forall a b c, (a < n)%nat -> (b < n)%nat -> (c < n)%nat ->
  circle_at g a c -> arrow_at g a b -> arrow_at g b c -> tail_at g b a \/ tail_at g c b -> may_point forb g a c -> False.
Proof.
  intros H a b c Ha Hb Hc C A1 A2 T MP. unfold rulesR1R2 in H.
  pose proof (still_fold_each (fun s b => foldO (r12_step forb b) (upairs (get_adjacent_nodes (fst s) b)) s) (seq 0 (gn (fst (g, false)))) g) as K.
  specialize (K (fun b _ => still_app (fun k => foldO (r12_step forb b) k) (fun s => upairs (get_adjacent_nodes (fst s) b)) (fun k => still_fold _ k (fun ac _ => r12_still b ac))) H b (bring b Hb)).
  cbn [fst] in K. unfold circle_at, arrow_at, tail_at in *.
  assert (N : a <> c) by (intros ->; rewrite (mx_diag n g HM c Hc) in C; discriminate).
  assert (Ia : In a (get_adjacent_nodes g b)) by (apply (in_adjn n g HM); auto; split; [exact Ha|]; lia).
  assert (Ic : In c (get_adjacent_nodes g b)). { apply (in_adjn n g HM); auto. split; [exact Hc|]. intros Q. apply (mx_zero n g HM) in Q; auto. lia. }
  assert (G : ruleR2 forb a b c (g, false) = Ret (g, false)).
  { destruct (upairs_complete _ _ _ Ia Ic N) as [P|P]; pose proof (still_fold_each _ _ g (fun ac _ => r12_still b ac) K _ P) as K2; unfold r12_step in K2.
    - apply still_bind_last in K2; [|apply R1_still|apply (still_bind (ruleR1 forb c b a)); [apply R1_still|apply (still_bind (ruleR2 forb a b c)); apply R2_still]].
      destruct K2 as [_ K2]. apply (still_bind_last (ruleR1 forb c b a)) in K2; [|apply R1_still|apply (still_bind (ruleR2 forb a b c)); apply R2_still].
      destruct K2 as [_ K2]. apply (still_bind_last (ruleR2 forb a b c)) in K2; [tauto|apply R2_still|apply R2_still].
    - apply still_bind_last in K2; [|apply R1_still|apply (still_bind (ruleR1 forb a b c)); [apply R1_still|apply (still_bind (ruleR2 forb c b a)); apply R2_still]].
      destruct K2 as [_ K2]. apply (still_bind_last (ruleR1 forb a b c)) in K2; [|apply R1_still|apply (still_bind (ruleR2 forb c b a)); apply R2_still].
      destruct K2 as [_ K2]. apply (still_bind_last (ruleR2 forb c b a)) in K2; [tauto|apply R2_still|apply R2_still]. }
  unfold ruleR2 in G. cbn [fst] in G. rewrite (yadj a c) in G by (unfold adj; lia).
  rewrite (ep_ok a c CIRCLE mkC Ha Hc C), (ep_ok a b ARROW mkA Ha Hb A1), (ep_ok b c ARROW mkA Hb Hc A2), (may_allowed g a c HM Ha Hc MP) in G. cbn [andb] in G.
  assert (E : epis g b a TAIL || epis g c b TAIL = true). { apply orb_true_iff. destruct T as [T|T]; [left; now apply (ep_ok b a TAIL mkT Hb Ha)|right; now apply (ep_ok c b TAIL mkT Hc Hb)]. }
  rewrite E in G. cbn [andb] in G. flagged G.
Qed.
Lemma into_sorted v p x y l1 l2 l3 : get_nodes_into g v p = l1 ++ x :: l2 ++ y :: l3 -> (x < y)%nat.
Proof.
  unfold get_nodes_into. match goal with |- filter ?ff (seq 0 ?mm) = _ -> _ => generalize ff as f; generalize mm as m end. intros m f.
  generalize 0%nat as k. revert l1. induction m as [|m IH]; intros l1 k; cbn [seq filter]; [destruct l1; discriminate|].
  destruct (f k); [|apply IH]. destruct l1 as [|z l1]; cbn [app]; intros [= -> E]; [|eapply IH; exact E].
  assert (Hy : In y (filter f (seq (Datatypes.S x) m))) by (rewrite E; apply in_or_app; right; now left). apply filter_In in Hy. destruct Hy as [Hy _]. apply in_seq in Hy. lia.
Qed.
Lemma R3_exh : ruleR3 forb sep (g, false) = Ret (g, false) -> forall a b c d s, (a < c)%nat -> (b < n)%nat -> (c < n)%nat -> (d < n)%nat ->
  arrow_at g a b -> arrow_at g c b -> circle_at g d b -> ~ adj g a c -> circle_at g a d -> circle_at g c d -> sep a c = Some s -> In d s -> may_point forb g d b -> False.
Proof.
  intros H a b c d s Hac Hb Hc Hd A1 A2 C NA C1 C2 ES Hs MP. assert (Ha : (a < n)%nat) by lia. unfold ruleR3 in H.
  pose proof (still_fold_each _ _ g (fun b _ => still_app (fun p => foldO (fun s d => foldO (r3_step forb sep b d) (upairs (fst p)) s) (snd p)) (fun s => (get_nodes_into (fst s) b ARROW, get_nodes_into (fst s) b CIRCLE))
    (fun kk => still_fold _ (snd kk) (fun d _ => still_fold _ (upairs (fst kk)) (fun ac _ => r3_still sep b d ac)))) H b (bring b Hb)) as K. cbn [fst snd] in K.
  assert (Id : In d (get_nodes_into g b CIRCLE)) by (apply (in_into n g HM); auto; apply mkC).
  pose proof (still_fold_each _ _ g (fun d _ => still_fold _ (upairs (get_nodes_into g b ARROW)) (fun ac _ => r3_still sep b d ac)) K d Id) as K2. cbn beta in K2.
  assert (Ia : In a (get_nodes_into g b ARROW)) by (apply (in_into n g HM); auto; apply mkA).
  assert (Ic : In c (get_nodes_into g b ARROW)) by (apply (in_into n g HM); auto; apply mkA).
  assert (P : In (a, c) (upairs (get_nodes_into g b ARROW))).
  { destruct (upairs_complete _ _ _ Ia Ic) as [P|P]; [lia|exact P|]. exfalso. assert (c < a)%nat; [|lia]. eapply upairs_sorted; [|exact P]. intros; eapply into_sorted; eauto. }
  pose proof (still_fold_each _ _ g (fun ac _ => r3_still sep b d ac) K2 _ P) as G. unfold r3_step in G. cbn [fst] in G.
  rewrite (nadj a c NA) in G. rewrite (yadj a d), (yadj c d) in G by (unfold adj; unfold circle_at in *; lia). cbn [negb orb] in G.
  unfold is_noncollider in G. rewrite ES in G. apply memb_In in Hs. rewrite Hs, (ep_ok a d CIRCLE mkC Ha Hd C1), (ep_ok c d CIRCLE mkC Hc Hd C2), (may_allowed g d b HM Hd Hb MP) in G. cbn [andb] in G. flagged G.
Qed.
Lemma R6_exh : ruleR6 (g, false) = Ret (g, false) -> forall a b c, (a < n)%nat -> (b < n)%nat -> (c < n)%nat ->
  tail_at g a b -> tail_at g b a -> circle_at g c b -> False.
Proof.
  intros H a b c Ha Hb Hc T1 T2 C. unfold ruleR6 in H. pose proof (still_fold_each _ _ g (fun b _ => r6_still b) H b (bring b Hb)) as K. unfold r6_node in K. cbn [fst] in K.
  assert (E : existsb (fun a => epis g b a TAIL) (get_nodes_into g b TAIL) = true).
  { apply existsb_exists. exists a. split; [apply (in_into n g HM); auto; apply mkT|]. now apply (ep_ok b a TAIL mkT). }
  rewrite E in K. assert (Ic : In c (get_nodes_into g b CIRCLE)) by (apply (in_into n g HM); auto; apply mkC).
  pose proof (still_fold_each _ _ g (fun c _ => still_ch (fun s => reedge (fst s) b c (mk TAIL) (kept c))) K c Ic) as G. cbn beta in G. flagged G.
Qed.
Lemma R7_exh : ruleR7 (g, false) = Ret (g, false) -> forall a b c, (a < n)%nat -> (b < n)%nat -> (c < n)%nat -> a <> c ->
  circle_at g a b -> tail_at g b a -> circle_at g c b -> ~ adj g a c -> False.
Proof.
  intros H a b c Ha Hb Hc N C1 T C2 NA. unfold ruleR7 in H. pose proof (still_fold_each _ _ g (fun b _ => r7_still b) H b (bring b Hb)) as K. unfold r7_node in K. cbn [fst] in K. cbn zeta in K.
  assert (Ic : In c (get_nodes_into g b CIRCLE)) by (apply (in_into n g HM); auto; apply mkC).
  pose proof (still_fold_each _ _ g (fun c _ => still_fold _ _ (fun a _ => r7_step_still b c a)) K c Ic) as K2. cbn beta in K2.
  assert (Ia : In a (filter (fun a => epis g b a TAIL) (get_nodes_into g b CIRCLE))).
  { apply filter_In. split; [apply (in_into n g HM); auto; apply mkC|]. now apply (ep_ok b a TAIL mkT). }
  pose proof (still_fold_each _ _ g (fun a _ => r7_step_still b c a) K2 a Ia) as G. unfold r7_step in G. cbn [fst] in G. apply Nat.eqb_neq in N. rewrite N, (nadj a c NA) in G. flagged G.
Qed.
Lemma R8_exh : rule8 (g, false) = Ret (g, false) -> forall a b c, (a < c)%nat -> (b < n)%nat -> (c < n)%nat ->
  tail_at g b a -> arrow_at g a b \/ circle_at g a b -> points g b c -> arrow_at g a c -> circle_at g c a -> False.
Proof.
  intros H a b c Hac Hb Hc T AC (T2 & A2) A3 C. assert (Ha : (a < n)%nat) by lia. unfold rule8 in H. unfold arrow_at, tail_at, circle_at in *.
  pose proof (still_fold_each (fun s b => foldO (r8_step b) (upairs (get_adjacent_nodes (fst s) b)) s) (seq 0 (gn (fst (g, false)))) g) as K.
  specialize (K (fun b _ => still_app (fun k => foldO (r8_step b) k) (fun s => upairs (get_adjacent_nodes (fst s) b)) (fun k => still_fold _ k (fun ac _ => r8_still b ac))) H b (bring b Hb)).
  cbn [fst] in K.
  assert (Ia : In a (get_adjacent_nodes g b)) by (apply (in_adjn n g HM); auto; split; [exact Ha|]; lia).
  assert (Ic : In c (get_adjacent_nodes g b)) by (apply (in_adjn n g HM); auto; split; [exact Hc|]; lia).
  assert (P : In (a, c) (upairs (get_adjacent_nodes g b))).
  { destruct (upairs_complete _ _ _ Ia Ic) as [P|P]; [lia|exact P|]. exfalso. assert (c < a)%nat; [|lia]. eapply upairs_sorted; [|exact P]. intros; eapply adjn_sorted; eauto. }
  pose proof (still_fold_each _ _ g (fun ac _ => r8_still b ac) K _ P) as G. unfold r8_step in G. cbn [fst] in G.
  rewrite (ep_ok b a TAIL mkT Hb Ha T), (ep_ok b c ARROW mkA Hb Hc A2), (ep_ok c b TAIL mkT Hc Hb T2), (ep_ok a c ARROW mkA Ha Hc A3), (ep_ok c a CIRCLE mkC Hc Ha C) in G.
  rewrite (yadj a c) in G by (unfold adj; lia). destruct AC as [E|E].
  - rewrite (ep_ok a b ARROW mkA Ha Hb E) in G. cbn [andb orb] in G. flagged G.
  - rewrite (ep_ok a b CIRCLE mkC Ha Hb E) in G. cbn [andb] in G. rewrite orb_true_r in G. flagged G.
Qed.
Lemma R9_exh : rule9 so fuel (g, false) = Ret (g, false) -> forall a b c, (a < n)%nat -> (b < n)%nat -> (c < n)%nat ->
  arrow_at g a c -> circle_at g c a -> b <> c -> adj g a b -> ~ arrow_at g b a -> ~ adj g b c -> reach1 (semi_step n g) b c -> False.
Proof.
  intros H a b c Ha Hb Hc A C N J NAr NA HR. unfold rule9 in H.
  pose proof (still_fold_each (fun s c => foldO (r9_step so fuel c) (get_nodes_into (fst s) c ARROW) s) (seq 0 (gn (fst (g, false)))) g) as K.
  specialize (K (fun c _ => still_app (fun k => foldO (r9_step so fuel c) k) (fun s => get_nodes_into (fst s) c ARROW) (fun k => still_fold _ k (fun a _ => r9_still fuel c a))) H c (bring c Hc)).
  cbn [fst] in K. assert (Ia : In a (get_nodes_into g c ARROW)) by (apply (in_into n g HM); auto; apply mkA).
  pose proof (still_fold_each _ _ g (fun a _ => r9_still fuel c a) K a Ia) as G. unfold r9_step in G. cbn [fst] in G. rewrite (ep_ok c a CIRCLE mkC Hc Ha C) in G.
  assert (Nab : a <> b) by (intros ->; apply J; now apply (mx_diag n g HM)).
  assert (Ib : In b (possible_children so g a (filter (fun u => negb (Nat.eqb u a) && negb (Nat.eqb u c)) (get_adjacent_nodes g a)))).
  { unfold possible_children. apply so_in. apply filter_In. split.
    - apply filter_In. split; [apply (in_adjn n g HM); auto; split; [exact Hb|]; now apply adj_sym|].
      apply andb_true_iff. split; apply negb_true_iff, Nat.eqb_neq; auto.
    - unfold is_possible_parent. apply Nat.eqb_neq in Nab. rewrite Nab, (yadj a b J). cbn [negb]. apply negb_true_iff. apply (epis_no n g HM); auto. apply mkA. }
  revert G Ib. generalize (possible_children so g a (filter (fun u => negb (Nat.eqb u a) && negb (Nat.eqb u c)) (get_adjacent_nodes g a))) as bs.
  induction bs as [|u bs IH]; intros G Ib; [destruct Ib|]. cbn [r9_children fst] in G. destruct Ib as [->|Ib].
  - rewrite (nadj b c NA) in G. destruct (exists_semi_spec ind forb n fuel g b c HM Hb HF) as (v & E & HV). rewrite E in G. cbn [obind] in G.
    assert (v = true) by (apply HV; exact HR). subst v. flagged G.
  - destruct (is_adjacent_to g u c); [auto|]. destruct (exists_semi fuel g u c) as [v| |]; cbn [obind] in G; try discriminate. destruct v; [flagged G|auto].
Qed.
End Exh.
End Still.
