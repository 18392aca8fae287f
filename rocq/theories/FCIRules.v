(** FCI: every orientation rule returns, and what it may change. *)
From Verif Require Import Base EdgeModel EdgeProofs GraphModel GraphSpec GraphProofs DpathProofs QueryProps UtilsModel UtilsProofs
  SkelModel PCModel FCIModel FCISpec DsepProofs MeekModel MeekProofs FCIProofs.
From Coq Require Import Permutation.
Local Open Scope Z_scope.

(** Like [only_fills], circles become tails only. *)
Definition only_tails (n : nat) (g g' : ggraph) : Prop :=
  forall i j, (i < n)%nat -> (j < n)%nat -> gm g' i j = gm g i j \/ (gm g i j = 2 /\ gm g' i j = -1).
Definition gap (n : nat) (g g' : ggraph) : Prop := exists i j, (i < n)%nat /\ (j < n)%nat /\ gm g i j = 2 /\ gm g' i j <> 2.
Definition adv (R : nat -> ggraph -> ggraph -> Prop) (n : nat) (s0 s : st) : Prop :=
  mixed n (fst s) /\ R n (fst s0) (fst s) /\ (s = s0 \/ (snd s = true /\ gap n (fst s0) (fst s))).

Lemma fills_refl n g : mixed n g -> only_fills n g g.
Proof. intros _ x y _ _. split; [reflexivity|]. auto. Qed.
Lemma fills_trans n g1 g2 g3 : only_fills n g1 g2 -> only_fills n g2 g3 -> only_fills n g1 g3.
Proof.
  intros H1 H2 x y Hx Hy. destruct (H1 x y Hx Hy) as [A1 A2], (H2 x y Hx Hy) as [B1 B2]. unfold circle_at, arrow_at, tail_at in *. split.
  - intros N. specialize (A1 N). rewrite <- A1. apply B1. lia.
  - intros C. destruct (A2 C) as [D|[D|D]]; [auto| |]; rewrite B1 by lia; auto.
Qed.
Lemma ntails_refl n g : only_tails n g g.
Proof. intros i j _ _. auto. Qed.
Lemma ntails_trans n g1 g2 g3 : only_tails n g1 g2 -> only_tails n g2 g3 -> only_tails n g1 g3.
Proof. intros H1 H2 i j Hi Hj. destruct (H1 i j Hi Hj), (H2 i j Hi Hj); lia. Qed.
Lemma ntails_fills n g g' : only_tails n g g' -> only_fills n g g'.
Proof. intros H x y Hx Hy. specialize (H y x Hy Hx). unfold circle_at, arrow_at, tail_at. split; intros; destruct H as [H|H]; lia. Qed.
Lemma weak_refl n g : no_new_circle n g g.
Proof. intros x y _ _. tauto. Qed.
Lemma weak_trans n g1 g2 g3 : no_new_circle n g1 g2 -> no_new_circle n g2 g3 -> no_new_circle n g1 g3.
Proof. intros H1 H2 x y Hx Hy. specialize (H1 x y Hx Hy). specialize (H2 x y Hx Hy). tauto. Qed.
Lemma fills_weak n g g' : only_fills n g g' -> no_new_circle n g g'.
Proof.
  intros H x y Hx Hy. specialize (H x y Hx Hy). unfold circle_at, arrow_at, tail_at, adj in *. destruct H as [A B].
  destruct (Z.eq_dec (gm g y x) 2) as [E|N]; [specialize (B E); lia|specialize (A N); rewrite A; lia].
Qed.
Record preord (R : nat -> ggraph -> ggraph -> Prop) : Prop := {
  po_refl : forall n g, mixed n g -> R n g g;
  po_trans : forall n g1 g2 g3, R n g1 g2 -> R n g2 g3 -> R n g1 g3;
  po_weak : forall n g g', R n g g' -> no_new_circle n g g' }.
Lemma po_fills : preord only_fills.
Proof. split; [apply fills_refl|apply fills_trans|apply fills_weak]. Qed.
Lemma po_tails : preord only_tails.
Proof. split; [intros; apply ntails_refl|apply ntails_trans|intros; apply fills_weak, ntails_fills; assumption]. Qed.
Lemma po_nnc : preord no_new_circle.
Proof. split; [intros; apply weak_refl|apply weak_trans|auto]. Qed.

Section Adv.
Variable R : nat -> ggraph -> ggraph -> Prop.
Hypothesis PO : preord R.
Lemma adv_refl n s : mixed n (fst s) -> adv R n s s.
Proof. intros H. split; [exact H|]. split; [now apply (po_refl _ PO)|auto]. Qed.
Lemma weak_gap n g1 g2 g3 : no_new_circle n g1 g2 -> gap n g2 g3 -> gap n g1 g3.
Proof. intros H (i & j & Hi & Hj & E & N). exists i, j. repeat split; auto. apply (proj2 (H j i Hj Hi)). exact E. Qed.
Lemma weak_gap_l n g1 g2 g3 : gap n g1 g2 -> no_new_circle n g2 g3 -> gap n g1 g3.
Proof. intros (i & j & Hi & Hj & E & N) H. exists i, j. repeat split; auto. intros C. apply N. apply (proj2 (H j i Hj Hi)). exact C. Qed.
Lemma adv_trans n s1 s2 s3 : adv R n s1 s2 -> adv R n s2 s3 -> adv R n s1 s3.
Proof.
  intros (M1 & R1 & D1) (M2 & R2 & D2). split; [exact M2|]. split; [eapply (po_trans _ PO); eauto|].
  destruct D2 as [-> | [F2 G2]]; [exact D1|]. right. split; [exact F2|]. eapply weak_gap; [eapply (po_weak _ PO); exact R1|exact G2].
Qed.
Lemma adv_more n s0 s g' : adv R n s0 s -> mixed n g' -> R n (fst s) g' -> gap n (fst s0) g' -> adv R n s0 (g', true).
Proof. intros (M1 & R1 & D1) M R2 G. split; [exact M|]. split; [cbn; eapply (po_trans _ PO); eauto|]. right. cbn. auto. Qed.
Lemma adv_mixed n s0 s : adv R n s0 s -> mixed n (fst s).
Proof. intros H. apply H. Qed.
Lemma foldO_adv {A} (f : st -> A -> outcome st) n l s0 : mixed n (fst s0) ->
  (forall s a, In a l -> adv R n s0 s -> exists s', f s a = Ret s' /\ adv R n s0 s') ->
  exists s', foldO f l s0 = Ret s' /\ adv R n s0 s'.
Proof. intros H HS. apply foldO_inv; [now apply adv_refl|exact HS]. Qed.
Lemma foldO_adv1 {A} (f : st -> A -> outcome st) n l s0 : mixed n (fst s0) ->
  (forall s a, In a l -> mixed n (fst s) -> exists s', f s a = Ret s' /\ adv R n s s') ->
  exists s', foldO f l s0 = Ret s' /\ adv R n s0 s'.
Proof.
  intros H HS. apply foldO_adv; [exact H|]. intros s a Hin HA. destruct (HS s a Hin (adv_mixed _ _ _ HA)) as (s' & E & HA').
  exists s'. split; [exact E|]. eapply adv_trans; eauto.
Qed.
End Adv.
Lemma adv_weaken (R R' : nat -> ggraph -> ggraph -> Prop) n s s' : (forall n g g', R n g g' -> R' n g g') -> adv R n s s' -> adv R' n s s'.
Proof. intros H (M & H1 & D). split; [exact M|]. split; [now apply H|exact D]. Qed.

Lemma marked_fills n g g' x y u v : mixed n g -> (x < n)%nat -> (y < n)%nat -> x <> y -> marked g g' x y u v ->
  (gm g x y = u \/ (gm g x y = 2 /\ (u = 1 \/ u = -1))) -> (gm g y x = v \/ (gm g y x = 2 /\ (v = 1 \/ v = -1))) -> only_fills n g g'.
Proof.
  intros HM Hx Hy N (E1 & E2 & F) H1 H2 i j Hi Hj. unfold circle_at, arrow_at, tail_at.
  assert (D : (j = x /\ i = y) \/ (j = y /\ i = x) \/ (~ (j = x /\ i = y) /\ ~ (j = y /\ i = x))) by lia.
  destruct D as [[-> ->] | [[-> ->] | [D1 D2]]]; [rewrite E1; lia|rewrite E2; lia|]. rewrite F by assumption. lia.
Qed.
Lemma marked_tails n g g' x y u v : mixed n g -> (x < n)%nat -> (y < n)%nat -> x <> y -> marked g g' x y u v ->
  (gm g x y = u \/ (gm g x y = 2 /\ u = -1)) -> (gm g y x = v \/ (gm g y x = 2 /\ v = -1)) -> only_tails n g g'.
Proof.
  intros HM Hx Hy N (E1 & E2 & F) H1 H2 i j Hi Hj.
  assert (D : (i = x /\ j = y) \/ (i = y /\ j = x) \/ (~ (i = x /\ j = y) /\ ~ (i = y /\ j = x))) by lia.
  destruct D as [[-> ->] | [[-> ->] | [D1 D2]]]; [rewrite E1; lia|rewrite E2; lia|]. rewrite F by assumption. lia.
Qed.
Lemma marked_weak n g g' x y u v : mixed n g -> (x < n)%nat -> (y < n)%nat -> x <> y -> marked g g' x y u v ->
  gm g x y <> 0 -> u <> 0 -> v <> 0 -> (u = 2 -> gm g x y = 2) -> (v = 2 -> gm g y x = 2) -> no_new_circle n g g'.
Proof.
  intros HM Hx Hy N (E1 & E2 & F) H0 U V H1 H2 i j Hi Hj. unfold adj, circle_at.
  assert (H0' : gm g y x <> 0) by (intros E; apply H0; eapply mx_zero; eauto).
  assert (D : (j = x /\ i = y) \/ (j = y /\ i = x) \/ (~ (j = x /\ i = y) /\ ~ (j = y /\ i = x))) by lia.
  destruct D as [[-> ->] | [[-> ->] | [D1 D2]]]; [rewrite E1; lia|rewrite E2; lia|]. rewrite F by assumption. tauto.
Qed.

Lemma mkT : is_mark TAIL. Proof. unfold is_mark; auto. Qed.
Lemma mkA : is_mark ARROW. Proof. unfold is_mark; auto. Qed.
Lemma mkC : is_mark CIRCLE. Proof. unfold is_mark; auto. Qed.
Global Hint Resolve mkT mkA mkC : fci.
Lemma st_AT : storable ARROW TAIL. Proof. split; [apply mkA|]. split; [apply mkT|]. intros []; discriminate. Qed.
Lemma st_TT : storable TAIL TAIL. Proof. split; [apply mkT|]. split; [apply mkT|]. intros []; discriminate. Qed.
Lemma st_TA : storable TAIL ARROW. Proof. split; [apply mkT|]. split; [apply mkA|]. intros []; discriminate. Qed.
Global Hint Resolve st_AT st_TT st_TA : fci.

Lemma in_upairs l a c : In (a, c) (upairs l) -> In a l /\ In c l.
Proof.
  induction l as [|x l IH]; cbn; [easy|]. rewrite in_app_iff, in_map_iff. intros [(y & [= -> ->] & Hy)|H]; [auto|]. destruct (IH H). auto.
Qed.
Lemma upairs_complete l a c : In a l -> In c l -> a <> c -> In (a, c) (upairs l) \/ In (c, a) (upairs l).
Proof.
  induction l as [|x l IH]; cbn; [easy|]. rewrite !in_app_iff, !in_map_iff. intros [->|Ha] [->|Hc] N; try congruence; eauto 10.
  destruct (IH Ha Hc N); auto.
Qed.
Lemma upairs_sorted l a c : (forall x y l1 l2 l3, l = l1 ++ x :: l2 ++ y :: l3 -> (x < y)%nat) -> In (a, c) (upairs l) -> (a < c)%nat.
Proof.
  induction l as [|x l IH]; cbn; [easy|]. intros HS. rewrite in_app_iff, in_map_iff. intros [(y & [= -> ->] & Hy)|H].
  - apply in_split in Hy. destruct Hy as (l1 & l2 & ->). apply (HS a c [] l1 l2). reflexivity.
  - apply IH; [|exact H]. intros u v l1 l2 l3 ->. apply (HS u v (x :: l1) l2 l3). reflexivity.
Qed.

Ltac bools := repeat match goal with
  | H : _ && _ = true |- _ => apply andb_true_iff in H; destruct H
  | H : negb _ = true |- _ => apply negb_true_iff in H
  end.

Ltac by_mark L MK := match type of MK with marked ?g ?g' ?x ?y ?u ?v => match goal with |- _ ?n _ _ => apply (L n g g' x y u v); auto; lia end end.

Section Rules.
Variable ind : nat -> nat -> list nat -> bool.
Variable forb : nat -> nat -> bool.
Variable so : list nat -> list nat.
Hypothesis so_in : forall l x, In x (so l) <-> In x l.
Variable n : nat.

(** ** R1, R2 *)
Lemma R1_adv a b c s : mixed n (fst s) -> (a < n)%nat -> (b < n)%nat -> (c < n)%nat ->
  exists s', ruleR1 forb a b c s = Ret s' /\ adv only_fills n s s'.
Proof.
  intros HM Ha Hb Hc. unfold ruleR1. destruct (is_adjacent_to (fst s) a c); [eexists; split; [reflexivity|now apply adv_refl, HM; apply po_fills]|].
  destruct (_ && _) eqn:G; [|eexists; split; [reflexivity|now apply (adv_refl _ po_fills)]].
  bools. rewrite (epis_iff n _ HM) in * by auto with fci. cbn [ev] in *. apply (allowed_iff n _ HM) in H0; auto.
  assert (K : gm (fst s) c b = 1 \/ gm (fst s) c b = 2) by tauto. clear H0. assert (N : gm (fst s) c b <> 0) by lia. assert (Ncb : c <> b) by (eapply mx_neq; eauto).
  destruct (reedge_const n _ HM c b ARROW TAIL Hc Hb N st_AT) as (g' & -> & M' & MK). cbn. eexists. split; [reflexivity|]. cbn [ev] in MK.
  apply (adv_more _ po_fills n s s g'); [now apply (adv_refl _ po_fills)|exact M'| |].
  - by_mark marked_fills MK.
  - exists b, c. destruct MK as (E1 & E2 & _). repeat split; auto. lia.
Qed.
Lemma R2_adv a b c s : mixed n (fst s) -> (a < n)%nat -> (b < n)%nat -> (c < n)%nat ->
  exists s', ruleR2 forb a b c s = Ret s' /\ adv only_fills n s s'.
Proof.
  intros HM Ha Hb Hc. unfold ruleR2. destruct (_ && _) eqn:G; [|eexists; split; [reflexivity|now apply (adv_refl _ po_fills)]].
  bools. rewrite (epis_iff n _ HM) in H4 by auto with fci. cbn [ev] in *. 
  assert (N' : gm (fst s) c a <> 0) by lia. assert (N : gm (fst s) a c <> 0) by (intros E; apply N'; eapply mx_zero; eauto).
  assert (Nac : a <> c) by (eapply mx_neq; eauto).
  destruct (reedge_left n _ HM a c ARROW Ha Hc N mkA) as (g' & -> & M' & MK); [intros []; discriminate|]. cbn. eexists. split; [reflexivity|]. cbn [ev] in MK.
  apply (adv_more _ po_fills n s s g'); [now apply (adv_refl _ po_fills)|exact M'| |].
  - by_mark marked_fills MK.
  - exists c, a. destruct MK as (E1 & E2 & _). repeat split; auto. lia.
Qed.
Lemma obind_adv (R : nat -> ggraph -> ggraph -> Prop) s o (k : st -> outcome st) : preord R ->
  (exists s1, o = Ret s1 /\ adv R n s s1) -> (forall s1, mixed n (fst s1) -> exists s2, k s1 = Ret s2 /\ adv R n s1 s2) ->
  exists s2, obind o k = Ret s2 /\ adv R n s s2.
Proof.
  intros PO (s1 & -> & A1) HK. destruct (HK s1 (adv_mixed _ _ _ _ A1)) as (s2 & E & A2). exists s2. split; [exact E|]. eapply adv_trans; eauto.
Qed.
Lemma R12_adv s : mixed n (fst s) -> exists s', rulesR1R2 forb s = Ret s' /\ adv only_fills n s s'.
Proof.
  intros HM. unfold rulesR1R2. apply (foldO_adv1 _ po_fills); [exact HM|]. intros s1 b Hb HM1. rewrite (mx_n _ _ HM) in Hb. apply in_seq0 in Hb.
  apply (foldO_adv1 _ po_fills); [exact HM1|]. intros s2 (a, c) Hac HM2. apply in_upairs in Hac. rewrite !(in_adjn n _ HM1) in Hac by assumption.
  destruct Hac as [[Ha _] [Hc _]]. unfold r12_step.
  apply (obind_adv only_fills _ _ _ po_fills); [now apply R1_adv|]. intros s3 HM3.
  apply (obind_adv only_fills _ _ _ po_fills); [now apply R1_adv|]. intros s4 HM4.
  apply (obind_adv only_fills _ _ _ po_fills); [now apply R2_adv|]. intros s5 HM5. now apply R2_adv.
Qed.

(** ** R3 *)
Lemma R3_adv sep s : mixed n (fst s) -> exists s', ruleR3 forb sep s = Ret s' /\ adv only_fills n s s'.
Proof.
  intros HM. unfold ruleR3. apply (foldO_adv1 _ po_fills); [exact HM|]. intros s0 b Hb HM0. rewrite (mx_n _ _ HM) in Hb. apply in_seq0 in Hb.
  apply (foldO_adv _ po_fills); [exact HM0|]. intros s1 d Hd A1. apply (in_into n _ HM0) in Hd; auto with fci. destruct Hd as [Hd Ed]. cbn [ev] in Ed.
  apply (foldO_inv (r3_step forb sep b d) (adv only_fills n s0)); [exact A1|]. intros s2 (a, c) Hac A2. pose proof (adv_mixed _ _ _ _ A2) as HM2.
  unfold r3_step. cbn zeta. destruct (is_adjacent_to (fst s2) a c); [eauto|]. destruct (negb _ || negb _); [eauto|].
  destruct (_ && _) eqn:G; [|eauto]. bools. apply (allowed_iff n _ HM2) in H0; auto.
  assert (K : gm (fst s2) b d = 1 \/ gm (fst s2) b d = 2) by tauto. clear H0. assert (N' : gm (fst s2) b d <> 0) by lia. assert (N : gm (fst s2) d b <> 0) by (intros E; apply N'; eapply mx_zero; eauto).
  assert (Ndb : d <> b) by (eapply mx_neq; eauto).
  destruct (reedge_left n _ HM2 d b ARROW Hd Hb N mkA) as (g' & -> & M' & MK); [intros []; discriminate|]. cbn. eexists. split; [reflexivity|]. cbn [ev] in MK.
  apply (adv_more _ po_fills n s0 s2 g'); [exact A2|exact M'| |].
  - by_mark marked_fills MK.
  - exists b, d. destruct MK as (E1 & E2 & _). repeat split; auto. lia.
Qed.

(** ** R6, R7, R8 *)
Lemma tail_step s0 s b c : adv only_tails n s0 s -> (b < n)%nat -> (c < n)%nat -> gm (fst s0) b c = 2 ->
  exists s', changed (reedge (fst s) b c (mk TAIL) (kept c)) = Ret s' /\ adv only_tails n s0 s'.
Proof.
  intros A1 Hb Hc E. pose proof (adv_mixed _ _ _ _ A1) as HM. pose proof A1 as (_ & T & _). pose proof (T b c Hb Hc) as Tb.
  assert (N : gm (fst s) b c <> 0) by lia. assert (Nbc : b <> c) by (eapply mx_neq; eauto).
  destruct (reedge_right n _ HM b c Hb Hc N) as (g' & -> & M' & MK). cbn. eexists. split; [reflexivity|].
  apply (adv_more _ po_tails n s0 s g'); [exact A1|exact M'| |].
  - by_mark marked_tails MK.
  - exists b, c. destruct MK as (E1 & E2 & _). repeat split; auto. lia.
Qed.
Lemma R6_adv s : mixed n (fst s) -> exists s', ruleR6 s = Ret s' /\ adv only_tails n s s'.
Proof.
  intros HM. unfold ruleR6. apply (foldO_adv1 _ po_tails); [exact HM|]. intros s0 b Hb HM0. rewrite (mx_n _ _ HM) in Hb. apply in_seq0 in Hb.
  unfold r6_node. destruct (existsb _ _); [|eexists; split; [reflexivity|now apply (adv_refl _ po_tails)]].
  apply (foldO_adv _ po_tails); [exact HM0|]. intros s1 c Hc A1. apply (in_into n _ HM0) in Hc; auto with fci. destruct Hc. now apply tail_step.
Qed.
Lemma R7_adv s : mixed n (fst s) -> exists s', ruleR7 s = Ret s' /\ adv only_tails n s s'.
Proof.
  intros HM. unfold ruleR7. apply (foldO_adv1 _ po_tails); [exact HM|]. intros s0 b Hb HM0. rewrite (mx_n _ _ HM) in Hb. apply in_seq0 in Hb.
  unfold r7_node. apply (foldO_adv _ po_tails); [exact HM0|]. intros s1 c Hc A1. apply (in_into n _ HM0) in Hc; auto with fci. destruct Hc.
  apply (foldO_inv (r7_step b c) (adv only_tails n s0)); [exact A1|]. intros s2 a Ha A2. unfold r7_step.
  destruct (Nat.eqb a c); [eauto|]. destruct (is_adjacent_to (fst s2) a c); [eauto|]. now apply tail_step.
Qed.
Lemma point_step s0 s a c : adv only_tails n s0 s -> (a < n)%nat -> (c < n)%nat -> gm (fst s0) a c = 2 -> gm (fst s0) c a = 1 ->
  exists s', changed (reedge (fst s) a c (mk TAIL) (mk ARROW)) = Ret s' /\ adv only_tails n s0 s'.
Proof.
  intros A1 Ha Hc E1 E2. pose proof (adv_mixed _ _ _ _ A1) as HM. pose proof A1 as (_ & T & _). pose proof (T a c Ha Hc) as T1. pose proof (T c a Hc Ha) as T2.
  assert (N : gm (fst s) a c <> 0) by lia. assert (Nac : a <> c) by (eapply mx_neq; eauto).
  destruct (reedge_const n _ HM a c TAIL ARROW Ha Hc N st_TA) as (g' & -> & M' & MK). cbn. eexists. split; [reflexivity|]. cbn [ev] in MK.
  apply (adv_more _ po_tails n s0 s g'); [exact A1|exact M'| |].
  - by_mark marked_tails MK.
  - exists a, c. destruct MK as (F1 & F2 & _). repeat split; auto. lia.
Qed.
Lemma R8_adv s : mixed n (fst s) -> exists s', rule8 s = Ret s' /\ adv only_tails n s s'.
Proof.
  intros HM. unfold rule8. apply (foldO_adv1 _ po_tails); [exact HM|]. intros s1 b Hb HM1. rewrite (mx_n _ _ HM) in Hb. apply in_seq0 in Hb.
  apply (foldO_adv1 _ po_tails); [exact HM1|]. intros s2 (a, c) Hac HM2. apply in_upairs in Hac. rewrite !(in_adjn n _ HM1) in Hac by assumption.
  destruct Hac as [[Ha _] [Hc _]]. unfold r8_step. cbn zeta.
  destruct (_ || _) eqn:G; [|eexists; split; [reflexivity|now apply (adv_refl _ po_tails)]].
  assert (K : gm (fst s2) c a = 1 /\ gm (fst s2) a c = 2).
  { apply orb_true_iff in G. destruct G; bools; rewrite (epis_iff n _ HM2) in * by auto with fci; cbn [ev] in *; auto. }
  apply point_step; [now apply (adv_refl _ po_tails)|..]; tauto.
Qed.

(** ** Semi-directed reachability *)
(** The code steps from t to u when the mark at t on their edge is a tail or a circle. *)
Definition sstep (g : ggraph) (t u : nat) : Prop := (t < n)%nat /\ (u < n)%nat /\ (gm g t u = -1 \/ gm g t u = 2).
Lemma nodup_bound l : NoDup l -> (forall x, In x l -> (x < n)%nat) -> (length l <= n)%nat.
Proof. intros HN HB. rewrite <- (seq_length n 0). apply NoDup_incl_length; [exact HN|]. intros x Hx. apply in_seq0. auto. Qed.
Lemma sd_step_spec g t V Q u : mixed n g -> (t < n)%nat -> (u < n)%nat -> gm g t u <> 0 ->
  sd_step g t (V, Q) u = Ret (if (gm g t u =? 1) || memb u V then (V, Q) else (V ++ [u], Q ++ [u])).
Proof.
  intros HM Ht Hu N. unfold sd_step. destruct (mx_edge n g HM t u Ht Hu N) as (a & b & Ma & Mb & E1 & E2 & ->). pose proof (mx_neq n g HM t u Ht N) as Ntu.
  rewrite E1. clear E1 E2. unfold traverse_semi, Edge.
  destruct Ma as [-> | [-> | ->]], Mb as [-> | [-> | ->]]; cbn [pointing_left ep_eqb ev Z.eqb Pos.eqb andb orb e_node1 e_node2 e_end1 e_end2 fst snd];
  rewrite ?Nat.eqb_refl, ?(proj2 (Nat.eqb_neq t u) Ntu); cbn [fst snd]; destruct (memb u V); reflexivity.
Qed.
(** What pushing the successors of t does. *)
Definition pushes (g : ggraph) (t : nat) (V Q V' Q' : list nat) : Prop :=
  exists N, V' = V ++ N /\ Q' = Q ++ N /\ NoDup V' /\ (forall x, In x N -> sstep g t x) /\ (forall x, sstep g t x -> In x V').
Lemma sd_push_spec g t V Q : mixed n g -> (t < n)%nat -> NoDup V ->
  exists V' Q', sd_push g t V Q = Ret (V', Q') /\ pushes g t V Q V' Q'.
Proof.
  intros HM Ht HN. unfold sd_push.
  assert (H : forall l, incl l (get_adjacent_nodes g t) -> forall V Q, NoDup V ->
    exists V' Q' N, foldO (sd_step g t) l (V, Q) = Ret (V', Q') /\ V' = V ++ N /\ Q' = Q ++ N /\ NoDup V' /\ (forall x, In x N -> sstep g t x) /\
      (forall x, In x l -> sstep g t x -> In x V')).
  { clear V Q HN. induction l as [|u l IH]; intros HI V Q HN.
    - exists V, Q, []. cbn. rewrite !app_nil_r. do 4 (split; [reflexivity || assumption|]). split; easy.
    - assert (Hu : In u (get_adjacent_nodes g t)) by (apply HI; now left). apply (in_adjn n g HM) in Hu; [|exact Ht]. destruct Hu as [Hu Nu].
      cbn [foldO]. rewrite sd_step_spec by assumption. cbn [obind]. destruct (Z.eqb_spec (gm g t u) 1) as [E|NE]; cbn [orb].
      + destruct (IH (fun x Hx => HI x (or_intror Hx)) V Q HN) as (V' & Q' & N & E1 & E2 & E3 & HN' & H1 & H2). exists V', Q', N. do 5 (split; [assumption|]).
        intros x [->|Hx] Hs; auto. destruct Hs as (_ & _ & Hs). lia.
      + destruct (memb u V) eqn:EM.
        * destruct (IH (fun x Hx => HI x (or_intror Hx)) V Q HN) as (V' & Q' & N & E1 & E2 & E3 & HN' & H1 & H2). exists V', Q', N. do 5 (split; [assumption|]).
          intros x [->|Hx] Hs; auto. rewrite E2. apply in_or_app. left. now apply memb_In.
        * assert (HN2 : NoDup (V ++ [u])). { apply Permutation_NoDup with (u :: V); [apply Permutation_cons_append|]. constructor; [|exact HN]. now apply memb_not_In. }
          destruct (IH (fun x Hx => HI x (or_intror Hx)) (V ++ [u]) (Q ++ [u]) HN2) as (V' & Q' & N & E1 & E2 & E3 & HN' & H1 & H2).
          exists V', Q', (u :: N). rewrite <- app_assoc in E2, E3. split; [exact E1|]. split; [exact E2|]. split; [exact E3|]. split; [exact HN'|]. split.
          -- intros x [<-|Hx]; auto. pose proof (mx_codes n g HM t u Ht Hu). split; [exact Ht|]. split; [exact Hu|]. lia.
          -- intros x [->|Hx] Hs; auto. rewrite E2. apply in_or_app. right. now left. }
  destruct (H _ (incl_refl _) V Q HN) as (V' & Q' & N & E & E2 & E3 & HN' & H1 & H2). exists V', Q'. split; [exact E|]. exists N. do 4 (split; [assumption|]).
  intros x Hs. apply H2; [|exact Hs]. apply (in_adjn n g HM); [exact Ht|]. destruct Hs as (_ & Hx & Hs). split; [exact Hx|lia].
Qed.
(** The search: every node of V is reachable; a node of V that is no longer queued is not the target and all its successors are in V. *)
Lemma sd_loop_spec g from to : mixed n g -> forall fuel V Q, NoDup V -> (forall x, In x V -> (x < n)%nat /\ reach1 (sstep g) from x) ->
  (forall x, sstep g from x -> In x V) -> incl Q V ->
  (forall x, In x V -> In x Q \/ (x <> to /\ forall y, sstep g x y -> In y V)) -> (n - length V + length Q < fuel)%nat ->
  exists b, sd_loop fuel g to V Q = Ret b /\ (b = true <-> reach1 (sstep g) from to).
Proof.
  intros HM. induction fuel as [|f IH]; intros V Q HN HV H0 HI HC HF; [lia|]. destruct Q as [|t Q].
  - exists false. split; [reflexivity|]. split; [discriminate|]. intros (u & Hu & Hr). exfalso.
    assert (C : forall x, In x V -> x <> to /\ forall y, sstep g x y -> In y V) by (intros x Hx; destruct (HC x Hx) as [[]|]; assumption).
    assert (forall x y, reach (sstep g) x y -> In x V -> In y V). { induction 1 as [|x y z S1 S2 IHr]; auto. intros Hx. apply IHr. now apply (C x Hx). }
    apply (C to (H u to Hr (H0 u Hu))). reflexivity.
  - cbn [sd_loop]. assert (Ht : In t V) by (apply HI; now left). destruct (HV t Ht) as [Btn Rt]. destruct (Nat.eqb_spec t to) as [->|Nt].
    + exists true. split; [reflexivity|]. tauto.
    + destruct (sd_push_spec g t V Q HM Btn HN) as (V' & Q' & -> & N & -> & -> & HN' & P1 & P2). cbn [obind fst snd].
      assert (HV' : forall x, In x (V ++ N) -> (x < n)%nat /\ reach1 (sstep g) from x).
      { intros x Hx. apply in_app_or in Hx. destruct Hx as [Hx|Hx]; [auto|]. pose proof (P1 x Hx) as Sx. split; [apply Sx|].
        destruct Rt as (u & Su & Ru). exists u. split; [exact Su|]. eapply reach_trans; [exact Ru|]. now apply reach_one. }
      apply IH; auto.
      * intros x Hx. apply in_or_app. left. auto.
      * intros x Hx. apply in_app_or in Hx. apply in_or_app. destruct Hx as [Hx|Hx]; [left; apply HI; now right|now right].
      * intros x Hx. apply in_app_or in Hx. destruct Hx as [Hx|Hx].
        -- destruct (HC x Hx) as [[<-|HQ]|[K1 K2]]; [right; split; [exact Nt|exact P2]|left; apply in_or_app; now left|].
           right. split; [exact K1|]. intros y Hy. apply in_or_app. left. auto.
        -- left. apply in_or_app. now right.
      * pose proof (nodup_bound (V ++ N) HN' (fun x Hx => proj1 (HV' x Hx))) as B. rewrite !app_length in *. cbn [length] in HF. lia.
Qed.
Lemma exists_semi_spec fuel g from to : mixed n g -> (from < n)%nat -> (n < fuel)%nat ->
  exists b, exists_semi fuel g from to = Ret b /\ (b = true <-> reach1 (sstep g) from to).
Proof.
  intros HM Hf HF. unfold exists_semi. destruct (sd_push_spec g from [] [] HM Hf (NoDup_nil _)) as (V' & Q' & -> & N & EV & EQ & HN' & P1 & P2).
  cbn in EV, EQ. subst. cbn [obind fst snd]. assert (B : forall x, In x N -> (x < n)%nat) by (intros x Hx; apply (P1 x Hx)).
  apply sd_loop_spec with (from := from); auto.
  - intros x Hx. split; [auto|]. exists x. split; [auto|constructor].
  - apply incl_refl.
  - pose proof (nodup_bound N HN' B). lia.
Qed.

(** ** R9, R10 *)
Lemma r9_children_adv fuel c s0 : (n < fuel)%nat -> (c < n)%nat -> forall a bs s, adv only_tails n s0 s -> (a < n)%nat ->
  gm (fst s0) a c = 2 -> gm (fst s0) c a = 1 -> (forall b, In b bs -> (b < n)%nat) ->
  exists s', r9_children fuel a c bs s = Ret s' /\ adv only_tails n s0 s'.
Proof.
  intros HF Hc a bs s A1 Ha E1 E2. induction bs as [|b bs IH]; intros HB; cbn [r9_children]; [eauto|].
  destruct (is_adjacent_to (fst s) b c); [apply IH; intros; apply HB; now right|].
  destruct (exists_semi_spec fuel (fst s) b c (adv_mixed _ _ _ _ A1) (HB b (or_introl eq_refl)) HF) as (v & -> & _). cbn [obind].
  destruct v; [now apply point_step|]. apply IH; intros; apply HB; now right.
Qed.
Lemma R9_adv fuel s : (n < fuel)%nat -> mixed n (fst s) -> exists s', rule9 so fuel s = Ret s' /\ adv only_tails n s s'.
Proof.
  intros HF HM. unfold rule9. apply (foldO_adv1 _ po_tails); [exact HM|]. intros s0 c Hc HM0. rewrite (mx_n _ _ HM) in Hc. apply in_seq0 in Hc.
  apply (foldO_adv _ po_tails); [exact HM0|]. intros s1 a Ha A1. apply (in_into n _ HM0) in Ha; auto with fci. destruct Ha as [Ha Ea]. cbn [ev] in Ea.
  pose proof (adv_mixed _ _ _ _ A1) as HM1. unfold r9_step. cbn zeta. destruct (epis (fst s1) c a CIRCLE) eqn:E; [|eauto].
  apply (epis_iff n _ HM1) in E; auto with fci. cbn [ev] in E. pose proof A1 as (_ & T & _).
  assert (E0 : gm (fst s0) a c = 2) by (pose proof (T a c Ha Hc); lia).
  apply r9_children_adv; auto. intros b Hb. unfold possible_children in Hb. rewrite so_in, filter_In in Hb. destruct Hb as [Hb _]. apply filter_In in Hb.
  destruct Hb as [Hb _]. apply (in_adjn n _ HM1) in Hb; [|exact Ha]. apply Hb.
Qed.
Lemma r10_pairs_adv fuel a b c d s0 s : (n < fuel)%nat -> (a < n)%nat -> (c < n)%nat ->
  adv only_tails n s0 s -> gm (fst s0) a c = 2 -> gm (fst s0) c a = 1 -> forall ps, (forall u v, In (u, v) ps -> (u < n)%nat /\ (v < n)%nat) ->
  exists s', r10_pairs fuel a b c d ps s = Ret s' /\ adv only_tails n s0 s'.
Proof.
  intros HF Ha Hc A1 E1 E2. induction ps as [|(u, v) ps IH]; intros HB; cbn [r10_pairs]; [eauto|].
  destruct (HB u v (or_introl eq_refl)) as [Hu Hv]. specialize (IH (fun u v H => HB u v (or_intror H))).
  destruct (exists_semi_spec fuel (fst s) u b (adv_mixed _ _ _ _ A1) Hu HF) as (p1 & -> & _). cbn [obind]. destruct p1; cbn [negb]; [|exact IH].
  destruct (exists_semi_spec fuel (fst s) v d (adv_mixed _ _ _ _ A1) Hv HF) as (p2 & -> & _). cbn [obind]. destruct p2; cbn [negb]; [|exact IH].
  destruct (is_adjacent_to (fst s) u v); cbn [negb]; [exact IH|]. now apply point_step.
Qed.
Lemma R10_adv fuel s : (n < fuel)%nat -> mixed n (fst s) -> exists s', rule10 so fuel s = Ret s' /\ adv only_tails n s s'.
Proof.
  intros HF HM. unfold rule10. apply (foldO_adv1 _ po_tails); [exact HM|]. intros s0 c Hc HM0. rewrite (mx_n _ _ HM) in Hc. apply in_seq0 in Hc.
  unfold r10_node. cbn zeta. destruct (Nat.ltb _ 2); [eexists; split; [reflexivity|now apply (adv_refl _ po_tails)]|].
  apply (foldO_adv _ po_tails); [exact HM0|]. intros s1 a Ha A1. apply filter_In in Ha. destruct Ha as [Ha Ec]. apply (in_into n _ HM0) in Ha; auto with fci. destruct Ha as [Ha Ea]. cbn [ev] in Ea.
  apply (epis_iff n _ HM0) in Ec; auto with fci. cbn [ev] in Ec. pose proof (adv_mixed _ _ _ _ A1) as HM1. unfold r10_step. cbn zeta. destruct (Nat.ltb _ 2); [eauto|].
  apply (foldO_inv (r10_choice fuel a c _) (adv only_tails n s0)); [exact A1|]. intros s2 (b, d) _ A2. unfold r10_choice. destruct (_ && _); [|eauto].
  apply r10_pairs_adv; auto. intros u v Huv. apply in_upairs in Huv. unfold possible_children in Huv. rewrite !so_in, !filter_In in Huv.
  destruct Huv as [[[Hu _] _] [[Hv _] _]]. apply (in_adjn n _ HM1) in Hu; auto. apply (in_adjn n _ HM1) in Hv; auto. tauto.
Qed.
End Rules.
