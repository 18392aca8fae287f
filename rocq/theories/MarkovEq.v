(** Verma and Pearl: DAGs with the same adjacencies and unshielded colliders have the same d-connections, and conversely. *)
From Verif Require Import Base EdgeModel GraphModel GraphSpec GraphProofs UtilsModel UtilsProofs DsepSpec DsepProofs DsepTheory MeekSpec MeekProofs CpdagSpec RankLib CheckLib SkelMain MeekFull.
Local Open Scope nat_scope.

(** ** Arrivals: node v can be entered by an active walk from x, last edge pointing into v (true) or out of v (false). *)
Section Arr.
Variable D : ggraph.
Variable Zs : list nat.
Variable x : nat.
Definition An (v : nat) : Prop := exists z, In z Zs /\ reach (dedge D) v z.
Inductive arr : nat -> bool -> Prop :=
| arr_0d c : dedge D x c -> arr c true
| arr_0u c : dedge D c x -> arr c false
| arr_d v d c : arr v d -> ~ In v Zs -> dedge D v c -> arr c true
| arr_uf v c : arr v false -> ~ In v Zs -> dedge D c v -> arr c false
| arr_ut v c : arr v true -> An v -> dedge D c v -> arr c false.
Hypothesis HD : dag D.
Lemma active_arr : forall m a b y, active D Zs (a :: b :: m ++ [y]) -> forall d, arr b d -> (d = true <-> dedge D a b) -> exists e, arr y e.
Proof.
  induction m as [|c m IH]; intros a b y HA d Hb Hd; cbn [app] in HA; apply active_cons2 in HA; destruct HA as (A1 & A2 & O).
  - specialize (O y [] eq_refl). apply active_cons2 in A2. destruct A2 as (A2 & _ & _). destruct A2 as [E|E].
    + destruct O as [(_ & K & _)|(_ & K)]; [exfalso; exact (dag_asym D HD _ _ E K)|]. exists true. eapply arr_d; eauto.
    + exists false. destruct O as [(K1 & _ & K2)|(K1 & K2)].
      * apply Hd in K1. subst d. eapply arr_ut; eauto.
      * destruct d; [exfalso; apply K1; split; [now apply Hd|exact E]|]. eapply arr_uf; eauto.
  - specialize (O c (m ++ [y]) eq_refl). pose proof A2 as HA. apply active_cons2 in A2. destruct A2 as (A2 & _ & _). destruct A2 as [E|E].
    + destruct O as [(_ & K & _)|(_ & K)]; [exfalso; exact (dag_asym D HD _ _ E K)|]. apply (IH b c y HA true); [eapply arr_d; eauto|tauto].
    + assert (NE : ~ dedge D b c) by (intros K; exact (dag_asym D HD _ _ E K)). apply (IH b c y HA false); [|split; [discriminate|tauto]].
      destruct O as [(K1 & _ & K2)|(K1 & K2)].
      * apply Hd in K1. subst d. eapply arr_ut; eauto.
      * destruct d; [exfalso; apply K1; split; [now apply Hd|exact E]|]. eapply arr_uf; eauto.
Qed.
Lemma dconnected_arr y : dconnected D x y Zs -> exists d, arr y d.
Proof.
  intros (m & _ & HA). destruct m as [|c m].
  - cbn [app] in HA. apply active_cons2 in HA. destruct HA as ([E|E] & _); eexists; [now apply arr_0d|now apply arr_0u].
  - cbn [app] in HA. pose proof HA as HA2. apply active_cons2 in HA. destruct HA as ([E|E] & _).
    + apply (active_arr m x c y HA2 true); [now apply arr_0d|tauto].
    + apply (active_arr m x c y HA2 false); [now apply arr_0u|]. split; [discriminate|]. intros K. exfalso. exact (dag_asym D HD _ _ E K).
Qed.
Lemma arr_arrives v d : arr v d -> exists u, arrives D x Zs u v /\ (d = true <-> dedge D u v) /\ adjacent D u v.
Proof.
  induction 1 as [c E|c E|v d c _ IH N E|v c _ IH N E|v c _ IH N E].
  - exists x. split; [apply arrives_first; now left|]. split; [tauto|now left].
  - exists x. split; [apply arrives_first; now right|]. split; [|now right]. split; [discriminate|]. intros K. exfalso. exact (dag_asym D HD _ _ E K).
  - destruct IH as (u & K1 & K2 & K3). exists v. split; [|split; [tauto|now left]]. apply arrives_step with u; [exact K1|now left|]. right. split; [|exact N].
    intros [_ K]. exact (dag_asym D HD _ _ E K).
  - destruct IH as (u & K1 & K2 & K3). exists v. split; [|split; [|now right]].
    + apply arrives_step with u; [exact K1|now right|]. right. split; [|exact N]. intros [K _]. apply K2 in K. discriminate.
    + split; [discriminate|]. intros K. exfalso. exact (dag_asym D HD _ _ E K).
  - destruct IH as (u & K1 & K2 & K3). exists v. split; [|split; [|now right]].
    + apply arrives_step with u; [exact K1|now right|]. left. split; [now apply K2|]. split; [exact E|]. exact N.
    + split; [discriminate|]. intros K. exfalso. exact (dag_asym D HD _ _ E K).
Qed.
Lemma arr_dconnected y d : x <> y -> arr y d -> dconnected D x y Zs.
Proof. intros N H. destruct (arr_arrives y d H) as (u & K & _). eapply arrives_dconnected; eauto. Qed.
Definition Free (v : nat) : Prop := v = x \/ (arr v false /\ ~ In v Zs).
Lemma free_d v c : Free v -> dedge D v c -> arr c true.
Proof. intros [-> |[H1 H2]] E; [now apply arr_0d|eapply arr_d; eauto]. Qed.
Lemma free_u v c : Free v -> dedge D c v -> arr c false.
Proof. intros [-> |[H1 H2]] E; [now apply arr_0u|eapply arr_uf; eauto]. Qed.
End Arr.

(** ** Reversing a covered edge *)
Section Covered.
Variables D D' : ggraph.
Variables a b : nat.
Hypothesis HD : dag D.
Hypothesis HD' : dag D'.
Hypothesis Eab : dedge D a b.
Hypothesis Hcov : forall w, w <> a -> dedge D w b <-> dedge D w a.
Hypothesis Hrev : forall u v, dedge D' u v <-> (u = b /\ v = a) \/ (dedge D u v /\ ~ (u = a /\ v = b)).
Variable Zs : list nat.
Variable x : nat.
Notation T := (arr D' Zs x).
Notation An' := (An D' Zs).
Lemma Nab : a <> b. Proof. intros E. rewrite E in Eab. exact (dag_asym D HD _ _ Eab Eab). Qed.
Lemma Eba : dedge D' b a. Proof. apply Hrev. left. auto. Qed.
Lemma edge_keep u v : dedge D u v -> v <> b -> dedge D' u v.
Proof. intros H N. apply Hrev. right. tauto. Qed.
Lemma edge_keep2 u v : dedge D u v -> u <> a -> dedge D' u v.
Proof. intros H N. apply Hrev. right. tauto. Qed.
Lemma anc_keep v z : reach (dedge D) v z -> (v <> a -> reach (dedge D') v z) /\ (v = a -> reach (dedge D') a z \/ reach (dedge D') b z).
Proof.
  induction 1 as [v|v w z E _ [IH1 IH2]]; [split; [constructor|intros ->; left; constructor]|]. split.
  - intros Nv. destruct (Nat.eq_dec w a) as [-> |Nw].
    + destruct (IH2 eq_refl) as [K|K].
      * apply reach_step with a; [now apply edge_keep2|exact K].
      * apply reach_step with b; [|exact K]. apply edge_keep2; [|exact Nv]. now apply Hcov.
    + apply reach_step with w; [now apply edge_keep2|now apply IH1].
  - intros ->. destruct (Nat.eq_dec w b) as [-> |Nw]; [right; apply IH1; intros K; now apply Nab|].
    assert (Nwa : w <> a) by (intros ->; exact (dag_asym D HD _ _ E E)). left. apply reach_step with w; [now apply edge_keep|now apply IH1].
Qed.
Lemma An_keep v : v <> a -> An D Zs v -> An' v.
Proof. intros N (z & Hz & R). exists z. split; [exact Hz|]. exact (proj1 (anc_keep v z R) N). Qed.
Lemma An_keep_a : An D Zs a -> An' a \/ An' b.
Proof. intros (z & Hz & R). destruct (proj2 (anc_keep a z R) eq_refl) as [K|K]; [left|right]; exists z; auto. Qed.
Definition Inv (v : nat) (d : bool) : Prop :=
  (v <> a -> v <> b -> T v d) /\
  (v = a -> if d then T a true /\ T b true else a = x \/ T a false \/ (T a true /\ T b true /\ An' b) \/ (T a true /\ Free D' Zs x b)) /\
  (v = b -> if d then (T b true /\ T a true) \/ (T b false /\ Free D' Zs x a) \/ (T a true /\ Free D' Zs x b) else T b false).
Lemma Inv_far v d : v <> a -> v <> b -> T v d -> Inv v d.
Proof. intros H1 H2 H. split; [auto|]. split; intros; contradiction. Qed.
Lemma Inv_at : T a true -> T b true -> Inv a true.
Proof. intros H1 H2. split; [congruence|]. split; [auto|]. intros E. now destruct Nab. Qed.
Lemma Inv_af : (a = x \/ T a false \/ (T a true /\ T b true /\ An' b) \/ (T a true /\ Free D' Zs x b)) -> Inv a false.
Proof. intros H. split; [congruence|]. split; [auto|]. intros E. now destruct Nab. Qed.
Lemma Inv_bt : (T b true /\ T a true) \/ (T b false /\ Free D' Zs x a) \/ (T a true /\ Free D' Zs x b) -> Inv b true.
Proof. intros H. split; [congruence|]. split; [|auto]. intros E. now destruct Nab. Qed.
Lemma Inv_bf : T b false -> Inv b false.
Proof. intros H. split; [congruence|]. split; [|auto]. intros E. now destruct Nab. Qed.
(** leaving a node other than a, b downwards or upwards *)
Lemma far_d v c : v <> a -> v <> b -> dedge D v c -> (forall w, dedge D' v w -> T w true) -> Inv c true.
Proof.
  intros N1 N2 E H. destruct (Nat.eq_dec c a) as [-> |Na]; [|destruct (Nat.eq_dec c b) as [-> |Nb]].
  - apply Inv_at; apply H; apply edge_keep2; auto. now apply Hcov.
  - apply Inv_bt. left. split; apply H; apply edge_keep2; auto. now apply Hcov.
  - apply Inv_far; auto. apply H. now apply edge_keep2.
Qed.
Lemma far_u v c : v <> a -> v <> b -> dedge D c v -> (forall w, dedge D' w v -> T w false) -> Inv c false.
Proof.
  intros N1 N2 E H. assert (K : T c false) by (apply H; now apply edge_keep).
  destruct (Nat.eq_dec c a) as [-> |Na]; [|destruct (Nat.eq_dec c b) as [-> |Nb]]; [apply Inv_af; auto|now apply Inv_bf|now apply Inv_far].
Qed.
Lemma a_child c : dedge D a c -> c <> a. Proof. intros E ->. exact (dag_asym D HD _ _ E E). Qed.
Lemma b_child c : dedge D b c -> c <> a /\ c <> b.
Proof. intros E. split; intros ->; [exact (dag_asym D HD _ _ E Eab)|exact (dag_asym D HD _ _ E E)]. Qed.
Lemma a_parent c : dedge D c a -> c <> a /\ c <> b.
Proof. intros E. split; intros ->; [exact (dag_asym D HD _ _ E E)|exact (dag_asym D HD _ _ E Eab)]. Qed.
Lemma b_parent c : dedge D c b -> c <> b. Proof. intros E ->. exact (dag_asym D HD _ _ E E). Qed.
(** leaving a *)
Lemma a_down c : dedge D a c -> (forall w, dedge D' a w -> T w true) -> (c = b -> Inv b true) -> Inv c true.
Proof.
  intros E H Hb. destruct (Nat.eq_dec c b) as [-> |N]; [auto|]. apply Inv_far; [now apply a_child|exact N|]. apply H. now apply edge_keep.
Qed.
Lemma a_up c : dedge D c a -> (forall w, dedge D' w a -> T w false) \/ (forall w, w <> a -> dedge D' w b -> T w false) -> Inv c false.
Proof.
  intros E H. destruct (a_parent c E) as [N1 N2]. apply Inv_far; auto. destruct H as [H|H].
  - apply H. now apply edge_keep2.
  - apply H; [exact N1|]. apply edge_keep2; [|exact N1]. now apply Hcov.
Qed.
Lemma b_down c : dedge D b c -> (forall w, dedge D' b w -> T w true) -> Inv c true.
Proof.
  intros E H. destruct (b_child c E) as [N1 N2]. apply Inv_far; auto. apply H. apply edge_keep2; [exact E|]. intros K. now apply Nab.
Qed.
Lemma b_up c : dedge D c b -> c <> a -> (forall w, dedge D' w a -> T w false) \/ (forall w, w <> a -> dedge D' w b -> T w false) -> Inv c false.
Proof.
  intros E N H. apply a_up; [|exact H]. now apply Hcov.
Qed.
Lemma simulate v d : arr D Zs x v d -> Inv v d.
Proof.
  induction 1 as [c E|c E|v d c _ IH N E|v c _ IH N E|v c _ IH N E].
  - destruct (Nat.eq_dec x a) as [Ea|Na]; [|destruct (Nat.eq_dec x b) as [Eb|Nb]].
    + rewrite Ea in E. apply a_down; [exact E|intros w K; apply arr_0d; now rewrite Ea|]. intros _. apply Inv_bt. right. left.
      split; [apply arr_0u; rewrite Ea; exact Eba|left; now symmetry].
    + rewrite Eb in E. apply b_down; [exact E|]. intros w K. apply arr_0d. now rewrite Eb.
    + apply far_d with x; auto. intros w K. now apply arr_0d.
  - destruct (Nat.eq_dec x a) as [Ea|Na]; [|destruct (Nat.eq_dec x b) as [Eb|Nb]].
    + rewrite Ea in E. apply a_up; [exact E|]. left. intros w K. apply arr_0u. now rewrite Ea.
    + rewrite Eb in E. destruct (Nat.eq_dec c a) as [-> |Nc].
      * apply Inv_af. right. right. right. split; [apply arr_0d; rewrite Eb; exact Eba|left; now symmetry].
      * apply b_up; [exact E|exact Nc|]. right. intros w _ K. apply arr_0u. now rewrite Eb.
    + apply far_u with x; auto. intros w K. now apply arr_0u.
  - destruct (Nat.eq_dec v a) as [-> |Na]; [|destruct (Nat.eq_dec v b) as [-> |Nb]].
    + destruct IH as (_ & IH & _). specialize (IH eq_refl). destruct d.
      * destruct IH as [K1 K2]. apply a_down; [exact E|intros w K; eapply (arr_d _ _ _ a); eauto|]. intros _. apply Inv_bt. auto.
      * destruct IH as [K|[K|[(K1 & K2 & K3)|(K1 & K2)]]].
        -- assert (F : Free D' Zs x a) by now left. apply a_down; [exact E|intros w; now apply free_d|]. intros _. apply Inv_bt. right. left.
           split; [|exact F]. exact (free_u _ _ _ _ _ F Eba).
        -- assert (F : Free D' Zs x a) by now right. apply a_down; [exact E|intros w; now apply free_d|]. intros _. apply Inv_bt. right. left.
           split; [|exact F]. exact (free_u _ _ _ _ _ F Eba).
        -- apply a_down; [exact E|intros w K; eapply (arr_d _ _ _ a); eauto|]. intros _. apply Inv_bt. auto.
        -- apply a_down; [exact E|intros w K; eapply (arr_d _ _ _ a); eauto|]. intros _. apply Inv_bt. auto.
    + destruct IH as (_ & _ & IH). specialize (IH eq_refl). apply b_down; [exact E|]. intros w K. destruct d.
      * destruct IH as [[K1 _]|[[K1 _]|[_ K1]]]; [eapply (arr_d _ _ _ b); eauto|eapply (arr_d _ _ _ b); eauto|now apply (free_d _ _ _ b)].
      * eapply arr_d; eauto.
    + apply far_d with v; auto. intros w K. destruct IH as (IH & _). specialize (IH Na Nb). eapply arr_d; eauto.
  - destruct (Nat.eq_dec v a) as [-> |Na]; [|destruct (Nat.eq_dec v b) as [-> |Nb]].
    + destruct IH as (_ & IH & _). specialize (IH eq_refl). apply a_up; [exact E|]. destruct IH as [K|[K|[(K1 & K2 & K3)|(K1 & K2)]]].
      * left. intros w. apply free_u. now left.
      * left. intros w. apply free_u. now right.
      * right. intros w _ KE. eapply (arr_ut _ _ _ b); eauto.
      * right. intros w _ KE. now apply (free_u _ _ _ b).
    + destruct IH as (_ & _ & IH). specialize (IH eq_refl). cbn in IH. assert (F : Free D' Zs x b) by now right. destruct (Nat.eq_dec c a) as [-> |Nc].
      * apply Inv_af. right. right. right. split; [|exact F]. exact (free_d _ _ _ _ _ F Eba).
      * apply b_up; [exact E|exact Nc|]. right. intros w _ KE. now apply (free_u _ _ _ b).
    + apply far_u with v; auto. intros w K. destruct IH as (IH & _). specialize (IH Na Nb). eapply arr_uf; eauto.
  - destruct (Nat.eq_dec v a) as [-> |Na]; [|destruct (Nat.eq_dec v b) as [-> |Nb]].
    + destruct IH as (_ & IH & _). destruct (IH eq_refl) as [K1 K2]. apply a_up; [exact E|]. destruct (An_keep_a N) as [K|K].
      * left. intros w KE. eapply (arr_ut _ _ _ a); eauto.
      * right. intros w _ KE. eapply (arr_ut _ _ _ b); eauto.
    + destruct IH as (_ & _ & IH). specialize (IH eq_refl). cbn in IH. assert (NB : An' b) by (apply An_keep; [intros K; now apply Nab|exact N]).
      destruct (Nat.eq_dec c a) as [-> |Nc].
      * apply Inv_af. destruct IH as [[K1 K2]|[[K1 K2]|[K1 K2]]]; [auto 6| |auto 6]. destruct K2 as [K2|[K2 _]]; auto.
      * apply b_up; [exact E|exact Nc|]. destruct IH as [[K1 K2]|[[K1 K2]|[K1 K2]]].
        -- right. intros w _ KE. eapply (arr_ut _ _ _ b); eauto.
        -- left. intros w KE. now apply (free_u _ _ _ a).
        -- right. intros w _ KE. now apply (free_u _ _ _ b).
    + apply far_u with v; auto. intros w K. destruct IH as (IH & _). specialize (IH Na Nb). eapply arr_ut; eauto. now apply An_keep.
Qed.
Lemma covered_dconnected y : x <> y -> dconnected D x y Zs -> dconnected D' x y Zs.
Proof.
  intros N H. apply dconnected_arr in H; [|exact HD]. destruct H as (d & H). apply simulate in H. destruct H as (H1 & H2 & H3).
  assert (G : exists e, T y e).
  { destruct (Nat.eq_dec y a) as [Ea|Na]; [|destruct (Nat.eq_dec y b) as [Eb|Nb]].
    - specialize (H2 Ea). subst y. destruct d; [exists true; tauto|]. destruct H2 as [K|[K|[(K & _)|(K & _)]]]; [congruence|eauto|eauto|eauto].
    - specialize (H3 Eb). subst y. destruct d; [|eauto]. destruct H3 as [[K _]|[[K _]|[_ [K|[K _]]]]]; [eauto|eauto|congruence|eauto].
    - exists d. auto. }
  destruct G as (e & G). now apply (arr_dconnected D' Zs x HD' y e).
Qed.
End Covered.

(** ** The graph with the edge between a and b turned around *)
Definition turned (D : ggraph) (a b : nat) : ggraph :=
  mkG (gn D) (fun i j => if ((i =? a) && (j =? b))%nat then 1%Z else if ((i =? b) && (j =? a))%nat then (-1)%Z else gm D i j) (gd D).
Section Turn.
Variable D : ggraph.
Variables a b : nat.
Hypothesis HD : dag D.
Hypothesis Eab : dedge D a b.
Hypothesis Hcov : forall w, w <> a -> dedge D w b <-> dedge D w a.
Notation D' := (turned D a b).
Lemma dir_ab : directed D a b. Proof. apply (DsepProofs.dag_dedge D HD). exact Eab. Qed.
Lemma turned_directed u v : directed D' u v <-> (u = b /\ v = a) \/ (directed D u v /\ ~ (u = a /\ v = b)).
Proof.
  pose proof (Nab D a b HD Eab) as N. destruct dir_ab as (Ha & Hb & K1 & K2). unfold directed. cbn [gn gm turned].
  destruct (Nat.eqb_spec u a) as [U1|U1], (Nat.eqb_spec v b) as [V1|V1], (Nat.eqb_spec v a) as [V2|V2], (Nat.eqb_spec u b) as [U2|U2]; cbn [andb]; try congruence;
    try (intuition congruence).
Qed.
Lemma turned_joined u v : joined D' u v <-> joined D u v.
Proof.
  destruct dir_ab as (Ha & Hb & K1 & K2). unfold joined. cbn [gn gm turned].
  destruct (Nat.eqb_spec u a) as [U1|U1], (Nat.eqb_spec v b) as [V1|V1], (Nat.eqb_spec v a) as [V2|V2], (Nat.eqb_spec u b) as [U2|U2]; cbn [andb]; try reflexivity;
    subst; rewrite ?K1, ?K2; intuition (try discriminate).
Qed.
Lemma turned_mixed i j : i < gn D -> j < gn D -> gm D' i j <> 0%Z -> (gm D' i j = (-1)%Z /\ gm D' j i = 1%Z) \/ (gm D' i j = 1%Z /\ gm D' j i = (-1)%Z).
Proof.
  intros Hi Hj H. assert (J : joined D' i j) by (split; [exact Hi|split; [exact Hj|exact H]]). apply turned_joined in J.
  destruct HD as (_ & _ & H3). destruct J as (_ & _ & J). specialize (H3 i j Hi Hj J).
  assert (K : directed D i j \/ directed D j i) by (unfold directed; tauto). destruct (Nat.eq_dec i a) as [Ei|Ni], (Nat.eq_dec j b) as [Ej|Nj].
  - right. assert (Q : directed D' j i) by (apply turned_directed; auto). destruct Q as (_ & _ & Q1 & Q2). auto.
  - assert (Q : directed D' i j \/ directed D' j i); [|unfold directed in Q; tauto]. rewrite !turned_directed.
    destruct K as [K|K]; [left; right; tauto|right; right]. split; [exact K|]. intros [E1 E2]. pose proof (Nab D a b HD Eab). congruence.
  - assert (Q : directed D' i j \/ directed D' j i); [|unfold directed in Q; tauto]. rewrite !turned_directed.
    destruct K as [K|K]; [left; right; tauto|right; right]. split; [exact K|]. intros [E1 E2]. pose proof (Nab D a b HD Eab). congruence.
  - assert (Q : directed D' i j \/ directed D' j i); [|unfold directed in Q; tauto]. rewrite !turned_directed.
    destruct K as [K|K]; [left; right; tauto|]. destruct (Nat.eq_dec j a) as [Ej|Nja], (Nat.eq_dec i b) as [Ei|Nib]; [left; left; auto|right; right; tauto|right; right; tauto|right; right; tauto].
Qed.
Lemma turned_dedge u v : dedge D' u v <-> (u = b /\ v = a) \/ (dedge D u v /\ ~ (u = a /\ v = b)).
Proof.
  rewrite (DsepProofs.dag_dedge D HD). change (u < gn D /\ v < gn D /\ gm D u v = (-1)%Z /\ gm D v u = 1%Z) with (directed D u v). rewrite <- turned_directed.
  split.
  - intros (H1 & H2 & H3). split; [exact H1|]. split; [exact H2|]. destruct H3 as [H3|H3]; [exact H3|exfalso]. destruct (turned_mixed u v H1 H2) as [K|K]; lia.
  - intros (H1 & H2 & H3). split; [exact H1|]. split; [exact H2|]. now left.
Qed.
Definition kept (u v : nat) : Prop := dedge D u v /\ ~ (u = a /\ v = b).
Lemma turned_reach u v : reach (dedge D') u v -> reach kept u v \/ (reach kept u b /\ reach kept a v).
Proof.
  induction 1 as [u|u w v E _ IH]; [left; constructor|]. apply turned_dedge in E. destruct E as [[-> ->]|E].
  - right. split; [constructor|]. tauto.
  - destruct IH as [IH|[IH1 IH2]]; [left; apply reach_step with w; auto|right]. split; [apply reach_step with w; auto|exact IH2].
Qed.
Lemma reach1_last {A} (R : A -> A -> Prop) u v : reach1 R u v -> exists p, reach R u p /\ R p v.
Proof.
  intros (w & E & H). revert u E. induction H as [w|w k v E' _ IH]; intros u E; [exists u; split; [constructor|exact E]|].
  destruct (IH w E') as (p & H1 & H2). exists p. split; [apply reach_step with w; auto|exact H2].
Qed.
Lemma kept_no_ab : ~ reach1 kept a b.
Proof.
  intros H. apply reach1_last in H. destruct H as (p & H1 & H2 & H3). assert (Np : p <> a) by (intros ->; apply H3; auto).
  apply (Hcov p Np) in H2. destruct HD as (_ & HA & _). apply (HA p). exists a. split; [exact H2|]. revert H1. apply reach_mono. intros ? ? K. apply K.
Qed.
Lemma kept_acyclic v : ~ reach1 kept v v.
Proof.
  intros (w & H1 & H2). destruct HD as (_ & HA & _). apply (HA v). exists w. split; [apply H1|]. revert H2. apply reach_mono. intros ? ? K. apply K.
Qed.
Lemma turned_dag : dag D'.
Proof.
  pose proof (Nab D a b HD Eab) as N. split; [split|split; [|apply turned_mixed]].
  - cbn [gn]. intros i Hi. cbn [gm turned]. destruct (Nat.eqb_spec i a), (Nat.eqb_spec i b); try congruence; now apply HD.
  - cbn [gn]. intros i j Hi Hj. destruct (Z.eq_dec (gm D' i j) 0) as [E|E].
    + assert (E2 : gm D' j i = 0%Z).
      { destruct (Z.eq_dec (gm D' j i) 0) as [|E2]; [assumption|]. destruct (turned_mixed j i Hj Hi E2) as [K|K]; lia. }
      rewrite E, E2. cbv; auto.
    + destruct (turned_mixed i j Hi Hj E) as [[-> ->]|[-> ->]]; cbv; auto 10.
  - intros v (w & E & R). apply turned_dedge in E. apply turned_reach in R. destruct E as [[-> ->]|E].
    + apply kept_no_ab. destruct R as [R|[R _]]; apply reach_split in R; destruct R as [R|R]; congruence || assumption.
    + destruct R as [R|[R1 R2]]; [apply (kept_acyclic v); exists w; auto|]. apply kept_no_ab.
      assert (R3 : reach1 kept v b) by (exists w; auto). apply reach_split in R2. destruct R2 as [-> |(k & K1 & K2)]; [exact R3|].
      exists k. split; [exact K1|]. apply reach_trans with v; [exact K2|]. now apply reach1_reach.
Qed.
Lemma turned_collider u v w : ucollider D' u v w <-> ucollider D u v w.
Proof.
  pose proof turned_dag as HD'. split; intros H.
  - pose proof H as (_ & _ & _ & N & _ & _ & _ & _ & NJ). destruct (ucollider_directed _ HD' u v w H) as [H1 H2].
    assert (NJ' : ~ joined D u w) by (rewrite <- turned_joined; intros (_ & _ & K); contradiction).
    apply turned_directed in H1, H2. destruct H1 as [[-> ->]|[H1 N1]].
    + destruct H2 as [[-> _]|[H2 N2]]; [congruence|]. exfalso. apply NJ'. apply (DsepProofs.dag_dedge D HD) in H2. apply Hcov in H2; [|intros ->; exact (dag_asym D HD _ _ H2 H2)].
      apply (DsepProofs.dag_dedge D HD) in H2. destruct H2 as (K1 & K2 & K3 & K4). split; [exact K2|]. split; [exact K1|]. rewrite K4. discriminate.
    + destruct H2 as [[-> ->]|[H2 N2]]; [|now apply ucollider_intro]. exfalso. apply NJ'. apply (DsepProofs.dag_dedge D HD) in H1.
      apply Hcov in H1; [|intros ->; exact (dag_asym D HD _ _ H1 H1)].
      apply (DsepProofs.dag_dedge D HD) in H1. destruct H1 as (K1 & K2 & K3 & K4). split; [exact K1|]. split; [exact K2|]. rewrite K3. discriminate.
  - pose proof H as (_ & _ & _ & N & _ & _ & _ & _ & NJ). destruct (ucollider_directed _ HD u v w H) as [H1 H2].
    assert (NJ' : ~ joined D' u w) by (rewrite turned_joined; intros (_ & _ & K); contradiction).
    apply ucollider_intro; [| |exact N|exact NJ']; apply turned_directed; right; (split; [assumption|]); intros [-> ->]; apply NJ'; apply turned_joined.
    + assert (K : dedge D w a) by (apply Hcov; [congruence|now apply (DsepProofs.dag_dedge D HD)]). apply (DsepProofs.dag_dedge D HD) in K. destruct K as (K1 & K2 & K3 & K4).
      split; [exact K2|]. split; [exact K1|]. rewrite K4. discriminate.
    + assert (K : dedge D u a) by (apply Hcov; [congruence|now apply (DsepProofs.dag_dedge D HD)]). apply (DsepProofs.dag_dedge D HD) in K. destruct K as (K1 & K2 & K3 & K4).
      split; [exact K1|]. split; [exact K2|]. rewrite K3. discriminate.
Qed.
Lemma turned_cov w : w <> b -> dedge D' w a <-> dedge D' w b.
Proof.
  intros N. rewrite !turned_dedge. pose proof (Nab D a b HD Eab) as Nab. destruct (Nat.eq_dec w a) as [-> |Na].
  - split; intros [[K _]|[K1 K2]]; try congruence; [exfalso; exact (dag_asym D HD _ _ K1 K1)|exfalso; apply K2; auto].
  - rewrite (Hcov w Na). intuition congruence.
Qed.
Lemma turned_back u v : dedge D u v <-> (u = a /\ v = b) \/ (dedge D' u v /\ ~ (u = b /\ v = a)).
Proof.
  rewrite turned_dedge. destruct (Nat.eq_dec u a), (Nat.eq_dec v b), (Nat.eq_dec u b), (Nat.eq_dec v a); subst; intuition (try congruence).
  all: exfalso; eapply (dag_asym D HD); eauto.
Qed.
Lemma turned_same x y Zs : x <> y -> dconnected D x y Zs <-> dconnected D' x y Zs.
Proof.
  intros N. pose proof turned_dag as HD'. split.
  - exact (covered_dconnected D D' a b HD HD' Eab Hcov turned_dedge Zs x y N).
  - apply (covered_dconnected D' D b a HD' HD); [apply turned_dedge; auto|exact turned_cov|exact turned_back|exact N].
Qed.
End Turn.

(** ** Two equivalent DAGs are joined by covered reversals *)
Definition revb (G H : ggraph) (p : nat * nat) : bool := dedgeb G (fst p) (snd p) && dedgeb H (snd p) (fst p).
Definition nrev (G H : ggraph) : nat := length (filter (revb G H) (list_prod (seq 0 (gn G)) (seq 0 (gn G)))).
Lemma dedgeb_iff D a b : a < gn D -> b < gn D -> dedgeb D a b = true <-> dedge D a b.
Proof. intros Ha Hb. unfold dedgeb, dedge. rewrite orb_true_iff, !andb_true_iff, !Z.eqb_eq. tauto. Qed.
Lemma arg_min {A} (r : A -> nat) (U : list A) : U <> [] -> exists m, In m U /\ forall x, In x U -> r m <= r x.
Proof.
  induction U as [|a U IH]; [congruence|]. intros _. destruct U as [|b U]; [exists a; split; [now left|intros x [<-|[]]; lia]|].
  destruct IH as (m & Hm & H); [discriminate|]. destruct (le_lt_dec (r a) (r m)) as [L|L].
  - exists a. split; [now left|]. intros x [<-|Hx]; [lia|]. specialize (H x Hx). lia.
  - exists m. split; [now right|]. intros x [<-|Hx]; [lia|]. now apply H.
Qed.
Lemma arg_max {A} (r : A -> nat) (U : list A) : U <> [] -> exists m, In m U /\ forall x, In x U -> r x <= r m.
Proof.
  induction U as [|a U IH]; [congruence|]. intros _. destruct U as [|b U]; [exists a; split; [now left|intros x [<-|[]]; lia]|].
  destruct IH as (m & Hm & H); [discriminate|]. destruct (le_lt_dec (r a) (r m)) as [L|L].
  - exists m. split; [now right|]. intros x [<-|Hx]; [lia|]. now apply H.
  - exists a. split; [now left|]. intros x [<-|Hx]; [lia|]. specialize (H x Hx). lia.
Qed.
Section Pair.
Variables G H : ggraph.
Hypothesis HE : equivalent G H.
Let HG : dag G := proj1 (proj2 HE).
Let HH : dag H := proj1 (proj2 (proj2 HE)).
Definition rev_edge (u v : nat) : Prop := dedge G u v /\ dedge H v u.
Lemma in_revs u v : In (u, v) (filter (revb G H) (list_prod (seq 0 (gn G)) (seq 0 (gn G)))) <-> rev_edge u v.
Proof.
  rewrite filter_In, in_prod_iff, !in_seq0. unfold revb, rev_edge. cbn [fst snd]. rewrite andb_true_iff. split.
  - intros ((Hu & Hv) & E1 & E2). apply dedgeb_iff in E1; auto. apply dedgeb_iff in E2; [|rewrite (proj1 HE); auto|rewrite (proj1 HE); auto]. auto.
  - intros (E1 & E2). assert (Hu : u < gn G) by apply E1. assert (Hv : v < gn G) by apply E1. split; [auto|].
    split; apply dedgeb_iff; auto; rewrite (proj1 HE); auto.
Qed.
Lemma keeps_or_revs u v : dedge G u v -> dedge H u v \/ rev_edge u v.
Proof.
  intros E. assert (J : joined G u v) by (apply (DsepProofs.dag_dedge G HG) in E; destruct E as (K1 & K2 & K3 & _); split; [exact K1|]; split; [exact K2|]; rewrite K3; discriminate).
  apply (proj1 (proj2 (proj2 (proj2 HE)))) in J. destruct J as (J1 & J2 & J3). destruct (proj2 (proj2 HH) u v J1 J2 J3) as [K|K].
  - left. split; [exact J1|]. split; [exact J2|]. tauto.
  - right. split; [exact E|]. split; [exact J2|]. split; [exact J1|]. tauto.
Qed.
Lemma G_dir u v : directed G u v <-> dedge G u v. Proof. symmetry. apply (DsepProofs.dag_dedge G HG). Qed.
Lemma H_dir u v : directed H u v <-> dedge H u v. Proof. symmetry. apply (DsepProofs.dag_dedge H HH). Qed.
Lemma joined_dec' u v : joined G u v \/ ~ joined G u v.
Proof. unfold joined. destruct (lt_dec u (gn G)), (lt_dec v (gn G)), (Z.eq_dec (gm G u v) 0); tauto. Qed.
Lemma G_joined u v : joined G u v <-> dedge G u v \/ dedge G v u.
Proof.
  split.
  - intros (J1 & J2 & J3). destruct (proj2 (proj2 HG) u v J1 J2 J3) as [K|K]; [left|right]; (split; [assumption|]; split; [assumption|]; tauto).
  - rewrite <- !G_dir. unfold directed, joined. intros [(K1 & K2 & K3 & K4)|(K1 & K2 & K3 & K4)]; (split; [assumption|]; split; [assumption|]); [rewrite K3|rewrite K4]; discriminate.
Qed.
Lemma find_covered : (exists u v, rev_edge u v) -> exists x y, rev_edge x y /\ forall w, w <> x -> dedge G w y <-> dedge G w x.
Proof.
  intros (u0 & v0 & R0). destruct (topological_rank G) as (r & Hr); [apply HG|].
  pose proof (proj2 (in_revs u0 v0) R0) as I0. set (L := filter (revb G H) _) in *.
  destruct (arg_min (fun p => r (snd p)) L) as ([x0 y] & I1 & M1); [intros E; rewrite E in I0; destruct I0|]. cbn [snd] in M1.
  assert (My : forall u v, rev_edge u v -> r y <= r v) by (intros u v K; apply in_revs in K; exact (M1 _ K)).
  destruct (arg_max (fun p => r (fst p)) (filter (fun p => Nat.eqb (snd p) y) L)) as ([x y'] & I2 & M2).
  { assert (K : In (x0, y) (filter (fun p => Nat.eqb (snd p) y) L)) by (apply filter_In; split; [exact I1|apply Nat.eqb_refl]). intros E. rewrite E in K. destruct K. }
  apply filter_In in I2. destruct I2 as [I2 E]. cbn [snd] in E. apply Nat.eqb_eq in E. subst y'. cbn [fst] in M2.
  assert (Mx : forall u, rev_edge u y -> r u <= r x).
  { intros u K. apply in_revs in K. apply (M2 (u, y)). apply filter_In. split; [exact K|apply Nat.eqb_refl]. }
  clear M1 M2. apply in_revs in I2. exists x, y. split; [exact I2|]. destruct I2 as [Exy Hyx]. pose proof (Hr _ _ Exy) as Lxy.
  intros w Nw. split; intros Ew.
  - destruct (joined_dec' w x) as [J|NJ].
    + apply G_joined in J. destruct J as [J|J]; [exact J|]. exfalso. pose proof (Hr _ _ J). pose proof (Hr _ _ Ew).
      destruct (keeps_or_revs x w J) as [K1|K1]; [|apply My in K1; lia]. destruct (keeps_or_revs w y Ew) as [K2|K2]; [|apply Mx in K2; lia].
      apply (proj1 (proj2 HH) x). exists w. split; [exact K1|]. apply reach_step with y; [exact K2|]. now apply reach_one.
    + exfalso. assert (UC : ucollider G w y x) by (apply ucollider_intro; try apply G_dir; auto). apply (proj2 (proj2 (proj2 (proj2 HE)))) in UC.
      destruct (ucollider_directed H HH _ _ _ UC) as [_ K]. apply H_dir in K. exact (dag_asym H HH _ _ K Hyx).
  - pose proof (Hr _ _ Ew) as Lwx. destruct (keeps_or_revs w x Ew) as [K1|K1]; [|apply My in K1; lia].
    destruct (joined_dec' w y) as [J|NJ].
    + apply G_joined in J. destruct J as [J|J]; [exact J|]. apply Hr in J. lia.
    + exfalso. assert (Nwy : w <> y) by (intros ->; lia). assert (NJ' : ~ joined H w y) by (rewrite <- (proj1 (proj2 (proj2 (proj2 HE)))); exact NJ).
      assert (UC : ucollider H w x y) by (apply ucollider_intro; try apply H_dir; auto). apply (proj2 (proj2 (proj2 (proj2 HE)))) in UC.
      destruct (ucollider_directed G HG _ _ _ UC) as [_ K]. apply G_dir in K. exact (dag_asym G HG _ _ K Exy).
Qed.
Lemma no_rev_same : ~ (exists u v, rev_edge u v) -> forall u v, dedge G u v <-> dedge H u v.
Proof.
  intros N. assert (F : forall u v, dedge G u v -> dedge H u v).
  { intros u v E. destruct (keeps_or_revs u v E) as [K|K]; [exact K|]. exfalso. eauto. }
  intros u v. split; [apply F|]. intros E. assert (J : joined G u v).
  { apply (proj1 (proj2 (proj2 (proj2 HE)))). apply H_dir in E. destruct E as (K1 & K2 & K3 & _). split; [exact K1|]. split; [exact K2|]. rewrite K3. discriminate. }
  apply G_joined in J. destruct J as [J|J]; [exact J|]. apply F in J. exfalso. exact (dag_asym H HH _ _ E J).
Qed.
End Pair.
Lemma same_edges_dconnected G H x y Zs : (forall u v, dedge G u v <-> dedge H u v) -> dconnected G x y Zs -> dconnected H x y Zs.
Proof.
  intros E (m & ND & A1 & A2). exists m. split; [exact ND|]. split.
  - intros l u v r K. specialize (A1 l u v r K). unfold adjacent in *. rewrite <- !E. exact A1.
  - intros l u v w r K. specialize (A2 l u v w r K). unfold opens in *. rewrite <- !E. destruct A2 as [(K1 & K2 & z & Kz & R)|K2]; [left|now right].
    split; [exact K1|]. split; [exact K2|]. exists z. split; [exact Kz|]. revert R. apply reach_mono. intros ? ? Q. now apply E.
Qed.
Lemma equivalent_dconnected' k : forall G H, equivalent G H -> nrev G H <= k -> forall x y Zs, x <> y -> dconnected G x y Zs <-> dconnected H x y Zs.
Proof.
  induction k as [|k IH]; intros G H HE Hk x y Zs N.
  - assert (NR : ~ exists u v, rev_edge G H u v).
    { intros (u & v & K). apply (in_revs G H HE) in K. unfold nrev in Hk. destruct (filter _ _); [destruct K|cbn in Hk; lia]. }
    pose proof (no_rev_same G H HE NR) as E. split; apply same_edges_dconnected; [exact E|intros; symmetry; apply E].
  - destruct (filter (revb G H) (list_prod (seq 0 (gn G)) (seq 0 (gn G)))) as [|[u v] L] eqn:EL.
    + apply (IH G H); auto. unfold nrev. rewrite EL. cbn. lia.
    + assert (K : rev_edge G H u v) by (apply (in_revs G H HE); rewrite EL; now left).
      destruct (find_covered G H HE (ex_intro _ u (ex_intro _ v K))) as (a & b & [Eab Eba] & Hcov).
      pose proof HE as (Hn & HG & HH & HJ & HU). rewrite (turned_same G a b HG Eab Hcov x y Zs N).
      assert (HE' : equivalent (turned G a b) H).
      { split; [exact Hn|]. split; [now apply turned_dag|]. split; [exact HH|]. split.
        - intros p q. rewrite (turned_joined G a b HG Eab Hcov). apply HJ.
        - intros p q r. rewrite (turned_collider G a b HG Eab Hcov). apply HU. }
      apply (IH (turned G a b) H); auto. unfold nrev in *. cbn [gn turned]. 
      enough (length (filter (revb (turned G a b) H) (list_prod (seq 0 (gn G)) (seq 0 (gn G)))) < length (filter (revb G H) (list_prod (seq 0 (gn G)) (seq 0 (gn G))))) by lia.
      apply filter_lt with (a, b).
      * intros [p q] Ip. apply in_prod_iff in Ip. rewrite !in_seq0 in Ip. intros Er. unfold revb in *. cbn [fst snd] in *. apply andb_true_iff in Er. destruct Er as [E1 E2].
        rewrite E2, andb_true_r. apply (dedgeb_iff (turned G a b)) in E1; [|apply Ip|apply Ip]. apply (turned_dedge G a b HG Eab Hcov) in E1. destruct E1 as [[-> ->]|[E1 _]].
        -- exfalso. apply (dedgeb_iff H) in E2; [|rewrite Hn; apply Ip|rewrite Hn; apply Ip]. exact (dag_asym H HH _ _ Eba E2).
        -- apply dedgeb_iff; [apply Ip|apply Ip|exact E1].
      * apply in_prod_iff. rewrite !in_seq0. split; apply Eab.
      * unfold revb. cbn [fst snd]. apply andb_false_iff. left. apply not_true_iff_false. rewrite dedgeb_iff by (cbn; apply Eab). rewrite (turned_dedge G a b HG Eab Hcov).
        intros [[K1 _]|[_ K1]]; [exact (Nab G a b HG Eab K1)|]. apply K1. auto.
      * assert (Q : In (a, b) (filter (revb G H) (list_prod (seq 0 (gn G)) (seq 0 (gn G))))) by (apply (in_revs G H HE); split; assumption). apply filter_In in Q. apply Q.
Qed.
Theorem equivalent_dconnected G H : equivalent G H -> forall x y Zs, x <> y -> dconnected G x y Zs <-> dconnected H x y Zs.
Proof. intros HE. exact (equivalent_dconnected' (nrev G H) G H HE (le_n _)). Qed.
