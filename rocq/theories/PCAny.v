(** The orientation phase of PC with an arbitrary test and arbitrary background knowledge. *)
From Verif Require Import Base EdgeModel EdgeProofs GraphModel GraphSpec GraphProofs DpathProofs UtilsModel UtilsProofs NamedModel KnowledgeModel
  DsepSpec MeekModel MeekSpec MeekProofs MeekProps SkelModel SkelSpec SkelProofs SkelMain SkelProps PCModel PCSpec MeekFull PCGraph PCProofs PCMain.
Local Open Scope Z_scope.

(** ** orient_by_knowledge produces ordinarily edited graphs *)
Lemma knowledge_built n forb req g : built n g -> built n (orient_by_knowledge forb req g).
Proof.
  intros HB. destruct (built_inv n g HB) as (Hn & Hw & _). unfold orient_by_knowledge.
  enough (H : forall l h, kinv forb req g h -> built n h -> incl l (get_graph_edges g) -> built n (fold_left (bk_orient_step forb req) l h)).
  { apply H; auto using incl_refl. split; [exact Hw|]. split; [apply orients_refl|auto]. }
  induction l as [|e l IH]; intros h Hk Hh Hl; [exact Hh|]. cbn [fold_left].
  pose proof (Hl e (or_introl eq_refl)) as He. apply in_graph_edges in He. destruct He as (i & j & Hij & Hj & He).
  destruct (kstep forb req g h e i j Hk Hij Hj He) as (K1 & _).
  apply IH; [exact K1| |intros z Hz; apply Hl; now right].
  destruct Hk as (Hwh & Ho & _). unfold bk_orient_step. destruct (is_undirected_from_to h (e_node1 e) (e_node2 e)) eqn:EU; [|exact Hh].
  destruct (edge_undirected forb req g e i j h Hij Hj Ho He EU) as [-> U]. cbn [Edge pointing_left ep_eqb ev Z.eqb andb e_node1 e_node2].
  destruct (built_inv n h Hh) as (Hnh & _).
  assert (A : forall x y, (x = i /\ y = j) \/ (x = j /\ y = i) -> built n (add_directed_edge (remove_edge h (Edge i j TAIL TAIL)) x y)).
  { intros x y Hxy. destruct (remove_tt_sym h i j Hwh U) as [Em En]. pose proof (undirected_neq _ _ _ Hwh U) as Ne. destruct U as (Ui & Uj & _).
    rewrite Hnh in Ui, Uj. apply built_addd.
    - apply built_remove; [exact Hh|]. now apply op_on_Edge.
    - unfold op_on. cbn. destruct Hxy as [[-> ->]|[-> ->]]; auto.
    - unfold is_directly_connected_to. rewrite Em. destruct Hxy as [[-> ->]|[-> ->]]; rewrite upd2_ij, upd2_ji by lia; reflexivity. }
  destruct (forb j i); [apply A; auto|]. destruct (forb i j); [apply A; auto|]. destruct (req j i); [apply A; auto|]. destruct (req i j); [apply A; auto|]. exact Hh.
Qed.

(** ** One edge *)
(** [g'] differs from [g] at most in the edge between x and y, which has an arrowhead at y; at x it has a tail, or the
    arrowhead it had before. *)
Definition headed (g : ggraph) (x y : nat) (g' : ggraph) : Prop :=
  gn g' = gn g /\ gm g' y x = 1 /\ (gm g' x y = -1 \/ (gm g' x y = 1 /\ gm g x y = 1)) /\
  forall a b, ~ (a = x /\ b = y) -> ~ (a = y /\ b = x) -> gm g' a b = gm g a b.
Lemma arrowed_headed g x y g' : arrowed g x y g' -> headed g x y g'.
Proof. intros (H1 & H2 & H3 & H4). repeat split; auto. Qed.
(** Codes of pairs of a partially directed graph, bidirected edges allowed. *)
Definition lined (g : ggraph) : Prop := forall a b, joined g a b -> (gm g a b = -1 \/ gm g a b = 1) /\ (gm g b a = -1 \/ gm g b a = 1).
Lemma pd_lined g : partially_directed g -> lined g.
Proof. intros H a b J. destruct (H a b J) as [(_ & _ & E1 & E2)|[(_ & _ & E1 & E2)|(_ & _ & E1 & E2)]]; lia. Qed.
Lemma lined_sym g a b : lined g -> joined g a b -> joined g b a.
Proof. intros HL J. destruct (HL a b J). destruct J as (Ha & Hb & _). repeat split; auto. lia. Qed.
Lemma add_bi n g x y : built n g -> (x < n)%nat -> (y < n)%nat -> x <> y -> gm g x y = 0 -> gm g y x = 0 ->
  let g' := add_edge g (Edge x y ARROW ARROW) in built n g' /\ gn g' = gn g /\ gm g' x y = 1 /\ gm g' y x = 1 /\
  forall a b, ~ (a = x /\ b = y) -> ~ (a = y /\ b = x) -> gm g' a b = gm g a b.
Proof.
  intros HB Hx Hy N E1 E2 g'. destruct (built_inv n g HB) as (Hn & Hw & Hs & _).
  assert (St : storable ARROW ARROW).
  { unfold storable, is_mark. repeat split; auto. intros [? ?]. discriminate. }
  destruct (add_edge_new g x y ARROW ARROW N E1 E2 St) as [P1 P2]. fold g' in P1, P2. cbn in P1, P2.
  assert (HF : forall a b, ~ (a = x /\ b = y) -> ~ (a = y /\ b = x) -> gm g' a b = gm g a b).
  { intros. apply add_edge_frame; destruct (Edge_nodes x y ARROW ARROW) as [[-> ->]|[-> ->]]; tauto. }
  split; [|repeat split; auto; apply add_edge_gn]. apply built_add; [exact HB|now apply op_on_Edge|]. fold g'.
  intros i j Hi Hj. unfold g' in Hi, Hj. rewrite add_edge_gn in Hi, Hj.
  destruct (Nat.eq_dec i x) as [->|]; [destruct (Nat.eq_dec j y) as [->|]; [lia|]|].
  + rewrite HF by lia. now apply Hs.
  + destruct (Nat.eq_dec i y) as [->|]; [destruct (Nat.eq_dec j x) as [->|]; [lia|]|]; rewrite HF by lia; now apply Hs.
Qed.
Lemma bi_headed n g x y : built n g -> lined g -> joined g x y -> built n (bi_point g x y) /\ headed g x y (bi_point g x y) /\ (gm g y x = 1 -> bi_point g x y = g).
Proof.
  intros HB HL J. destruct (built_inv n g HB) as (Hn & Hw & Hs & _). destruct (HL x y J) as [[E1|E1] [E2|E2]].
  - destruct J as (Hx & Hy & _). destruct (bi_spec n g x y HB) as [K1 K2]; [left; unfold undirected; auto|].
    split; [exact K1|]. split; [now apply arrowed_headed|lia].
  - destruct J as (Hx & Hy & _). destruct (bi_spec n g x y HB) as [K1 K2]; [right; unfold directed; auto|].
    split; [exact K1|]. split; [now apply arrowed_headed|]. intros _. unfold bi_point.
    rewrite (get_edge_codes g x y TAIL ARROW E1 E2) by discriminate. rewrite E1, E2. reflexivity.
  - unfold bi_point. pose proof J as (Hx & Hy & _). rewrite Hn in Hx, Hy.
    assert (N : x <> y) by (intros ->; lia).
    pose proof (rie_any n g x y HB) as R. unfold remove_if_exists in R.
    rewrite (get_edge_codes g x y ARROW TAIL E1 E2) in * by discriminate. rewrite E1, E2. cbn [Z.eqb Pos.eqb andb]. destruct R as [HB1 HG].
    destruct (add_bi n _ x y HB1 Hx Hy N) as (HB2 & K1 & K2 & K3 & K4).
    { rewrite HG. assert (same_pair x y x y = true) as -> by (apply same_pair_iff; auto). reflexivity. }
    { rewrite HG. assert (same_pair y x x y = true) as -> by (apply same_pair_iff; auto). reflexivity. }
    destruct (built_inv n _ HB1) as (Hn1 & _). split; [exact HB2|]. split; [|lia]. split; [congruence|]. split; [exact K3|]. split; [right; auto|].
    intros a b N1 N2. rewrite K4, HG by assumption. now rewrite same_pair_no.
  - assert (EB : bi_point g x y = g).
    { unfold bi_point. rewrite (get_edge_codes g x y ARROW ARROW E1 E2) by discriminate. rewrite E1, E2. reflexivity. }
    rewrite EB. split; [exact HB|]. split; [|reflexivity]. repeat split; auto.
Qed.

(** ** One triple *)
Lemma headed_joined g x y g' : joined g x y -> joined g y x -> headed g x y g' -> forall a b, joined g' a b <-> joined g a b.
Proof.
  intros J1 J2 (H1 & H2 & H3 & H4) a b. unfold joined. rewrite H1. destruct (same_pair a b x y) eqn:E.
  - apply same_pair_iff in E. destruct J1 as (Hx & Hy & N1), J2 as (_ & _ & N2). destruct E as [[-> ->]|[-> ->]]; split; intros _; repeat split; auto; lia.
  - apply not_true_iff_false in E. rewrite same_pair_iff in E. rewrite H4 by tauto. reflexivity.
Qed.
Lemma headed_lined g x y g' : lined g -> joined g x y -> headed g x y g' -> lined g'.
Proof.
  intros HL J HH a b J'. pose proof (headed_joined g x y g' J (lined_sym _ _ _ HL J) HH a b) as HJ. apply HJ in J'. clear HJ. destruct HH as (H1 & H2 & H3 & H4).
  destruct (same_pair a b x y) eqn:E.
  - apply same_pair_iff in E. destruct E as [[-> ->]|[-> ->]]; lia.
  - apply not_true_iff_false in E. rewrite same_pair_iff in E. rewrite !H4 by tauto. now apply HL.
Qed.
(** Processing of the collider x, y, z: nothing happens or both edges get their arrowhead at y. *)
Definition collided (g : ggraph) (x y z : nat) (g' : ggraph) : Prop := exists g1, headed g x y g1 /\ headed g1 z y g'.
Definition base (n : nat) (g0 g : ggraph) : Prop := built n g /\ lined g /\ gn g = gn g0 /\ forall a b, joined g a b <-> joined g0 a b.

Lemma point_headed n g x y : built n g -> joined g x y -> built n (point_at g x y) /\ arrowed g x y (point_at g x y).
Proof.
  intros HB (Hx & Hy & N). destruct (built_inv n g HB) as (Hn & Hw & _). rewrite Hn in Hx, Hy. apply point_at_spec; auto.
  intros ->. apply N. rewrite <- Hn in Hx. now apply (proj1 Hw).
Qed.
Lemma now_cases n g0 g prio x y z : base n g0 g -> unshielded g0 x y z ->
  base n g0 (now prio g (x, y, z)) /\
  ((now prio g (x, y, z) = g /\ (2 <= prio)%nat /\ fits g (x, y, z) = false) \/
   (collided g x y z (now prio g (x, y, z)) /\ ((2 <= prio)%nat -> fits g (x, y, z) = true) /\
    (prio <> 1%nat -> directed (now prio g (x, y, z)) x y /\ directed (now prio g (x, y, z)) z y))).
Proof.
  intros (HB & HL & Hn & Hj) (J1 & J2 & N & NJ). apply Hj in J1, J2.
  destruct (built_inv n g HB) as (Hgn & Hw & Hs & _).
  assert (Nxy : x <> y) by (intros ->; destruct J1 as (K1 & _ & K2); apply K2; now apply (proj1 Hw)).
  assert (Nzy : z <> y) by (intros ->; destruct J2 as (K1 & _ & K2); apply K2; now apply (proj1 Hw)).
  assert (FIN : forall g1 g2, headed g x y g1 -> headed g1 z y g2 -> built n g2 -> base n g0 g2 /\ collided g x y z g2).
  { intros g1 g2 H1 H2 HB2. pose proof (headed_joined g x y g1 J1 (lined_sym _ _ _ HL J1) H1) as JJ1.
    pose proof (headed_lined g x y g1 HL J1 H1) as L1. assert (J2' : joined g1 z y) by now apply JJ1.
    pose proof (headed_joined g1 z y g2 J2' (lined_sym _ _ _ L1 J2') H2) as JJ2.
    split; [|exists g1; auto]. split; [exact HB2|]. split; [exact (headed_lined g1 z y g2 L1 J2' H2)|]. split; [destruct H1, H2; congruence|].
    intros a b. now rewrite JJ2, JJ1. }
  destruct J1 as (Bx & By & Jx). destruct J2 as (Bz & _ & Jz). pose proof Bx as Bx'. pose proof By as By'. pose proof Bz as Bz'. rewrite Hgn in Bx', By', Bz'.
  destruct prio as [|[|p]]; cbn [now].
  - unfold overwrite. destruct (over_spec n g x y HB Bx' By' Nxy) as [HB1 A1]. destruct (over_spec' n _ z y HB1 Bz' By' Nzy) as [HB2 A2].
    destruct (FIN _ _ (arrowed_headed _ _ _ _ A1) (arrowed_headed _ _ _ _ A2) HB2) as [F1 F2]. split; [exact F1|]. right. split; [exact F2|]. split; [lia|]. intros _.
    destruct (arrowed_trans g x y _ z _ N Nxy Nzy A1 A2) as (T0 & T1 & T2 & T3 & T4 & _). unfold directed. rewrite T0. auto 10.
  - unfold bidirect. destruct (bi_headed n g x y HB HL) as (HB1 & H1 & _); [repeat split; auto|].
    pose proof (headed_joined g x y _ ltac:(repeat split; auto) (lined_sym _ x y HL ltac:(repeat split; auto)) H1) as JJ1.
    destruct (bi_headed n (bi_point g x y) z y HB1) as (HB2 & H2 & _); [apply (headed_lined g x y); auto; repeat split; auto|apply JJ1; repeat split; auto|].
    destruct (FIN _ _ H1 H2 HB2) as [F1 F2]. split; [exact F1|]. right. split; [exact F2|]. split; [lia|]. intros K. congruence.
  - unfold keep_existing. destruct (fits g (x, y, z)) eqn:EF.
    + destruct (point_at_spec n g x y HB Bx' By' Nxy) as [HB1 A1]. destruct (point_at_spec n _ z y HB1 Bz' By' Nzy) as [HB2 A2].
      destruct (FIN _ _ (arrowed_headed _ _ _ _ A1) (arrowed_headed _ _ _ _ A2) HB2) as [F1 F2]. split; [exact F1|]. right. split; [exact F2|]. split; [auto|]. intros _.
      destruct (arrowed_trans g x y _ z _ N Nxy Nzy A1 A2) as (T0 & T1 & T2 & T3 & T4 & _). unfold directed. rewrite T0. auto 10.
    + split; [split; [exact HB|split; [exact HL|split; [exact Hn|exact Hj]]]|]. left. split; [reflexivity|]. split; [lia|reflexivity].
Qed.
(** What a collision does to marks. *)
Lemma collided_marks g x y z g' : x <> z -> x <> y -> z <> y -> collided g x y z g' ->
  gm g' y x = 1 /\ gm g' y z = 1 /\
  (forall a b, gm g' b a = 1 -> gm g b a = 1 \/ (a = x /\ b = y) \/ (a = z /\ b = y)) /\
  (forall a b, gm g b a = 1 -> gm g' b a = 1 \/ (a = y /\ b = x) \/ (a = y /\ b = z)).
Proof.
  intros N1 N2 N3 (g1 & (A0 & A1 & A2 & A3) & (B0 & B1 & B2 & B3)). split; [rewrite B3 by lia; exact A1|]. split; [exact B1|].
  assert (C : forall a b, (a = x /\ b = y) \/ (a = y /\ b = x) \/ (a = z /\ b = y) \/ (a = y /\ b = z) \/ (gm g' b a = gm g b a)).
  { intros a b. destruct (same_pair a b x y) eqn:E1; [apply same_pair_iff in E1; tauto|]. destruct (same_pair a b z y) eqn:E2; [apply same_pair_iff in E2; tauto|].
    apply not_true_iff_false in E1, E2. rewrite same_pair_iff in E1, E2. repeat right. rewrite B3, A3 by tauto. reflexivity. }
  split; intros a b K; destruct (C a b) as [[-> ->]|[[-> ->]|[[-> ->]|[[-> ->]|E]]]]; auto.
  - left. rewrite B3 in K by lia. lia.
  - left. rewrite A3 in B2 by lia. lia.
  - left. congruence.
  - left. rewrite B3 by lia. exact A1.
  - left. congruence.
Qed.

(** ** Sequences of triples *)
Inductive runs (prio : nat) (P : triple -> Prop) (g : ggraph) : ggraph -> Prop :=
| runs_nil : runs prio P g g
| runs_snoc : forall h t, runs prio P g h -> P t -> runs prio P g (now prio h t).
Lemma runs_mono prio (P Q : triple -> Prop) g g' : (forall t, P t -> Q t) -> runs prio P g g' -> runs prio Q g g'.
Proof. intros H. induction 1; [constructor|]. constructor; auto. Qed.
Lemma runs_fold prio (P : triple -> Prop) g (f : ggraph -> triple -> ggraph) l : forall h,
  (forall h t, In t l -> f h t = h \/ (P t /\ f h t = now prio h t)) -> runs prio P g h -> runs prio P g (fold_left f l h).
Proof.
  induction l as [|t l IH]; intros h H R; [exact R|]. cbn [fold_left]. apply IH; [intros; apply H; now right|].
  destruct (H h t (or_introl eq_refl)) as [->|[K ->]]; [exact R|now constructor].
Qed.
Section Runs.
Variable n prio : nat.
Variable P : triple -> Prop.
Variable g0 : ggraph.
Hypothesis HB0 : built n g0.
Hypothesis HP0 : partially_directed g0.
Hypothesis Pu : forall x y z, P (x, y, z) -> unshielded g0 x y z.

Lemma runs_base g : runs prio P g0 g -> base n g0 g.
Proof.
  induction 1 as [|h [[x y] z] R IH Ht].
  - split; [exact HB0|]. split; [now apply pd_lined|]. split; [reflexivity|]. tauto.
  - now apply now_cases; [|apply Pu].
Qed.
Lemma unshielded_neq x y z : unshielded g0 x y z -> x <> z /\ x <> y /\ z <> y.
Proof.
  destruct (built_inv n g0 HB0) as (Hgn & Hw & _). intros (J1 & J2 & N & _). split; [exact N|].
  split; intros ->; [destruct J1 as (K1 & _ & K2)|destruct J2 as (K1 & _ & K2)]; apply K2; now apply (proj1 Hw).
Qed.
(** Every new arrowhead belongs to a processed triple. *)
Lemma runs_new g : runs prio P g0 g -> forall a b, gm g b a = 1 -> gm g0 b a = 1 \/ exists c, P (a, b, c) \/ P (c, b, a).
Proof.
  induction 1 as [|h [[x y] z] R IH Ht]; intros a b K; [auto|].
  destruct (now_cases n g0 h prio x y z (runs_base h R) (Pu _ _ _ Ht)) as [_ [(E & _)|(HC & _)]]; [rewrite E in K; auto|].
  destruct (unshielded_neq _ _ _ (Pu _ _ _ Ht)) as (N1 & N2 & N3).
  destruct (collided_marks h x y z _ N1 N2 N3 HC) as (_ & _ & K1 & _). destruct (K1 a b K) as [K2|[[-> ->]|[-> ->]]]; [auto| |]; right; eauto.
Qed.
(** Unless edges may be made bidirected, the graph stays partially directed. *)
Lemma lined_pd g : lined g -> (forall a b, joined g a b -> gm g a b = -1 \/ gm g b a = -1) -> partially_directed g.
Proof.
  intros HL H a b J. pose proof J as (Ha & Hb & _). unfold directed, undirected. destruct (HL a b J) as [[E1|E1] [E2|E2]]; [auto 10|auto 10|auto 10|].
  exfalso. destruct (H a b J); lia.
Qed.
Lemma runs_pd g : prio <> 1%nat -> runs prio P g0 g -> partially_directed g.
Proof.
  intros NP. induction 1 as [|h [[x y] z] R IH Ht]; [exact HP0|].
  destruct (now_cases n g0 h prio x y z (runs_base h R) (Pu _ _ _ Ht)) as [HBn [(E & _)|(HC & _ & HD)]]; [rewrite E; exact IH|].
  specialize (HD NP). destruct HD as [D1 D2]. intros a b J. pose proof (runs_base h R) as (_ & _ & Hn & Hj). destruct HBn as (_ & _ & Hn' & Hj').
  destruct (same_pair a b x y) eqn:E1; [apply same_pair_iff in E1; destruct E1 as [[-> ->]|[-> ->]]; auto|].
  destruct (same_pair a b z y) eqn:E2; [apply same_pair_iff in E2; destruct E2 as [[-> ->]|[-> ->]]; auto|].
  apply not_true_iff_false in E1, E2. rewrite same_pair_iff in E1, E2.
  destruct HC as (g1 & (A0 & A1 & A2 & A3) & (B0 & B1 & B2 & B3)). unfold directed, undirected. rewrite B0, A0, !B3, !A3 by tauto.
  apply (IH a b). apply Hj. now apply Hj'.
Qed.
(** Priority 1 keeps every arrowhead. *)
Lemma bi_keeps h x y z a b : base n g0 h -> unshielded g0 x y z -> gm h b a = 1 -> gm (bidirect h (x, y, z)) b a = 1.
Proof.
  intros HBs Hu K. pose proof HBs as (HB & HL & Hn & Hj). destruct (unshielded_neq _ _ _ Hu) as (N1 & N2 & N3). destruct Hu as (J1 & J2 & _).
  apply Hj in J1, J2. unfold bidirect. destruct (bi_headed n h x y HB HL J1) as (HB1 & H1 & E1).
  pose proof (headed_joined h x y _ J1 (lined_sym _ x y HL J1) H1) as JJ1.
  assert (S1 : gm (bi_point h x y) b a = 1).
  { destruct (same_pair a b x y) eqn:E; [|apply not_true_iff_false in E; rewrite same_pair_iff in E; destruct H1 as (_ & _ & _ & H4); rewrite H4 by tauto; exact K].
    apply same_pair_iff in E. destruct E as [[-> ->]|[-> ->]]; [now rewrite E1|].
    unfold bi_point. destruct (HL x y J1) as [_ [E2|E2]]; [|rewrite (get_edge_codes h x y ARROW ARROW K E2) by discriminate; rewrite K, E2; exact K].
    destruct H1 as (_ & _ & [H2|[H2 _]] & _); [|exact H2]. exfalso. revert H2. unfold bi_point.
    rewrite (get_edge_codes h x y ARROW TAIL K E2) by discriminate. rewrite K, E2. cbn [Z.eqb Pos.eqb andb].
    destruct (built_inv n h HB) as (Hgn & _). pose proof J1 as (Bx & By & _). rewrite Hgn in Bx, By.
    pose proof (rie_any n h x y HB) as R. unfold remove_if_exists in R. rewrite (get_edge_codes h x y ARROW TAIL K E2) in R by discriminate. destruct R as [HBr HG].
    destruct (add_bi n _ x y HBr Bx By N2) as (_ & _ & P1 & _).
    { rewrite HG. assert (same_pair x y x y = true) as -> by (apply same_pair_iff; auto). reflexivity. }
    { rewrite HG. assert (same_pair y x x y = true) as -> by (apply same_pair_iff; auto). reflexivity. }
    rewrite P1. lia. }
  pose proof (headed_lined h x y _ HL J1 H1) as HL1. assert (J2' : joined (bi_point h x y) z y) by now apply JJ1.
  clear K E1 H1. revert HB1 HL1 J2' S1. generalize (bi_point h x y). clear h HBs HB HL Hn Hj J1 J2 JJ1. intros h HB HL J1 K.
  destruct (bi_headed n h z y HB HL J1) as (HB1 & H1 & E1).
  destruct (same_pair a b z y) eqn:E; [|apply not_true_iff_false in E; rewrite same_pair_iff in E; destruct H1 as (_ & _ & _ & H4); rewrite H4 by tauto; exact K].
  apply same_pair_iff in E. destruct E as [[-> ->]|[-> ->]]; [now rewrite E1|].
  unfold bi_point. destruct (HL z y J1) as [_ [E2|E2]]; [|rewrite (get_edge_codes h z y ARROW ARROW K E2) by discriminate; rewrite K, E2; exact K].
  destruct H1 as (_ & _ & [H2|[H2 _]] & _); [|exact H2]. exfalso. revert H2. unfold bi_point.
  rewrite (get_edge_codes h z y ARROW TAIL K E2) by discriminate. rewrite K, E2. cbn [Z.eqb Pos.eqb andb].
  destruct (built_inv n h HB) as (Hgn & _). pose proof J1 as (Bx & By & _). rewrite Hgn in Bx, By.
  pose proof (rie_any n h z y HB) as R. unfold remove_if_exists in R. rewrite (get_edge_codes h z y ARROW TAIL K E2) in R by discriminate. destruct R as [HBr HG].
  destruct (add_bi n _ z y HBr Bx By N3) as (_ & _ & P1 & _).
  { rewrite HG. assert (same_pair z y z y = true) as -> by (apply same_pair_iff; auto). reflexivity. }
  { rewrite HG. assert (same_pair y z z y = true) as -> by (apply same_pair_iff; auto). reflexivity. }
  rewrite P1. lia.
Qed.
(** Priorities 2 and above keep every directed edge. *)
Lemma keep_keeps h x y z a b : (2 <= prio)%nat -> base n g0 h -> partially_directed h -> unshielded g0 x y z -> directed h a b -> directed (now prio h (x, y, z)) a b.
Proof.
  intros HP HBs Hpd Hu K. destruct (unshielded_neq _ _ _ Hu) as (N1 & N2 & N3).
  destruct (now_cases n g0 h prio x y z HBs Hu) as [HBn [(E & _)|(HC & HF & HD)]]; [now rewrite E|].
  specialize (HF HP). unfold fits in HF. apply andb_true_iff in HF. destruct HF as [F1 F2]. rewrite negb_true_iff in F1, F2.
  destruct HD as [D1 D2]; [lia|]. pose proof K as (Ka & Kb & K1 & K2).
  destruct (same_pair a b x y) eqn:E1; [apply same_pair_iff in E1; destruct E1 as [[-> ->]|[-> ->]]; auto|].
  { exfalso. unfold is_fully_directed in F1. rewrite K1, K2 in F1. discriminate. }
  destruct (same_pair a b z y) eqn:E2; [apply same_pair_iff in E2; destruct E2 as [[-> ->]|[-> ->]]; auto|].
  { exfalso. unfold is_fully_directed in F2. rewrite K1, K2 in F2. discriminate. }
  apply not_true_iff_false in E1, E2. rewrite same_pair_iff in E1, E2.
  destruct HC as (g1 & (A0 & A1 & A2 & A3) & (B0 & B1 & B2 & B3)). unfold directed. rewrite B0, A0, !B3, !A3 by tauto. exact K.
Qed.
Lemma runs_keeps g : (2 <= prio)%nat -> runs prio P g0 g -> (forall a b, directed g0 a b -> directed g a b) /\
  (forall a b, directed g a b -> directed g0 a b \/ exists c, unshielded g0 a b c /\ directed g c b).
Proof.
  intros HP. induction 1 as [|h [[x y] z] R IH Ht]; [split; auto|]. destruct IH as [IH1 IH2].
  pose proof (runs_base h R) as HBs. pose proof (Pu _ _ _ Ht) as Hu. assert (NP : prio <> 1%nat) by lia. pose proof (runs_pd h NP R) as Hpd.
  assert (KK : forall a b, directed h a b -> directed (now prio h (x, y, z)) a b) by (intros; now apply keep_keeps).
  split; [auto|]. intros a b K. destruct (unshielded_neq _ _ _ Hu) as (N1 & N2 & N3).
  destruct (now_cases n g0 h prio x y z HBs Hu) as [HBn [(E & _)|(HC & HF & HD)]].
  { rewrite E in *. destruct (IH2 a b K) as [|(c & Q1 & Q2)]; eauto. }
  destruct HD as [D1 D2]; [exact NP|].
  assert (Hu' : unshielded g0 z y x).
  { destruct Hu as (U1 & U2 & U3 & U4). repeat split; try apply U1; try apply U2; auto. intros Q. apply U4. eapply lined_sym; [now apply pd_lined|exact Q]. }
  destruct (same_pair a b x y) eqn:E1; [apply same_pair_iff in E1; destruct E1 as [[-> ->]|[-> ->]]; [right; exists z; auto|]|].
  { exfalso. destruct K as (_ & _ & Q1 & Q2), D1 as (_ & _ & Q3 & Q4). lia. }
  destruct (same_pair a b z y) eqn:E2; [apply same_pair_iff in E2; destruct E2 as [[-> ->]|[-> ->]]; [right; exists x; auto|]|].
  { exfalso. destruct K as (_ & _ & Q1 & Q2), D2 as (_ & _ & Q3 & Q4). lia. }
  apply not_true_iff_false in E1, E2. rewrite same_pair_iff in E1, E2.
  assert (K' : directed h a b).
  { destruct HC as (g1 & (A0 & A1 & A2 & A3) & (B0 & B1 & B2 & B3)). unfold directed in *. rewrite B0, A0, !B3, !A3 in K by tauto. exact K. }
  destruct (IH2 a b K') as [|(c & Q1 & Q2)]; [auto|]. right. exists c. split; [exact Q1|]. now apply KK.
Qed.
End Runs.
