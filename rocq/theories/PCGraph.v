(** Effects of the edge edits used by the orientation phase. *)
From Verif Require Import Base EdgeModel EdgeProofs GraphModel GraphSpec GraphProofs DpathProofs UtilsModel UtilsProofs NamedModel KnowledgeModel
  DsepSpec MeekModel MeekSpec MeekProofs CpdagModel SkelModel SkelProofs PCModel PCSpec MeekFull.
Local Open Scope Z_scope.

(** Built graphs have no marks outside their nodes. *)
Lemma empty_gm n a b : gm (empty_graph n) a b = 0.
Proof. reflexivity. Qed.
Lemma built_outside n g : built n g -> forall a b, gm g a b <> 0 -> (a < n)%nat /\ (b < n)%nat /\ a <> b.
Proof.
  intros HB. induction HB as [|g e HB IH Ho Hs|g i j HB IH Ho Hc|g i j HB IH Ho C1 C2|g e HB IH Ho]; intros a b N.
  - now rewrite empty_gm in N.
  - destruct Ho as (H1 & H2 & H3). cbn in H1, H2, H3.
    destruct (Nat.eq_dec a (e_node1 e)) as [->|], (Nat.eq_dec b (e_node2 e)) as [->|]; auto.
    + rewrite add_edge_frame in N by lia. auto.
    + destruct (Nat.eq_dec a (e_node2 e)) as [->|], (Nat.eq_dec (e_node2 e) (e_node1 e)) as [|]; auto; rewrite add_edge_frame in N by lia; auto.
    + destruct (Nat.eq_dec a (e_node2 e)) as [->|], (Nat.eq_dec b (e_node1 e)) as [->|]; auto; rewrite add_edge_frame in N by lia; auto.
  - destruct Ho as (H1 & H2 & H3). cbn in H1, H2, H3, N.
    destruct (Nat.eq_dec a i) as [->|]; [destruct (Nat.eq_dec b j) as [->|]; auto|].
    + rewrite upd2_other in N by lia. auto.
    + destruct (Nat.eq_dec a j) as [->|]; [destruct (Nat.eq_dec b i) as [->|]; auto|]; rewrite upd2_other in N by lia; auto.
  - destruct Ho as (H1 & H2 & H3). cbn in H1, H2, H3, N.
    destruct (Nat.eq_dec a i) as [->|]; [destruct (Nat.eq_dec b j) as [->|]; auto|].
    + rewrite upd2_other in N by lia. auto.
    + destruct (Nat.eq_dec a j) as [->|]; [destruct (Nat.eq_dec b i) as [->|]; auto|]; rewrite upd2_other in N by lia; auto.
  - destruct Ho as (H1 & H2 & H3). cbn in H1, H2, H3.
    destruct (Nat.eq_dec a (e_node1 e)) as [->|]; [destruct (Nat.eq_dec b (e_node2 e)) as [->|]; auto|].
    + rewrite remove_edge_frame in N by lia. auto.
    + destruct (Nat.eq_dec a (e_node2 e)) as [->|]; [destruct (Nat.eq_dec b (e_node1 e)) as [->|]; auto|]; rewrite remove_edge_frame in N by lia; auto.
Qed.

Lemma op_on_Edge n x y a b : (x < n)%nat -> (y < n)%nat -> x <> y -> op_on n (RemoveEdge (Edge x y a b)) /\ op_on n (AddEdge (Edge x y a b)).
Proof. intros Hx Hy N. unfold op_on. cbn. destruct (Edge_nodes x y a b) as [[-> ->]|[-> ->]]; auto. Qed.

(** remove_if_exists on a graph without parallel edges: the pair loses its edge. *)
Lemma rie_any n g x y : built n g -> let g' := remove_if_exists g x y in
  built n g' /\ forall a b, gm g' a b = if same_pair a b x y then 0 else gm g a b.
Proof.
  intros HB g'. unfold g', remove_if_exists. clear g'. destruct (built_inv n g HB) as (Hn & Hw & Hs & _).
  destruct (Z.eq_dec (gm g x y) 0) as [E0|N0].
  - unfold get_edge. rewrite E0. cbn. split; [exact HB|]. intros a b. destruct (same_pair a b x y) eqn:E; [|reflexivity].
    apply same_pair_iff in E. destruct E as [[-> ->]|[-> ->]]; [exact E0|].
    destruct (Z.eq_dec (gm g y x) 0) as [|N]; [assumption|exfalso]. destruct (built_outside n g HB y x N) as (Hy & Hx & _).
    rewrite <- Hn in Hx, Hy. pose proof (proj2 Hw x y Hx Hy) as HL. rewrite E0 in HL. pair_cases HL; congruence.
  - destruct (built_outside n g HB x y N0) as (Hx & Hy & N).
    assert (X : exists u v, gm g x y = ev u /\ gm g y x = ev v /\ is_mark u /\ is_mark v).
    { rewrite <- Hn in Hx, Hy. pose proof (proj2 Hw x y Hx Hy) as HL. pose proof (Hs x y Hx Hy) as S1. pose proof (Hs y x Hy Hx) as S2.
      unfold is_mark. pair_cases HL; try lia;
      [exists TAIL, TAIL|exists TAIL, ARROW|exists ARROW, TAIL|exists TAIL, CIRCLE|exists CIRCLE, TAIL|exists ARROW, ARROW|exists CIRCLE, CIRCLE|exists CIRCLE, ARROW|exists ARROW, CIRCLE];
      cbn; auto 10. }
    destruct X as (u & v & E1 & E2 & M1 & M2).
    rewrite (get_edge_codes g x y u v E1 E2) by (intros ->; destruct M1 as [?|[?|?]]; discriminate).
    destruct (op_on_Edge n x y u v Hx Hy N) as [Hop _].
    split; [now apply built_remove|]. intros a b.
    assert (HE : e_node1 (Edge x y u v) <> e_node2 (Edge x y u v)) by apply Hop.
    pose proof (remove_edge_pair g (Edge x y u v) HE) as HP.
    assert (HZ : gm (remove_edge g (Edge x y u v)) x y = 0 /\ gm (remove_edge g (Edge x y u v)) y x = 0).
    { unfold Edge in *. destruct M1 as [-> | [-> | ->]], M2 as [-> | [-> | ->]]; cbn in HP, E1, E2 |- *;
      rewrite E1, E2 in HP; cbn in HP; injection HP as P1 P2; auto. }
    destruct (same_pair a b x y) eqn:E.
    + apply same_pair_iff in E. destruct E as [[-> ->]|[-> ->]]; apply HZ.
    + apply not_true_iff_false in E. rewrite same_pair_iff in E. apply remove_edge_frame;
      destruct (Edge_nodes x y u v) as [[-> ->]|[-> ->]]; tauto.
Qed.

(** [g'] is [g] with the edge between x and y replaced by x --> y. *)
Definition arrowed (g : ggraph) (x y : nat) (g' : ggraph) : Prop :=
  gn g' = gn g /\ gm g' x y = -1 /\ gm g' y x = 1 /\
  forall a b, ~ (a = x /\ b = y) -> ~ (a = y /\ b = x) -> gm g' a b = gm g a b.
Lemma add_arrow n g x y : built n g -> (x < n)%nat -> (y < n)%nat -> x <> y -> gm g x y = 0 -> gm g y x = 0 ->
  let g' := add_edge g (Edge x y TAIL ARROW) in built n g' /\ arrowed g x y g'.
Proof.
  intros HB Hx Hy N E1 E2 g'. destruct (built_inv n g HB) as (Hn & Hw & Hs & _).
  assert (St : storable TAIL ARROW).
  { unfold storable, is_mark. repeat split; auto. intros [? ?]. discriminate. }
  destruct (add_edge_new g x y TAIL ARROW N E1 E2 St) as [P1 P2]. fold g' in P1, P2. cbn in P1, P2.
  assert (HF : forall a b, ~ (a = x /\ b = y) -> ~ (a = y /\ b = x) -> gm g' a b = gm g a b) by (intros; now apply add_edge_frame).
  split; [|repeat split; auto; apply add_edge_gn]. apply built_add; [exact HB|now apply op_on_Edge|]. fold g'.
  intros i j Hi Hj. unfold g' in Hi, Hj. rewrite add_edge_gn in Hi, Hj.
  destruct (Nat.eq_dec i x) as [->|]; [destruct (Nat.eq_dec j y) as [->|]; [lia|]|].
  + rewrite HF by lia. now apply Hs.
  + destruct (Nat.eq_dec i y) as [->|]; [destruct (Nat.eq_dec j x) as [->|]; [lia|]|]; rewrite HF by lia; now apply Hs.
Qed.
Lemma same_pair_no a b x y : ~ (a = x /\ b = y) -> ~ (a = y /\ b = x) -> same_pair a b x y = false.
Proof. intros. apply not_true_iff_false. rewrite same_pair_iff. tauto. Qed.
Lemma point_at_spec n g x y : built n g -> (x < n)%nat -> (y < n)%nat -> x <> y -> built n (point_at g x y) /\ arrowed g x y (point_at g x y).
Proof.
  intros HB Hx Hy N. unfold point_at. destruct (rie_any n g x y HB) as [HB1 HG].
  assert (S1 : same_pair x y x y = true) by (apply same_pair_iff; auto). assert (S2 : same_pair y x x y = true) by (apply same_pair_iff; auto).
  destruct (add_arrow n _ x y HB1 Hx Hy N) as [HB2 (K1 & K2 & K3 & K4)]; [now rewrite HG, S1|now rewrite HG, S2|].
  split; [exact HB2|]. destruct (built_inv n g HB) as (Hn & _). destruct (built_inv n _ HB1) as (Hn1 & _).
  split; [congruence|]. split; [exact K2|]. split; [exact K3|]. intros a b N1 N2. rewrite K4, HG by assumption. now rewrite same_pair_no.
Qed.
Lemma arrowed_trans g x y g1 z g2 : x <> z -> x <> y -> z <> y -> arrowed g x y g1 -> arrowed g1 z y g2 ->
  gn g2 = gn g /\ gm g2 x y = -1 /\ gm g2 y x = 1 /\ gm g2 z y = -1 /\ gm g2 y z = 1 /\
  forall a b, ~ (a = x /\ b = y) -> ~ (a = y /\ b = x) -> ~ (a = z /\ b = y) -> ~ (a = y /\ b = z) -> gm g2 a b = gm g a b.
Proof.
  intros N1 N2 N3 (A1 & A2 & A3 & A4) (B1 & B2 & B3 & B4). repeat split; auto; try congruence.
  - rewrite B4 by lia. exact A2.
  - rewrite B4 by lia. exact A3.
  - intros a b M1 M2 M3 M4. rewrite B4, A4; auto.
Qed.
(** The first half of overwrite. *)
Lemma over_spec n g x y : built n g -> (x < n)%nat -> (y < n)%nat -> x <> y ->
  let g' := add_edge (remove_if_exists (remove_if_exists g x y) y x) (Edge x y TAIL ARROW) in built n g' /\ arrowed g x y g'.
Proof.
  intros HB Hx Hy N g'. destruct (rie_any n g x y HB) as [HB1 HG1]. destruct (rie_any n _ y x HB1) as [HB2 HG2].
  assert (S1 : same_pair x y x y = true) by (apply same_pair_iff; auto). assert (S2 : same_pair y x x y = true) by (apply same_pair_iff; auto).
  assert (S3 : same_pair x y y x = true) by (apply same_pair_iff; auto). assert (S4 : same_pair y x y x = true) by (apply same_pair_iff; auto).
  destruct (add_arrow n _ x y HB2 Hx Hy N) as [HB3 (K1 & K2 & K3 & K4)]; [now rewrite HG2, S3|now rewrite HG2, S4|].
  destruct (built_inv n g HB) as (Hn & _). destruct (built_inv n _ HB2) as (Hn2 & _).
  split; [exact HB3|]. split; [unfold g'; congruence|]. split; [exact K2|]. split; [exact K3|].
  intros a b N1 N2. unfold g'. rewrite K4, HG2, HG1 by assumption. rewrite !same_pair_no; auto; tauto.
Qed.
Lemma over_spec' n g z y : built n g -> (z < n)%nat -> (y < n)%nat -> z <> y ->
  let g' := add_edge (remove_if_exists (remove_if_exists g y z) z y) (Edge z y TAIL ARROW) in built n g' /\ arrowed g z y g'.
Proof.
  intros HB Hx Hy N g'. destruct (rie_any n g y z HB) as [HB1 HG1]. destruct (rie_any n _ z y HB1) as [HB2 HG2].
  assert (S1 : same_pair z y z y = true) by (apply same_pair_iff; auto). assert (S2 : same_pair y z z y = true) by (apply same_pair_iff; auto).
  destruct (add_arrow n _ z y HB2 Hx Hy N) as [HB3 (K1 & K2 & K3 & K4)]; [now rewrite HG2, S1|now rewrite HG2, S2|].
  destruct (built_inv n g HB) as (Hn & _). destruct (built_inv n _ HB2) as (Hn2 & _).
  split; [exact HB3|]. split; [unfold g'; congruence|]. split; [exact K2|]. split; [exact K3|].
  intros a b N1 N2. unfold g'. rewrite K4, HG2, HG1 by assumption. rewrite !same_pair_no; auto; tauto.
Qed.
(** bi_point on an edge that is undirected or already x --> y. *)
Lemma bi_spec n g x y : built n g -> undirected g x y \/ directed g x y -> built n (bi_point g x y) /\ arrowed g x y (bi_point g x y).
Proof.
  intros HB H. destruct (built_inv n g HB) as (Hn & Hw & Hs & _). unfold bi_point.
  destruct H as [(Hx & Hy & E1 & E2)|(Hx & Hy & E1 & E2)]; pose proof Hx as Hx'; pose proof Hy as Hy'; rewrite Hn in Hx', Hy'.
  - assert (N : x <> y) by (intros ->; rewrite (proj1 Hw y Hx) in E1; lia).
    rewrite (get_edge_codes g x y TAIL TAIL E1 E2) by discriminate. rewrite E1, E2. cbn [Z.eqb Pos.eqb andb].
    pose proof (point_at_spec n g x y HB Hx' Hy' N) as P. unfold point_at, remove_if_exists in P.
    rewrite (get_edge_codes g x y TAIL TAIL E1 E2) in P by discriminate. exact P.
  - rewrite (get_edge_codes g x y TAIL ARROW E1 E2) by discriminate. rewrite E1, E2. cbn [Z.eqb Pos.eqb andb].
    split; [exact HB|]. repeat split; auto.
Qed.

Lemma add_edge_tt h i j a b : i <> j -> (forall a b, gm h a b = 0 \/ gm h a b = -1) ->
  gm (add_edge h (Edge i j TAIL TAIL)) a b = 0 \/ gm (add_edge h (Edge i j TAIL TAIL)) a b = -1.
Proof.
  intros N H. assert (NE : e_node1 (Edge i j TAIL TAIL) <> e_node2 (Edge i j TAIL TAIL)) by exact N.
  pose proof (add_edge_pair h _ NE) as HP. cbn [e_node1 e_node2 e_end1 e_end2 Edge pointing_left ep_eqb andb orb] in HP.
  destruct (same_pair a b i j) eqn:E.
  - apply same_pair_iff in E. change (e_node1 (Edge i j TAIL TAIL)) with i in HP. change (e_node2 (Edge i j TAIL TAIL)) with j in HP.
    change (e_end1 (Edge i j TAIL TAIL)) with TAIL in HP. change (e_end2 (Edge i j TAIL TAIL)) with TAIL in HP.
    destruct (H i j) as [E1|E1], (H j i) as [E2|E2]; rewrite E1, E2 in HP; cbn in HP; injection HP as P1 P2; destruct E as [[-> ->]|[-> ->]]; auto.
  - apply not_true_iff_false in E. rewrite same_pair_iff in E. rewrite add_edge_frame; [apply H|cbn; tauto|cbn; tauto].
Qed.
Lemma complete_built n : built n (complete_graph n).
Proof.
  unfold complete_graph. set (P := fun g => built n g /\ forall a b, gm g a b = 0 \/ gm g a b = -1).
  enough (H : P (complete_graph n)) by apply H. unfold complete_graph.
  apply (fold_left_inv _ P).
  { split; [apply built_empty|]. intros a b. left. apply empty_gm. }
  intros g i Hi HB. apply in_seq0 in Hi. apply (fold_left_inv _ P); [exact HB|].
  intros h j Hj [HBh Hh]. apply in_seq in Hj. assert (N : i <> j) by lia.
  assert (H' : forall a b, gm (add_edge h (Edge i j TAIL TAIL)) a b = 0 \/ gm (add_edge h (Edge i j TAIL TAIL)) a b = -1) by (intros; now apply add_edge_tt).
  split; [|exact H']. apply built_add; [exact HBh|apply op_on_Edge; lia|].
  intros a b _ _. destruct (H' a b); auto.
Qed.
Lemma rie_built n g x y : built n g -> built n (remove_if_exists g x y).
Proof. intros HB. exact (proj1 (rie_any n g x y HB)). Qed.

(** The skeleton search only removes edges. *)
Section Search.
Variable ind : nat -> nat -> list nat -> bool.
Variable ban : nat -> nat -> bool.
Variable stable fasm : bool.
Variable n : nat.
Notation B st := (built n (skG st)).
Lemma removed_now_built st x y cs : B st -> B (removed_now fasm st x y cs).
Proof. intros H. cbn. now apply rie_built, rie_built. Qed.
Lemma s_loop_built x y Ss : forall st ss, B st -> B (fst (s_loop ind stable fasm x y Ss st ss)).
Proof.
  induction Ss as [|cs r IH]; intros st ss H; cbn [s_loop]; [exact H|].
  destruct (ind x y cs); [|now apply IH]. destruct stable; [now apply IH|]. now apply removed_now_built.
Qed.
Lemma y_loop_built depth x neigh ys : forall st, B st -> B (y_loop ind ban stable fasm depth x neigh ys st).
Proof.
  induction ys as [|y r IH]; intros st H; cbn [y_loop]; [exact H|].
  destruct (ban x y && negb stable); [now apply removed_now_built|].
  assert (H1 : B (if ban x y then to_remove st x y else st)) by (destruct (ban x y); exact H).
  pose proof (s_loop_built x y (combs depth (filter (fun z => negb (Nat.eqb z y)) neigh)) _ [] H1) as H2.
  destruct (s_loop _ _ _ _ _ _ _ _) as [st2 ss]. cbn [fst] in H2. apply IH.
  match goal with |- context [if ?b then _ else _] => destruct b end; exact H2.
Qed.
Lemma sk_pass_built depth st : B st -> B (sk_pass ind ban stable fasm depth st).
Proof.
  intros H. unfold sk_pass. apply (fold_left_inv _ (fun st => B st)).
  - apply (fold_left_inv _ (fun st => B st)); [exact H|]. intros s x _ Hs. unfold x_step.
    destruct (Nat.ltb _ _); [exact Hs|]. now apply y_loop_built.
  - intros s [x y] _ Hs. unfold remove_step. destruct fasm; [|now apply rie_built]. destruct (skS s x y); cbn; now apply rie_built.
Qed.
Lemma search_built fuel limit st : sk_search ind ban stable fasm fuel limit n = Some st -> B st.
Proof.
  unfold sk_search. enough (H : forall k s, B s -> sk_loop ind ban stable fasm fuel limit k s = Some st -> B st) by (apply H; apply complete_built).
  induction fuel as [|f IH]; intros k s Hs E; cbn [sk_loop] in E; destruct (_ && _); try discriminate; try (injection E as <-; exact Hs).
  revert E. apply IH. now apply sk_pass_built.
Qed.
End Search.
Lemma skeleton_built ind ban stable fuel n g sep : skeleton_discovery ind ban stable fuel n = Some (g, sep) -> built n g.
Proof.
  unfold skeleton_discovery. destruct (sk_search _ _ _ _ _ _ _) as [st|] eqn:E; [|discriminate]. intros [= <- <-].
  eapply search_built; eauto.
Qed.
