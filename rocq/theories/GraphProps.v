(** C02-C10: property theorems about GeneralGraph edits and queries. *)
From Verif Require Import Base EdgeModel EdgeProofs GraphModel GraphSpec GraphProofs DpathProofs SumLib QueryProofs.
Local Open Scope Z_scope.

(** C02: adding an edge between two non-adjacent nodes and asking for it back.
    [_partial]: circle-tail written from the circle end is excluded (see the refutation below). *)
Theorem C02_add_then_get_partial : forall g i j a b,
  i <> j -> is_directly_connected_to g i j = false ->
  (a = TAIL \/ a = ARROW \/ a = CIRCLE) -> (b = TAIL \/ b = ARROW \/ b = CIRCLE) ->
  ~ (a = CIRCLE /\ b = TAIL) ->
  let g' := add_edge g (Edge i j a b) in
  get_edge g' i j = Ok (Some (Edge i j a b)) /\
  get_edge g' j i = Ok (Some (Edge j i b a)) /\
  contains_edge g' (Edge i j a b) = true /\
  (forall x y, ~ (x = i /\ y = j) -> ~ (x = j /\ y = i) -> get_edge g' x y = get_edge g x y).
Proof.
  intros g i j a b Hij Hc Ha Hb Hn g'. apply not_connected in Hc. destruct Hc as [Z1 Z2].
  destruct (add_edge_new g i j a b Hij Z1 Z2) as [P1 P2]; [repeat split; auto|]. fold g' in P1, P2.
  assert (N : a <> NULL /\ b <> NULL) by (destruct Ha as [-> | [-> | ->]], Hb as [-> | [-> | ->]]; split; discriminate).
  split; [|split; [|split]].
  - apply get_edge_codes; tauto.
  - apply get_edge_codes; tauto.
  - unfold contains_edge.
    destruct Ha as [-> | [-> | ->]], Hb as [-> | [-> | ->]]; cbn in *; rewrite ?P1, ?P2; try reflexivity. tauto.
  - intros x y N1 N2. unfold get_edge, g'.
    destruct (Edge_nodes i j a b) as [[E1 E2]|[E1 E2]];
    rewrite !add_edge_frame by (rewrite E1, E2; tauto); reflexivity.
Qed.
Print Assumptions C02_add_then_get_partial.

Example C02_ex : let g := add_edge (empty_graph 3) (Edge 0 1 TAIL ARROW) in
  is_directly_connected_to g 2 1 = false /\
  get_edge (add_edge g (Edge 2 1 ARROW CIRCLE)) 2 1 = Ok (Some (Edge 1 2 CIRCLE ARROW)).
Proof. split; reflexivity. Qed.

(** C02 refuted in general: o-- (circle at the first node, tail at the second) is silently dropped,
    although the mirrored --o is stored. *)
Theorem C02_circle_tail_dropped_refuted : forall g i j,
  i <> j -> is_directly_connected_to g i j = false ->
  get_edge (add_edge g (Edge i j CIRCLE TAIL)) i j = Ok None /\
  get_edge (add_edge g (Edge j i TAIL CIRCLE)) i j = Ok (Some (Edge i j CIRCLE TAIL)).
Proof.
  intros g i j Hij Hc. pose proof Hc as Hc'. apply not_connected in Hc. destruct Hc as [Z1 Z2]. split.
  - unfold get_edge, add_edge, add_edge_full. cbn. rewrite Z1, Z2. cbn. rewrite Z1. reflexivity.
  - destruct (add_edge_new g j i TAIL CIRCLE) as [P1 P2]; auto.
    + repeat split; unfold is_mark; auto. intros [H _]; discriminate H.
    + apply get_edge_codes; auto. discriminate.
Qed.
Print Assumptions C02_circle_tail_dropped_refuted.

(** C03: add_edge on a pair carrying at most one edge keeps the old edge: the pair is unchanged, or
    the graph now reports both the old edge and the new one; no other pair changes.
    [_partial]: pairs that already carry two parallel edges are excluded. *)
Theorem C03_add_keeps_existing_partial : forall g i j a b old,
  wf g -> (i < gn g)%nat -> (j < gn g)%nat -> i <> j ->
  (gm g i j = -1 \/ gm g i j = 0 \/ gm g i j = 1 \/ gm g i j = 2) ->
  get_edge g i j = Ok (Some old) ->
  let g' := add_edge g (Edge i j a b) in
  (forall x y, ~ (x = i /\ y = j) -> ~ (x = j /\ y = i) -> gm g' x y = gm g x y) /\
  ((gm g' i j = gm g i j /\ gm g' j i = gm g j i) \/
   (contains_edge g' old = true /\ contains_edge g' (Edge i j a b) = true)).
Proof.
  intros g i j a b old [_ Hl] Hi Hj Hij Hs Ho g'.
  specialize (Hl _ _ Hi Hj).
  split.
  - intros x y N1 N2. unfold g'.
    destruct (Edge_nodes i j a b) as [[E1 E2]|[E1 E2]]; apply add_edge_frame; rewrite E1, E2; tauto.
  - assert (HE : e_node1 (Edge i j a b) <> e_node2 (Edge i j a b))
      by (destruct (Edge_nodes i j a b) as [[-> ->]|[-> ->]]; congruence).
    pose proof (add_edge_pair g _ HE) as HP. fold g' in HP.
    clearbody g'. clear HE. unfold get_edge in Ho. unfold Edge in HP.
    pair_cases Hl; repeat match goal with H : _ = gm g i j |- _ => symmetry in H
                                        | H : _ = gm g j i |- _ => symmetry in H end;
    match goal with H1 : gm g i j = _, H2 : gm g j i = _ |- _ => 
      rewrite H1, H2 in Ho |- *; cbn in Ho; try discriminate Ho; try lia; injection Ho as <-;
      destruct a, b; cbn in HP; rewrite H1, H2 in HP; cbn in HP;
      pose proof (f_equal fst HP) as P1; pose proof (f_equal snd HP) as P2; cbn [fst snd] in P1, P2;
      unfold contains_edge; cbn; rewrite P1, P2; cbn; auto
    end.
Qed.
Print Assumptions C03_add_keeps_existing_partial.

Example C03_ex : let g := add_edge (empty_graph 2) (Edge 0 1 TAIL ARROW) in
  let g' := add_edge g (Edge 0 1 ARROW ARROW) in
  contains_edge g' (Edge 0 1 TAIL ARROW) = true /\ contains_edge g' (Edge 0 1 ARROW ARROW) = true.
Proof. split; reflexivity. Qed.

(** C03 refuted in general: on 0 --> 1 with 0 <-> 1, adding 0 <-> 1 once more destroys the directed
    edge and reports an undirected one instead. *)
Theorem C03_double_bidirected_refuted :
  let g := add_edge (add_edge (empty_graph 2) (Edge 0 1 TAIL ARROW)) (Edge 0 1 ARROW ARROW) in
  let g' := add_edge g (Edge 0 1 ARROW ARROW) in
  contains_edge g (Edge 0 1 TAIL ARROW) = true /\ contains_edge g' (Edge 0 1 TAIL ARROW) = false /\
  contains_edge g (Edge 0 1 TAIL TAIL) = false /\ contains_edge g' (Edge 0 1 TAIL TAIL) = true.
Proof. cbv zeta. repeat split; vm_compute; reflexivity. Qed.
Print Assumptions C03_double_bidirected_refuted.

(** C04: every history of edits on distinct nodes keeps adjacency symmetric and irreflexive, get_edge
    total, and get_edge None exactly for non-adjacent pairs. *)
Theorem C04_history_wellformed : forall n ops, Forall (op_on n) ops ->
  let g := fold_left gapply ops (empty_graph n) in
  gn g = n /\
  (forall i, (i < n)%nat -> is_adjacent_to g i i = false) /\
  (forall i j, (i < n)%nat -> (j < n)%nat ->
     is_adjacent_to g i j = is_adjacent_to g j i /\
     legal_pair (gm g i j) (gm g j i) /\
     exists o, get_edge g i j = Ok o /\ (o = None <-> is_adjacent_to g i j = false)).
Proof.
  intros n ops H g. pose proof (run_wf ops n H) as Hw. fold g in Hw.
  assert (Hn : gn g = n) by (unfold g; rewrite run_gn; reflexivity).
  split; [exact Hn|]. split.
  - intros i Hi. apply wf_adj_irrefl; [exact Hw|lia].
  - intros i j Hi Hj. split; [apply wf_adj_sym; auto; lia|]. split; [apply Hw; lia|].
    apply wf_get_edge; auto; lia.
Qed.
Print Assumptions C04_history_wellformed.

Example C04_ex : Forall (op_on 3) [AddEdge (Edge 0 1 TAIL ARROW); AddEdge (Edge 1 2 CIRCLE CIRCLE);
  RemoveEdge (Edge 0 1 TAIL ARROW); AddDirected 2 0; RemoveConn 0 2].
Proof. repeat constructor; cbn; lia. Qed.

(** C05a: removing the edge just added restores every entry of the edge matrix. *)
Theorem C05_add_remove_roundtrip : forall g i j a b,
  i <> j -> is_directly_connected_to g i j = false ->
  (a = TAIL \/ a = ARROW \/ a = CIRCLE) -> (b = TAIL \/ b = ARROW \/ b = CIRCLE) ->
  forall x y, gm (remove_edge (add_edge g (Edge i j a b)) (Edge i j a b)) x y = gm g x y.
Proof.
  intros g i j a b Hij Hc Ha Hb x y. apply not_connected in Hc. destruct Hc as [Z1 Z2].
  set (e := Edge i j a b). set (g' := add_edge g e).
  assert (HN : (e_node1 e = i /\ e_node2 e = j) \/ (e_node1 e = j /\ e_node2 e = i)) by apply Edge_nodes.
  assert (HE : e_node1 e <> e_node2 e) by (destruct HN as [[-> ->]|[-> ->]]; congruence).
  pose proof (add_edge_pair g e HE) as HP. pose proof (remove_edge_pair g' e HE) as HR.
  fold g' in HP.
  assert (Hxy : (x = e_node1 e /\ y = e_node2 e) \/ (x = e_node2 e /\ y = e_node1 e) \/
                (~ (x = e_node1 e /\ y = e_node2 e) /\ ~ (x = e_node2 e /\ y = e_node1 e))) by lia.
  assert (HZ : gm g (e_node1 e) (e_node2 e) = 0 /\ gm g (e_node2 e) (e_node1 e) = 0)
    by (destruct HN as [[-> ->]|[-> ->]]; auto).
  destruct HZ as [Y1 Y2]. rewrite Y1, Y2 in HP.
  assert (HG : gm (remove_edge g' e) (e_node1 e) (e_node2 e) = 0 /\ gm (remove_edge g' e) (e_node2 e) (e_node1 e) = 0).
  { unfold e, Edge in *. clear Hxy HN HE.
    destruct Ha as [-> | [-> | ->]], Hb as [-> | [-> | ->]]; cbn in *;
    injection HP as P1 P2; rewrite P1, P2 in HR; cbn in HR; injection HR; auto. }
  destruct HG as [G1 G2].
  destruct Hxy as [[-> ->]|[[-> ->]|[N1 N2]]]; [congruence|congruence|].
  rewrite remove_edge_frame by tauto. unfold g'. now rewrite add_edge_frame by tauto.
Qed.
Print Assumptions C05_add_remove_roundtrip.

Example C05_ex : let g := add_edge (empty_graph 3) (Edge 0 1 TAIL ARROW) in
  is_directly_connected_to g 1 2 = false /\ is_directly_connected_to (add_edge g (Edge 1 2 TAIL ARROW)) 1 2 = true.
Proof. split; reflexivity. Qed.

(** C05b: on a graph without parallel edges, remove_edge removes exactly the requested edge, and
    does nothing when that edge is not present.  [_partial]: parallel edges excluded. *)
Theorem C05_remove_exact_partial : forall g i j a b,
  simple g -> (i < gn g)%nat -> (j < gn g)%nat -> i <> j ->
  let g' := remove_edge g (Edge i j a b) in
  (forall x y, ~ (x = i /\ y = j) -> ~ (x = j /\ y = i) -> gm g' x y = gm g x y) /\
  (gm g i j = ev a /\ gm g j i = ev b -> gm g' i j = 0 /\ gm g' j i = 0) /\
  (~ (gm g i j = ev a /\ gm g j i = ev b) -> gm g' i j = gm g i j /\ gm g' j i = gm g j i).
Proof.
  intros g i j a b Hs Hi Hj Hij g'.
  pose proof (Hs _ _ Hi Hj) as S1. pose proof (Hs _ _ Hj Hi) as S2.
  set (e := Edge i j a b) in *.
  assert (HN : (e_node1 e = i /\ e_node2 e = j /\ e_num1 e = ev a /\ e_num2 e = ev b) \/
               (e_node1 e = j /\ e_node2 e = i /\ e_num1 e = ev b /\ e_num2 e = ev a))
    by (unfold e, Edge; destruct (pointing_left a b); cbn; auto).
  assert (HE : e_node1 e <> e_node2 e) by (destruct HN as [(-> & -> & _)|(-> & -> & _)]; congruence).
  pose proof (remove_edge_pair g e HE) as HR. fold g' in HR.
  split.
  - intros x y N1 N2. apply remove_edge_frame; destruct HN as [(-> & -> & _)|(-> & -> & _)]; tauto.
  - unfold remove_pair in HR.
    destruct HN as [(E1 & E2 & E3 & E4)|(E1 & E2 & E3 & E4)]; rewrite E1, E2, E3, E4 in HR.
    + destruct (Z.eqb_spec (gm g j i) 4); [lia|]. destruct (Z.eqb_spec (gm g j i) 5); [lia|]. cbn in HR.
      destruct (Z.eqb_spec (ev a) (gm g i j)), (Z.eqb_spec (ev b) (gm g j i)); cbn in HR;
      injection HR as R1 R2; rewrite R1, R2; split; intros; try lia; auto.
    + destruct (Z.eqb_spec (gm g i j) 4); [lia|]. destruct (Z.eqb_spec (gm g i j) 5); [lia|]. cbn in HR.
      destruct (Z.eqb_spec (ev b) (gm g j i)), (Z.eqb_spec (ev a) (gm g i j)); cbn in HR;
      injection HR as R1 R2; rewrite R1, R2; split; intros; try lia; auto.
Qed.
Print Assumptions C05_remove_exact_partial.

Example C05_remove_ex : simple (add_edge (empty_graph 2) (Edge 0 1 TAIL ARROW)) /\
  gm (remove_edge (add_edge (empty_graph 2) (Edge 0 1 TAIL ARROW)) (Edge 0 1 TAIL ARROW)) 0%nat 1%nat = 0 /\
  gm (remove_edge (add_edge (empty_graph 2) (Edge 0 1 TAIL ARROW)) (Edge 1 0 TAIL ARROW)) 0%nat 1%nat = -1.
Proof.
  split; [|split; reflexivity]. apply built_inv with (n := 2%nat). apply built_add; [apply built_empty|cbn; repeat split; cbn; lia|].
  intros i j Hi Hj. cbn in Hi, Hj.
  destruct i as [|[|i]], j as [|[|j]]; try lia; vm_compute; auto.
Qed.

(** C05 refuted with parallel edges: on 0 --> 1 with 0 <-> 1, asking to remove the absent edge 1 --> 0
    removes 0 --> 1. *)
Theorem C05_remove_absent_refuted :
  let g := add_edge (add_edge (empty_graph 2) (Edge 0 1 TAIL ARROW)) (Edge 0 1 ARROW ARROW) in
  contains_edge g (Edge 1 0 TAIL ARROW) = false /\ contains_edge g (Edge 0 1 TAIL ARROW) = true /\
  contains_edge (remove_edge g (Edge 1 0 TAIL ARROW)) (Edge 0 1 TAIL ARROW) = false.
Proof. cbv zeta. repeat split; vm_compute; reflexivity. Qed.
Print Assumptions C05_remove_absent_refuted.

(** C06: ancestors are genuine in every graph built by edits that create no parallel edges. *)
Theorem C06_ancestor_sound : forall n g a b, built n g ->
  is_ancestor_of g a b = true -> reach (dedge g) a b.
Proof. exact built_ancestor_sound. Qed.
Print Assumptions C06_ancestor_sound.

Example C06_ex : exists g, built 3 g /\ is_ancestor_of g 0 2 = true /\ is_ancestor_of g 2 0 = false.
Proof.
  exists (add_directed_edge (add_directed_edge (empty_graph 3) 0 1) 1 2).
  split; [|split; vm_compute; reflexivity].
  repeat apply built_addd; try apply built_empty; cbn; repeat split; cbn; try lia; reflexivity.
Qed.

(** C06 refuted with parallel edges: from 0 -- 1 together with 0 <-> 1, an unrelated remove_edge
    makes 0 an "ancestor" of 1. *)
Theorem C06_parallel_edges_refuted :
  let g := add_edge (add_edge (add_edge (empty_graph 4) (Edge 0 1 TAIL TAIL)) (Edge 0 1 ARROW ARROW)) (Edge 2 3 TAIL ARROW) in
  let g' := remove_edge g (Edge 2 3 TAIL ARROW) in
  is_ancestor_of g' 0 1 = true /\ (forall a b, ~ dedge g' a b).
Proof.
  cbv zeta. split; [vm_compute; reflexivity|].
  intros a b (Ha & Hb & H). cbn in Ha, Hb.
  destruct a as [|[|[|[|a]]]], b as [|[|[|[|b]]]]; try lia; vm_compute in H; destruct H as [[H1 H2]|[H1 H2]]; congruence.
Qed.
Print Assumptions C06_parallel_edges_refuted.

(** C07 refuted: adding 0-->1, 2-->3 and then 1-->2 leaves 0 not an ancestor of 3. *)
Theorem C07_ancestor_complete_refuted :
  let g := add_arcs 4 [(0,1); (2,3); (1,2)]%nat in
  dedge g 0 1 /\ dedge g 1 2 /\ dedge g 2 3 /\ is_ancestor_of g 0 3 = false.
Proof. cbv zeta. repeat split; try (vm_compute; lia); vm_compute; auto. Qed.
Print Assumptions C07_ancestor_complete_refuted.

(** C07, the true part: when every arc is inserted while its head has no children yet or its tail
    has no parents yet, is_ancestor_of is exactly reachability. *)
Theorem C07_ancestor_exact_partial : forall n arcs, easy_order n [] arcs ->
  (forall a b, In (a, b) arcs <-> dedge (add_arcs n arcs) a b) /\
  (forall a b, (a < n)%nat -> (b < n)%nat ->
     (is_ancestor_of (add_arcs n arcs) a b = true <-> reach (dedge (add_arcs n arcs)) a b)).
Proof. exact easy_order_ancestors. Qed.
Print Assumptions C07_ancestor_exact_partial.

Example C07_ex : easy_order 4 [] [(0,1); (1,2); (2,3)]%nat.
Proof. cbn. repeat split; try lia; try (intuition congruence); left; intros k H; intuition congruence. Qed.

(** C08 for remove_edge: after removing an edge, reported ancestors are genuine in the new graph. *)
Theorem C08_remove_edge_not_stale : forall n g e a b, built n g -> op_on n (RemoveEdge e) ->
  is_ancestor_of (remove_edge g e) a b = true -> reach (dedge (remove_edge g e)) a b.
Proof. intros n g e a b Hb Ho. apply built_ancestor_sound with (n := n). now apply built_remove. Qed.
Print Assumptions C08_remove_edge_not_stale.

Example C08_ex : let g := add_directed_edge (add_directed_edge (empty_graph 3) 0 1) 1 2 in
  is_ancestor_of g 0 2 = true /\ is_ancestor_of (remove_edge g (Edge 1 2 TAIL ARROW)) 0 2 = false /\
  is_ancestor_of (remove_edge g (Edge 1 2 TAIL ARROW)) 0 1 = true.
Proof. cbv zeta. repeat split; vm_compute; reflexivity. Qed.

(** C08 refuted for remove_connecting_edge and for overwriting with add_directed_edge. *)
Theorem C08_remove_connecting_edge_stale_refuted :
  let g := remove_connecting_edge (add_edge (empty_graph 2) (Edge 0 1 TAIL ARROW)) 0 1 in
  is_ancestor_of g 0 1 = true /\ get_edge g 0 1 = Ok None.
Proof. cbv zeta. split; vm_compute; reflexivity. Qed.
Print Assumptions C08_remove_connecting_edge_stale_refuted.

Theorem C08_add_directed_edge_overwrite_stale_refuted :
  let g := add_directed_edge (add_directed_edge (empty_graph 2) 0 1) 1 0 in
  is_ancestor_of g 0 1 = true /\ get_edge g 0 1 = Ok (Some (Edge 1 0 TAIL ARROW)).
Proof. cbv zeta. split; vm_compute; reflexivity. Qed.
Print Assumptions C08_add_directed_edge_overwrite_stale_refuted.

(** C09a: parents and children are mutually consistent and are exactly the directed edges. *)
Theorem C09_parents_children : forall g a b, (a < gn g)%nat -> (b < gn g)%nat ->
  (In b (get_parents g a) <-> dedge g b a) /\ (In a (get_children g b) <-> dedge g b a).
Proof. intros g a b Ha Hb. split; [now apply in_parents|now apply in_children]. Qed.
Print Assumptions C09_parents_children.

(** C09b: is_parent_of / is_child_of agree with them on graphs without a tail-tail edge parallel to a
    bidirected one ([_partial]; refuted with one below). *)
Theorem C09_is_parent_of_partial : forall g a b, wf g -> simple g -> (a < gn g)%nat -> (b < gn g)%nat ->
  (is_parent_of g a b = true <-> In a (get_parents g b)) /\
  (is_child_of g b a = true <-> In b (get_children g a)).
Proof.
  intros g a b Hw Hs Ha Hb.
  assert (E : is_child_of g b a = is_parent_of g a b).
  { unfold is_child_of, is_parent_of. rewrite (andb_comm (gm g a b =? -1)). reflexivity. }
  rewrite E, in_parents, in_children by auto.
  split; apply is_parent_dedge; auto using simple_no44.
Qed.
Print Assumptions C09_is_parent_of_partial.

Theorem C09_is_parent_of_refuted :
  let g := add_edge (add_edge (empty_graph 2) (Edge 0 1 TAIL TAIL)) (Edge 0 1 ARROW ARROW) in
  is_parent_of g 0 1 = true /\ is_parent_of g 1 0 = true /\ get_parents g 1 = [] /\ get_parents g 0 = [].
Proof. cbv zeta. repeat split; vm_compute; reflexivity. Qed.
Print Assumptions C09_is_parent_of_refuted.

(** C09c: edge counters. *)
Theorem C09_edge_counts : forall g, wf g ->
  get_num_edges g = Z.of_nat (length (get_graph_edges g)) /\
  (forall i, (i < gn g)%nat ->
     get_degree g i = Z.of_nat (length (get_node_edges g i)) /\ get_num_connected_edges g i = get_degree g i) /\
  sum_over (seq 0 (gn g)) (get_degree g) = 2 * get_num_edges g.
Proof.
  intros g Hw. split; [now apply num_edges_length|]. split; [|now apply degree_sum].
  intros i Hi. now apply node_edges_length.
Qed.
Print Assumptions C09_edge_counts.

Example C09_ex : let g := fold_left gapply [AddEdge (Edge 0 1 TAIL ARROW); AddEdge (Edge 0 1 ARROW ARROW); AddEdge (Edge 1 2 CIRCLE ARROW)] (empty_graph 3) in
  wf g /\ get_num_edges g = 3.
Proof. cbv zeta. split; [apply run_wf; repeat constructor; cbn; lia|vm_compute; reflexivity]. Qed.

(** C10: get_ancestors terminates (recursion depth bounded by the number of nodes), returns no
    duplicates and exactly the nodes with a directed path into the argument. *)
Theorem C10_get_ancestors : forall g fuel vs,
  (gn g < fuel)%nat -> (forall v, In v vs -> (v < gn g)%nat) ->
  exists l, get_ancestors fuel g vs = Some l /\ NoDup l /\
    (forall x, In x l <-> exists v, In v vs /\ reach (dedge g) x v).
Proof. exact get_ancestors_correct. Qed.
Print Assumptions C10_get_ancestors.

Example C10_ex : let g := add_arcs 4 [(0,1); (1,2); (2,0); (2,3)]%nat in
  get_ancestors 5 g [1%nat] = Some [1; 0; 2]%nat.
Proof. vm_compute. reflexivity. Qed.
