(** C01: property theorems about edges. *)
From Verif Require Import Base EdgeModel EdgeProofs.
Local Open Scope Z_scope.

(** C01a: whatever internal flip the constructor makes, the edge shows the requested mark at each node. *)
Theorem C01_edge_marks : forall a b ea eb, a <> b ->
  get_proximal_endpoint (Edge a b ea eb) a = Some ea /\
  get_proximal_endpoint (Edge a b ea eb) b = Some eb /\
  (forall c, c <> a -> c <> b -> get_proximal_endpoint (Edge a b ea eb) c = None).
Proof. exact Edge_proximal. Qed.
Print Assumptions C01_edge_marks.

Example C01_edge_marks_ex : get_proximal_endpoint (Edge 3 5 ARROW CIRCLE) 3 = Some ARROW
  /\ e_node1 (Edge 3 5 ARROW CIRCLE) = 5%nat.
Proof. split; reflexivity. Qed.

(** C01b: an edge with exactly one arrowhead facing a tail or circle is the same object
    whichever way round it is written. *)
Theorem C01_edge_mirror : forall a b ea eb,
  (ea = ARROW /\ (eb = TAIL \/ eb = CIRCLE)) \/ (eb = ARROW /\ (ea = TAIL \/ ea = CIRCLE)) ->
  Edge a b ea eb = Edge b a eb ea.
Proof.
  intros a b ea eb H. apply Edge_mirror.
  destruct H as [[-> [-> | ->]]|[-> [-> | ->]]]; cbn; auto.
Qed.
Print Assumptions C01_edge_mirror.

Example C01_edge_mirror_ex : Edge 3 5 ARROW TAIL = Edge 5 3 TAIL ARROW.
Proof. reflexivity. Qed.

(** C01c: no history of constructor and endpoint updates leaves an edge pointing left. *)
Theorem C01_edge_never_points_left : forall ops a b ea eb,
  let e := fold_left eapply ops (Edge a b ea eb) in
  ~ (e_end1 e = ARROW /\ (e_end2 e = TAIL \/ e_end2 e = CIRCLE)).
Proof.
  intros ops a b ea eb e [H1 H2].
  pose proof (updates_canonical ops a b ea eb) as HC. cbn zeta in HC. fold e in HC.
  rewrite H1 in HC. destruct H2 as [H2|H2]; rewrite H2 in HC; discriminate HC.
Qed.
Print Assumptions C01_edge_never_points_left.

(** C01d: a setter changes exactly the mark it names (the other node keeps its mark),
    also when the update flips the edge. *)
Theorem C01_set_endpoint1_marks : forall e p, e_node1 e <> e_node2 e ->
  get_proximal_endpoint (set_endpoint1 e p) (e_node1 e) = Some p /\
  (forall n, n <> e_node1 e -> get_proximal_endpoint (set_endpoint1 e p) n = get_proximal_endpoint e n).
Proof. exact set1_marks. Qed.
Print Assumptions C01_set_endpoint1_marks.

Theorem C01_set_endpoint2_marks : forall e p, e_node1 e <> e_node2 e ->
  get_proximal_endpoint (set_endpoint2 e p) (e_node2 e) = Some p /\
  (forall n, n <> e_node2 e -> get_proximal_endpoint (set_endpoint2 e p) n = get_proximal_endpoint e n).
Proof. exact set2_marks. Qed.
Print Assumptions C01_set_endpoint2_marks.

Example C01_set_ex : e_node1 (set_endpoint1 (Edge 0 1 CIRCLE CIRCLE) ARROW) = 1%nat /\
  get_proximal_endpoint (set_endpoint1 (Edge 0 1 CIRCLE CIRCLE) ARROW) 0 = Some ARROW.
Proof. split; reflexivity. Qed.

(** C01e: the numeric endpoint codes (used by remove_edge) follow the endpoints through the
    constructor and set_endpoint1 ... *)
Theorem C01_numeric_codes_follow_set1 : forall e p,
  e_num1 e = ev (e_end1 e) /\ e_num2 e = ev (e_end2 e) ->
  p = TAIL \/ p = ARROW \/ p = CIRCLE ->
  e_num1 (set_endpoint1 e p) = ev (e_end1 (set_endpoint1 e p)) /\
  e_num2 (set_endpoint1 e p) = ev (e_end2 (set_endpoint1 e p)).
Proof. exact set1_sync. Qed.
Print Assumptions C01_numeric_codes_follow_set1.

Example C01_numeric_ex : e_num1 (Edge 0 1 ARROW TAIL) = ev (e_end1 (Edge 0 1 ARROW TAIL)).
Proof. reflexivity. Qed.

(** ... but not through set_endpoint2: re-asserting the arrowhead of a directed edge 0 --> 1
    silently turns its tail code into an arrow code (Edge.py:137 tests the wrong end), although
    the edge still prints as -->. *)
Theorem C01_numeric_codes_follow_set2_refuted :
  exists e p, e_num1 e = ev (e_end1 e) /\ e_num2 e = ev (e_end2 e) /\ p = ARROW /\
    e_end1 (set_endpoint2 e p) = TAIL /\ e_num1 (set_endpoint2 e p) = ev ARROW.
Proof. exists (Edge 0 1 TAIL ARROW), ARROW. repeat split. Qed.
Print Assumptions C01_numeric_codes_follow_set2_refuted.

(** The true part for set_endpoint2: everything except that one case. *)
Theorem C01_numeric_codes_follow_set2_partial : forall e p,
  e_num1 e = ev (e_end1 e) /\ e_num2 e = ev (e_end2 e) ->
  p = TAIL \/ p = ARROW \/ p = CIRCLE ->
  ~ (p = ARROW /\ e_end2 e = ARROW /\ e_end1 e <> ARROW) ->
  e_num1 (set_endpoint2 e p) = ev (e_end1 (set_endpoint2 e p)) /\
  e_num2 (set_endpoint2 e p) = ev (e_end2 (set_endpoint2 e p)).
Proof. exact set2_sync. Qed.
Print Assumptions C01_numeric_codes_follow_set2_partial.
