(** C265: the helper class Edges (Edges.py:14-65) and == on edges (Edge.py:201-205). *)
From Verif Require Import Base EdgeModel EdgeProofs.
Local Open Scope Z_scope.

(** The predicates say which marks an edge was made with, whichever way round it was written. *)
Theorem C265_kinds : forall a b p q,
  (is_directed_edge (Edge a b p q) = true <-> (p = TAIL /\ q = ARROW) \/ (p = ARROW /\ q = TAIL)) /\
  (is_partially_oriented_edge (Edge a b p q) = true <-> (p = CIRCLE /\ q = ARROW) \/ (p = ARROW /\ q = CIRCLE)) /\
  (is_bidirected_edge (Edge a b p q) = true <-> p = ARROW /\ q = ARROW) /\
  (is_undirected_edge (Edge a b p q) = true <-> p = TAIL /\ q = TAIL).
Proof. intros a b p q. destruct p, q; cbn; intuition congruence. Qed.

(** Each constructor makes an edge of its own kind, with its marks at its nodes, and of no other kind. *)
Theorem C265_constructors : forall a b, a <> b ->
  (get_proximal_endpoint (directed_edge a b) a = Some TAIL /\ get_proximal_endpoint (directed_edge a b) b = Some ARROW) /\
  (get_proximal_endpoint (partially_oriented_edge a b) a = Some CIRCLE /\ get_proximal_endpoint (partially_oriented_edge a b) b = Some ARROW) /\
  (get_proximal_endpoint (bidirected_edge a b) a = Some ARROW /\ get_proximal_endpoint (bidirected_edge a b) b = Some ARROW) /\
  (get_proximal_endpoint (undirected_edge a b) a = Some TAIL /\ get_proximal_endpoint (undirected_edge a b) b = Some TAIL) /\
  map (fun e => [is_directed_edge e; is_partially_oriented_edge e; is_bidirected_edge e; is_undirected_edge e])
    [directed_edge a b; partially_oriented_edge a b; bidirected_edge a b; undirected_edge a b] =
    [[true; false; false; false]; [false; true; false; false]; [false; false; true; false]; [false; false; false; true]].
Proof.
  intros a b N. unfold directed_edge, partially_oriented_edge, bidirected_edge, undirected_edge. repeat split; try (apply Edge_proximal, N).
Qed.

(** traverse_directed goes from the tail to the arrowhead of a directed edge and nowhere else. *)
Theorem C265_traverse : forall a b p q c, a <> b ->
  traverse_directed c (Edge a b p q) =
    (if Nat.eqb c a then (if ep_eqb p TAIL && ep_eqb q ARROW then Some b else None)
     else if Nat.eqb c b then (if ep_eqb p ARROW && ep_eqb q TAIL then Some a else None) else None).
Proof.
  intros a b p q c N. destruct p, q; cbn; unfold traverse_directed; cbn;
    destruct (Nat.eqb_spec c a) as [Ea|Na], (Nat.eqb_spec c b) as [Eb|Nb]; congruence.
Qed.

(** The same for an edge object with any field values (the fields are public), not only those the constructor leaves. *)
Theorem C265_any_fields : forall a b p q x y c,
  let e := mkE a b p q x y in
  (is_directed_edge e = true <-> (p = TAIL /\ q = ARROW) \/ (p = ARROW /\ q = TAIL)) /\
  (is_partially_oriented_edge e = true <-> (p = CIRCLE /\ q = ARROW) \/ (p = ARROW /\ q = CIRCLE)) /\
  traverse_directed c e =
     (if Nat.eqb c a then (if ep_eqb p TAIL && ep_eqb q ARROW then Some b else None)
      else if Nat.eqb c b then (if ep_eqb p ARROW && ep_eqb q TAIL then Some a else None) else None).
Proof.
  intros a b p q x y c. cbn zeta. unfold traverse_directed. cbn [e_node1 e_node2 e_end1 e_end2].
  split; [destruct p, q; cbn; intuition congruence|]. split; [destruct p, q; cbn; intuition congruence|].
  destruct (Nat.eqb c a), (Nat.eqb c b); try reflexivity; destruct p, q; reflexivity.
Qed.

(** == holds exactly between edges that are equal in every field; *)
Lemma ep_eqb_spec p q : ep_eqb p q = true <-> p = q.
Proof. destruct p, q; cbn; split; congruence. Qed.
Theorem C265_equality : forall a b p q c d r s,
  edge_eqb (Edge a b p q) (Edge c d r s) = true <-> Edge a b p q = Edge c d r s.
Proof.
  intros a b p q c d r s.
  assert (S : forall x y u v, e_num1 (Edge x y u v) = ev (e_end1 (Edge x y u v)) /\ e_num2 (Edge x y u v) = ev (e_end2 (Edge x y u v))) by (intros x y u v; unfold Edge; destruct (pointing_left u v); split; reflexivity).
  unfold edge_eqb. rewrite !andb_true_iff, !ep_eqb_spec, !Nat.eqb_eq. split.
  - intros [[[H1 H2] H3] H4]. destruct (S a b p q) as [S1 S2], (S c d r s) as [S3 S4]. destruct (Edge a b p q), (Edge c d r s). cbn in *. congruence.
  - intros ->. repeat split.
Qed.
(** so an edge written the other way round is == only if it has one arrowhead, facing a tail or a circle: for every other pair of marks the same edge
    written twice is two different edges. *)
Theorem C265_mirror_equality_refuted : forall a b p q, a <> b ->
  (edge_eqb (Edge a b p q) (Edge b a q p) = true <-> (p = ARROW /\ (q = TAIL \/ q = CIRCLE)) \/ (q = ARROW /\ (p = TAIL \/ p = CIRCLE))) /\
  edge_eqb (undirected_edge a b) (undirected_edge b a) = false /\ edge_eqb (bidirected_edge a b) (bidirected_edge b a) = false.
Proof.
  intros a b p q N. assert (E : Nat.eqb a b = false) by now apply Nat.eqb_neq. split; [|unfold undirected_edge, bidirected_edge, edge_eqb; cbn; rewrite E; split; reflexivity].
  unfold edge_eqb. destruct p, q; cbn; rewrite ?E, ?Nat.eqb_refl; cbn; intuition congruence.
Qed.
Example C265_case : is_directed_edge (Edge 1 2 ARROW TAIL) = true /\ traverse_directed 2 (Edge 1 2 ARROW TAIL) = Some 1%nat /\ traverse_directed 1 (Edge 1 2 ARROW TAIL) = None /\
  edge_eqb (Edge 1 2 ARROW TAIL) (directed_edge 2 1) = true.
Proof. repeat split. Qed.
