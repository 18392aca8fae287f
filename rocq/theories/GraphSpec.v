(** Small independent specification vocabulary for mixed graphs. *)
From Verif Require Import Base EdgeModel GraphModel.
Local Open Scope Z_scope.

(** Reflexive-transitive reachability, and reachability by at least one step. *)
Inductive reach {A : Type} (R : A -> A -> Prop) : A -> A -> Prop :=
| reach_refl : forall a, reach R a a
| reach_step : forall a b c, R a b -> reach R b c -> reach R a c.

Definition reach1 {A : Type} (R : A -> A -> Prop) (a c : A) : Prop :=
  exists b, R a b /\ reach R b c.

Definition acyclic {A : Type} (R : A -> A -> Prop) : Prop := forall a, ~ reach1 R a a.

(** A directed edge i --> j is present between two nodes of the graph, alone or together
    with a bidirected edge (class comment of GeneralGraph and Endpoint.py:6-8). *)
Definition dedge (g : ggraph) (i j : nat) : Prop :=
  (i < gn g)%nat /\ (j < gn g)%nat /\
  ((gm g i j = -1 /\ gm g j i = 1) \/ (gm g i j = 4 /\ gm g j i = 5)).

(** The pairs of endpoint codes (at i, at j) an edge (or a pair of parallel edges) can have. *)
Definition legal_pairs : list (Z * Z) :=
  [(0,0); (-1,-1); (-1,1); (1,-1); (-1,2); (2,-1); (1,1); (2,2); (2,1); (1,2); (4,4); (4,5); (5,4)].

Definition legal_pair (x y : Z) : Prop := In (x, y) legal_pairs.

(** A well-formed graph: no self loops, every pair carries legal codes. *)
Definition wf (g : ggraph) : Prop :=
  (forall i, (i < gn g)%nat -> gm g i i = 0) /\
  (forall i j, (i < gn g)%nat -> (j < gn g)%nat -> legal_pair (gm g i j) (gm g j i)).

(** No parallel edges. *)
Definition simple (g : ggraph) : Prop :=
  forall i j, (i < gn g)%nat -> (j < gn g)%nat ->
    gm g i j = -1 \/ gm g i j = 0 \/ gm g i j = 1 \/ gm g i j = 2.

(** The public mutators considered, and their application. *)
Inductive gop :=
| AddEdge (e : edge) | AddDirected (i j : nat) | RemoveEdge (e : edge) | RemoveConn (i j : nat).

Definition gapply (g : ggraph) (o : gop) : ggraph :=
  match o with
  | AddEdge e => add_edge g e
  | AddDirected i j => add_directed_edge g i j
  | RemoveEdge e => remove_edge g e
  | RemoveConn i j => remove_connecting_edge g i j
  end.

(** The two nodes an operation is about. *)
Definition op_nodes (o : gop) : nat * nat :=
  match o with
  | AddEdge e | RemoveEdge e => (e_node1 e, e_node2 e)
  | AddDirected i j | RemoveConn i j => (i, j)
  end.

(** The operation names two distinct nodes of an n-node graph. *)
Definition op_on (n : nat) (o : gop) : Prop :=
  (fst (op_nodes o) < n)%nat /\ (snd (op_nodes o) < n)%nat /\ fst (op_nodes o) <> snd (op_nodes o).

Arguments legal_pair : simpl never.
