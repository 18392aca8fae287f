(** What an adjacency matrix of Helper.py says, and what the finders should list. *)
From Verif Require Import Base EdgeModel GraphModel GraphSpec DsepSpec MeekSpec.
Local Open Scope Z_scope.

(** The matrix [A] of size [n] draws the graph [g]: A[i, j] is 1 for an arrowhead at j on the edge i - j, 0 for a tail there, and -1 when i and j
    are not adjacent.  Nothing is asked of the diagonal except that it is not 0 or 1 when [g] has no self loop. *)
Definition draws (n : nat) (A : mat) (g : ggraph) : Prop :=
  gn g = n /\
  forall i j, (i < n)%nat -> (j < n)%nat ->
    (A i j = 1 <-> gm g j i = 1) /\ (A i j = 0 <-> gm g j i = -1) /\ (i <> j -> (A i j = -1 <-> gm g j i = 0)).
(** x and y are different, adjacent nodes. *)
Definition linked (n : nat) (A : mat) (x y : nat) : Prop := (x < n)%nat /\ (y < n)%nat /\ (A x y = 0 \/ A x y = 1).
(** Off the diagonal the entries are -1, 0 or 1 and say of both i - j and j - i whether there is an edge; the diagonal is blank (-1 or NaN). *)
Definition adjmat (n : nat) (A : mat) : Prop :=
  forall i j, (i < n)%nat -> (j < n)%nat ->
    (i = j -> A i j <> 0 /\ A i j <> 1) /\
    (i <> j -> (A i j = -1 \/ A i j = 0 \/ A i j = 1) /\ (A i j = -1 <-> A j i = -1)).
