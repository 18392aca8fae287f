(** What the theorems about GIN refer to. *)
From Coq Require Import Permutation.
From Verif Require Import Base EdgeModel GraphModel GraphSpec NamedModel.

(** Python walks through a set in an unknown order, visiting every element once. *)
Definition enumerates (ord : list nat -> list nat) : Prop := forall l, NoDup l -> Permutation (ord l) l.
(** Two elements are linked if a chain of clusters, each overlapping the next, leads from one to the other. *)
Definition together (cl : list (list nat)) (a b : nat) : Prop := exists c, In c cl /\ In a c /\ In b c.
Definition linked (cl : list (list nat)) : nat -> nat -> Prop := reach (together cl).

(** Edges of a graph with named nodes. *)
Definition arrow (G : ngraph) (a b : nat) : Prop := cell G a b = (-1)%Z /\ cell G b a = 1%Z.
Definition line (G : ngraph) (a b : nat) : Prop := cell G a b = (-1)%Z /\ cell G b a = (-1)%Z.
Definition apart (G : ngraph) (a b : nat) : Prop := cell G a b = 0%Z /\ cell G b a = 0%Z.
