(** Markov blankets, stated on a DAG. *)
From Verif Require Import Base EdgeModel GraphModel GraphSpec DsepSpec.

(** the textbook Markov blanket: the parents, the children and the other parents of the children *)
Definition blanket (g : ggraph) (t x : nat) : Prop :=
  x <> t /\ (dedge g x t \/ dedge g t x \/ exists c, dedge g t c /\ dedge g x c).

(** the test answers "dependent" (p <= alpha) exactly for d-connected pairs *)
Definition dsep_test (g : ggraph) (pv : nat -> nat -> list nat -> Z) (alpha : Z) : Prop :=
  forall t x Z, t < gn g -> x < gn g -> t <> x -> ~ In t Z -> ~ In x Z -> (forall z, In z Z -> z < gn g) ->
    ((pv t x Z <= alpha)%Z <-> dconnected g t x Z).
