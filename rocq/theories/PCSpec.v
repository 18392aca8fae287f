(** Specification vocabulary for the orientation phase of PC. *)
From Verif Require Import Base EdgeModel GraphModel GraphSpec DsepSpec MeekSpec.
Local Open Scope Z_scope.

(** [g] is the pattern of the DAG [D]: its adjacencies; the arrows of its unshielded colliders, and no other mark. *)
Definition pattern (D g : ggraph) : Prop :=
  gn g = gn D /\
  (forall a b, joined g a b <-> joined D a b) /\
  (forall a b, directed g a b <-> exists c, ucollider D a b c) /\
  (forall a b, joined g a b -> directed g a b \/ directed g b a \/ undirected g a b).
(** x and z are both joined to y but not to each other. *)
Definition unshielded (g : ggraph) (x y z : nat) : Prop := joined g x y /\ joined g z y /\ x <> z /\ ~ joined g x z.
(** Every pair of nodes carries a directed edge, an undirected edge or nothing. *)
Definition partially_directed (g : ggraph) : Prop :=
  forall a b, joined g a b -> directed g a b \/ directed g b a \/ undirected g a b.
