(** Markov equivalence of DAGs in terms of independence: the same d-separations. *)
From Verif Require Import Base EdgeModel GraphModel GraphSpec DsepSpec SkelSpec.

(** Over all pairs of distinct nodes x, y and all sets T of other nodes, x and y are d-separated given T in both graphs or in neither. *)
Definition same_separations (g1 g2 : ggraph) : Prop :=
  forall x y T, (x < gn g1)%nat -> (y < gn g1)%nat -> x <> y -> (forall z, In z T -> (z < gn g1)%nat /\ z <> x /\ z <> y) ->
    dconnected g1 x y T <-> dconnected g2 x y T.
