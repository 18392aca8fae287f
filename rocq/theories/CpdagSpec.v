(** Markov equivalence of DAGs, graphically: same nodes, same adjacencies, same unshielded colliders. *)
From Verif Require Import Base EdgeModel GraphModel GraphSpec DsepSpec MeekSpec.
Local Open Scope Z_scope.

Definition equivalent (D D' : ggraph) : Prop :=
  gn D' = gn D /\ dag D /\ dag D' /\
  (forall a b, joined D a b <-> joined D' a b) /\
  (forall a b c, ucollider D a b c <-> ucollider D' a b c).

(** [C] is the completed partially directed graph of [D]: the adjacencies of [D]; an edge is directed exactly when
    every DAG equivalent to [D] directs it that way; every other edge is undirected. *)
Definition completed (D C : ggraph) : Prop :=
  gn C = gn D /\ wf C /\
  (forall a b, joined C a b <-> joined D a b) /\
  (forall a b, joined C a b -> directed C a b \/ directed C b a \/ undirected C a b) /\
  (forall a b, directed C a b <-> joined D a b /\ forall D', equivalent D D' -> directed D' a b) /\
  (forall a b, undirected C a b <-> joined D a b /\
     (exists D', equivalent D D' /\ directed D' a b) /\ (exists D', equivalent D D' /\ directed D' b a)).
