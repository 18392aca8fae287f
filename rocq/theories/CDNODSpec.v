(** Specification vocabulary for CD-NOD. *)
From Verif Require Import Base EdgeModel GraphModel GraphSpec DsepSpec MeekSpec CpdagSpec.
Local Open Scope Z_scope.

(** c has no parent. *)
Definition root (D : ggraph) (c : nat) : Prop := forall a, ~ directed D a c.
(** [C] shows exactly what is common to the DAGs that are equivalent to [D] and in which [c] has no parent. *)
Definition completed_root (D : ggraph) (c : nat) (C : ggraph) : Prop :=
  gn C = gn D /\ wf C /\
  (forall a b, joined C a b <-> joined D a b) /\
  (forall a b, joined C a b -> directed C a b \/ directed C b a \/ undirected C a b) /\
  (forall a b, directed C a b <-> joined D a b /\ forall D', equivalent D D' -> root D' c -> directed D' a b) /\
  (forall a b, undirected C a b <-> joined D a b /\
     (exists D', equivalent D D' /\ root D' c /\ directed D' a b) /\ (exists D', equivalent D D' /\ root D' c /\ directed D' b a)).
