(** Textbook d-separation on a DAG, stated on paths with distinct nodes. *)
From Verif Require Import Base EdgeModel GraphModel GraphSpec.
Local Open Scope Z_scope.

(** A directed acyclic graph: every adjacent pair carries exactly one directed edge, and there is no directed cycle. *)
Definition dag (g : ggraph) : Prop :=
  wf g /\ acyclic (dedge g) /\
  forall i j, (i < gn g)%nat -> (j < gn g)%nat -> gm g i j <> 0 -> (gm g i j = -1 /\ gm g j i = 1) \/ (gm g i j = 1 /\ gm g j i = -1).

Definition adjacent (g : ggraph) (a b : nat) : Prop := dedge g a b \/ dedge g b a.

(** The middle node of a, b, c lets dependence through given Z: a collider with a descendant (or itself) in Z,
    or a non-collider outside Z. *)
Definition opens (g : ggraph) (Z : list nat) (a b c : nat) : Prop :=
  (dedge g a b /\ dedge g c b /\ exists z, In z Z /\ reach (dedge g) b z) \/
  (~ (dedge g a b /\ dedge g c b) /\ ~ In b Z).

(** Consecutive nodes are adjacent and every consecutive triple is open. *)
Definition active (g : ggraph) (Z : list nat) (p : list nat) : Prop :=
  (forall l a b r, p = l ++ a :: b :: r -> adjacent g a b) /\
  (forall l a b c r, p = l ++ a :: b :: c :: r -> opens g Z a b c).

(** x and y are d-connected given Z: an active path with distinct nodes joins them. *)
Definition dconnected (g : ggraph) (x y : nat) (Z : list nat) : Prop :=
  exists m, NoDup (x :: m ++ [y]) /\ active g Z (x :: m ++ [y]).
