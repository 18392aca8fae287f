(** Specification vocabulary for orienting partially directed graphs, independent of the algorithms. *)
From Verif Require Import Base EdgeModel GraphModel GraphSpec DsepSpec.
Local Open Scope Z_scope.

(** a --- b *)
Definition undirected (g : ggraph) (a b : nat) : Prop :=
  (a < gn g)%nat /\ (b < gn g)%nat /\ gm g a b = -1 /\ gm g b a = -1.
(** a --> b *)
Definition directed (g : ggraph) (a b : nat) : Prop :=
  (a < gn g)%nat /\ (b < gn g)%nat /\ gm g a b = -1 /\ gm g b a = 1.
(** a and b are joined by some edge. *)
Definition joined (g : ggraph) (a b : nat) : Prop :=
  (a < gn g)%nat /\ (b < gn g)%nat /\ gm g a b <> 0.
(** a *-> b <-* c with a and c not joined. *)
Definition ucollider (g : ggraph) (a b c : nat) : Prop :=
  (a < gn g)%nat /\ (b < gn g)%nat /\ (c < gn g)%nat /\ a <> c /\ gm g b a = 1 /\ gm g b c = 1 /\
  gm g a b <> 0 /\ gm g c b <> 0 /\ gm g a c = 0.

(** [D] is a consistent extension of [g]: a DAG on the same nodes and adjacencies that keeps every directed edge
    and has no unshielded collider that [g] does not have. *)
Definition extension (g D : ggraph) : Prop :=
  gn D = gn g /\ dag D /\
  (forall a b, joined D a b <-> joined g a b) /\
  (forall a b, directed g a b -> directed D a b) /\
  (forall a b c, ucollider D a b c -> ucollider g a b c).

(** [g'] differs from [g] only in that some undirected edges have become directed. *)
Definition only_orients (g g' : ggraph) : Prop :=
  gn g' = gn g /\
  forall a b, (a < gn g)%nat -> (b < gn g)%nat ->
    (gm g' a b = gm g a b /\ gm g' b a = gm g b a) \/
    (undirected g a b /\ (directed g' a b \/ directed g' b a)).

(** The three rules, as configurations that call for the orientation of a --- b into a --> b. *)
Inductive calls_for (g : ggraph) : nat -> nat -> Prop :=
| calls1 : forall i a b, directed g i a -> undirected g a b -> gm g i b = 0 -> i <> b -> calls_for g a b
| calls2 : forall a j b, directed g a j -> directed g j b -> undirected g a b -> calls_for g a b
| calls3 : forall a j k b, undirected g a j -> undirected g a k -> directed g j b -> directed g k b ->
    undirected g a b -> j <> k -> gm g j k = 0 -> calls_for g a b.
