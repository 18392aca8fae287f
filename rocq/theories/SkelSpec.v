(** Specification vocabulary for the skeleton search. *)
From Coq Require Import Permutation.
From Verif Require Import Base EdgeModel GraphModel GraphSpec DsepSpec MeekSpec.
Local Open Scope Z_scope.

(** [T] is a set of variables, none of them [x] or [y]. *)
Definition conditioning (n x y : nat) (T : list nat) : Prop :=
  NoDup T /\ forall z, In z T -> (z < n)%nat /\ z <> x /\ z <> y.
(** The verdict of the test does not depend on the order in which the conditioning set is listed. *)
Definition order_free (n : nat) (ind : nat -> nat -> list nat -> bool) : Prop :=
  forall x y T T', (x < n)%nat -> (y < n)%nat -> x <> y -> conditioning n x y T -> Permutation T T' -> ind x y T = ind x y T'.
(** The test answers exactly d-separation in the DAG [D] on the nodes 0 .. n-1. *)
Definition oracle (n : nat) (D : ggraph) (ind : nat -> nat -> list nat -> bool) : Prop :=
  gn D = n /\ dag D /\
  forall x y T, (x < n)%nat -> (y < n)%nat -> x <> y -> conditioning n x y T -> (ind x y T = true <-> ~ dconnected D x y T).
(** All edges are undirected. *)
Definition all_undirected (g : ggraph) : Prop := forall a b, joined g a b -> a <> b /\ undirected g a b.
Definition no_ban : nat -> nat -> bool := fun _ _ => false.
(** [s] and [t] are mutually inverse renumberings of the variables 0 .. n-1. *)
Definition renumbering (n : nat) (s t : nat -> nat) : Prop :=
  (forall a, (a < n)%nat -> (s a < n)%nat /\ t (s a) = a) /\ (forall a, (a < n)%nat -> (t a < n)%nat /\ s (t a) = a).
(** [ind'] gives on the renumbered variables the answers that [ind] gives on the original ones. *)
Definition renamed_test (n : nat) (s : nat -> nat) (ind ind' : nat -> nat -> list nat -> bool) : Prop :=
  forall x y T, (x < n)%nat -> (y < n)%nat -> x <> y -> conditioning n x y T -> ind' (s x) (s y) (map s T) = ind x y T.
(** [T] makes the test accept independence of x and y, and no smaller subset of [T] does. *)
Definition minimal_separator (n : nat) (ind : nat -> nat -> list nat -> bool) (x y : nat) (T : list nat) : Prop :=
  conditioning n x y T /\ ind x y T = true /\
  forall T0, NoDup T0 -> incl T0 T -> (length T0 < length T)%nat -> ind x y T0 = false.
(** [U] lists the members of the sets in [Ts]. *)
Definition union_of (Ts : list (list nat)) (U : list nat) : Prop :=
  NoDup U /\ forall z, In z U <-> exists T, In T Ts /\ In z T.
