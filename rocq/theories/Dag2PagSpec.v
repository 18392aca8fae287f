(** What a conversion of a DAG to a PAG is asked for: the vocabulary of C105-C108. *)
From Verif Require Import Base GraphModel GraphSpec DsepSpec.

(** The observed and selection variables of a DAG; every other node is latent. *)
Definition roles (D : ggraph) (obs sel : list nat) : Prop :=
  dag D /\ NoDup obs /\ (forall x, In x obs -> x < gn D) /\ (forall x, In x sel -> x < gn D) /\ (forall x, In x obs -> ~ In x sel).
(** The procedure answers d-separation in D. *)
Definition answers_dsep (D : ggraph) (dsepd : nat -> nat -> list nat -> bool) : Prop :=
  forall x y T, x < gn D -> y < gn D -> x <> y -> ~ In x T -> ~ In y T -> (forall z, In z T -> z < gn D) ->
    (dsepd x y T = true <-> ~ dconnected D x y T).
(** Adjacent in the ancestral graph of D over the observed variables: no set of observed variables separates them, the
    selection variables being conditioned on throughout. *)
Definition mag_adjacent (D : ggraph) (obs sel : list nat) (x y : nat) : Prop :=
  forall T, (forall z, In z T -> In z obs) -> ~ In x T -> ~ In y T -> dconnected D x y (T ++ sel).
(** x is an ancestor of y or of a selection variable: the mark at x on an edge x - y of the ancestral graph is a tail. *)
Definition tail_in_mag (D : ggraph) (sel : list nat) (x y : nat) : Prop :=
  reach (dedge D) x y \/ exists s, In s sel /\ reach (dedge D) x s.
