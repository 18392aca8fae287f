(** Specification vocabulary for the FCI orientation rules. *)
From Verif Require Import Base EdgeModel GraphModel GraphSpec DsepSpec SkelSpec.
Local Open Scope Z_scope.

(** A partially oriented mixed graph on n nodes: at most one edge per pair, each end marked tail, arrow or circle. *)
Definition mixed (n : nat) (g : ggraph) : Prop := gn g = n /\ wf g /\ simple g.
(** The mark at y on the edge between x and y. *)
Definition arrow_at (g : ggraph) (x y : nat) : Prop := gm g y x = 1.
Definition tail_at (g : ggraph) (x y : nat) : Prop := gm g y x = -1.
Definition circle_at (g : ggraph) (x y : nat) : Prop := gm g y x = 2.
Definition adj (g : ggraph) (x y : nat) : Prop := gm g y x <> 0.

(** g' keeps every tail and arrow of g, has the same adjacencies, and may turn circles into tails or arrows. *)
Definition only_fills (n : nat) (g g' : ggraph) : Prop :=
  forall x y, (x < n)%nat -> (y < n)%nat ->
    (~ circle_at g x y -> gm g' y x = gm g y x) /\
    (circle_at g x y -> circle_at g' x y \/ arrow_at g' x y \/ tail_at g' x y).
(** Weaker: same adjacencies, and no new circle. *)
Definition no_new_circle (n : nat) (g g' : ggraph) : Prop :=
  forall x y, (x < n)%nat -> (y < n)%nat -> (adj g' x y <-> adj g x y) /\ (circle_at g' x y -> circle_at g x y).

(** a --> b *)
Definition points (g : ggraph) (a b : nat) : Prop := tail_at g b a /\ arrow_at g a b.
(** One step of a semi-directed path: an edge between a and b without an arrowhead at a. *)
Definition semi_step (n : nat) (g : ggraph) (a b : nat) : Prop := (a < n)%nat /\ (b < n)%nat /\ (tail_at g b a \/ circle_at g b a).
(** An arrowhead may stand at y on the edge between x and y: it is there already, or there is a circle and x --> y is not
    forbidden while the other end is already marked. *)
Definition may_point (forb : nat -> nat -> bool) (g : ggraph) (x y : nat) : Prop :=
  arrow_at g x y \/ (circle_at g x y /\ ~ (forb x y = true /\ ~ circle_at g y x)).
(** The test answers d-separation in the DAG D, of which only the nodes 0 .. n-1 are observed. *)
Definition latent_oracle (n : nat) (D : ggraph) (ind : nat -> nat -> list nat -> bool) : Prop :=
  (n <= gn D)%nat /\ dag D /\
  forall x y T, (x < n)%nat -> (y < n)%nat -> x <> y -> conditioning n x y T -> (ind x y T = true <-> ~ dconnected D x y T).
(** No set of observed variables separates x and y: they are adjacent in the maximal ancestral graph of D. *)
Definition inseparable (n : nat) (D : ggraph) (x y : nat) : Prop := forall T, conditioning n x y T -> dconnected D x y T.
