(** Specification vocabulary for greedy equivalence search, independent of the search. *)
From Verif Require Import Base EdgeModel GraphModel GraphSpec DsepSpec MeekSpec CpdagSpec.
Local Open Scope Z_scope.

(** The score of a DAG: the sum over the variables of the local score given the parents (lower is better). *)
Definition parents (D : ggraph) (v : nat) : list nat := filter (fun p => gm D v p =? 1) (seq 0 (gn D)).
Definition dag_score (sc : nat -> list nat -> Z) (D : ggraph) : Z :=
  fold_right Z.add 0 (map (fun v => sc v (parents D v)) (seq 0 (gn D))).

(** Equivalent DAGs on n nodes have the same score. *)
Definition score_equivalent (n : nat) (sc : nat -> list nat -> Z) : Prop :=
  forall D D', gn D = n -> equivalent D D' -> dag_score sc D = dag_score sc D'.

(** [D'] is the DAG obtained from [D] by adding (resp. removing) the edge x --> y. *)
Definition adds (D : ggraph) (x y : nat) (D' : ggraph) : Prop :=
  gn D' = gn D /\ dag D' /\ (x < gn D)%nat /\ (y < gn D)%nat /\ ~ joined D x y /\
  forall a b, directed D' a b <-> directed D a b \/ (a = x /\ b = y).
Definition drops (D : ggraph) (x y : nat) (D' : ggraph) : Prop :=
  gn D' = gn D /\ dag D' /\ directed D x y /\
  forall a b, directed D' a b <-> directed D a b /\ ~ (a = x /\ b = y).

(** A step along a directed edge in its direction, or along an undirected edge. *)
Definition semi_step (C : ggraph) (a b : nat) : Prop := directed C a b \/ undirected C a b.

(** [P] is [C] after the operator Insert(x, y, T): the edge x --> y is added and t --- y becomes t --> y for t in T. *)
Definition inserted (C : ggraph) (x y : nat) (T : list nat) (P : ggraph) : Prop :=
  gn P = gn C /\ wf P /\
  (forall a b, joined P a b -> directed P a b \/ directed P b a \/ undirected P a b) /\
  (forall a b, joined P a b <-> joined C a b \/ (a = x /\ b = y) \/ (a = y /\ b = x)) /\
  (forall a b, directed P a b <-> directed C a b \/ (a = x /\ b = y) \/ (In a T /\ b = y)).
(** [P] is [C] after the operator Delete(x, y, H): the edge between x and y is removed, and h --- y and h --- x (if any)
    become y --> h and x --> h for h in H. *)
Definition deleted (C : ggraph) (x y : nat) (H : list nat) (P : ggraph) : Prop :=
  gn P = gn C /\ wf P /\
  (forall a b, joined P a b -> directed P a b \/ directed P b a \/ undirected P a b) /\
  (forall a b, joined P a b <-> joined C a b /\ ~ (a = x /\ b = y) /\ ~ (a = y /\ b = x)) /\
  (forall a b, directed P a b <-> (directed C a b /\ ~ (a = x /\ b = y)) \/ ((a = x \/ a = y) /\ In b H)).

(** A run of a hill climber over equivalence classes: it starts at the completed graph [C]; each entry (x, y) of the list
    changes some member DAG of the current class by one edge x --> y and strictly lowers the score; the list of scores holds
    the score of every class visited, the first and the last included; the run ends at the last graph. *)
Inductive climbs (change : ggraph -> nat -> nat -> ggraph -> Prop) (sc : nat -> list nat -> Z) :
    ggraph -> list (nat * nat) -> list Z -> ggraph -> Prop :=
| climbs_stop C D : dag D -> completed D C -> climbs change sc C [] [dag_score sc D] C
| climbs_step C G x y G' C' us ss E : dag G -> completed G C -> change G x y G' -> completed G' C' ->
    dag_score sc G' < dag_score sc G -> climbs change sc C' us ss E ->
    climbs change sc C ((x, y) :: us) (dag_score sc G :: ss) E.

(** A walk over equivalence classes, without regard to scores: each entry changes some member of the current class by one edge. *)
Inductive walks (change : ggraph -> nat -> nat -> ggraph -> Prop) : ggraph -> list (nat * nat) -> ggraph -> Prop :=
| walks_stop C D : dag D -> completed D C -> walks change C [] C
| walks_step C G x y G' C' us E : dag G -> completed G C -> change G x y G' -> completed G' C' ->
    walks change C' us E -> walks change C ((x, y) :: us) E.
