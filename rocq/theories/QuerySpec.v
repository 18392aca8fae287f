(** What the query methods are supposed to report, in terms of the edges get_node_edges lists. *)
From Verif Require Import Base EdgeModel GraphModel GraphSpec.
Local Open Scope Z_scope.

(** The edges at node i that show mark p at i. *)
Definition shows (p : endpoint) (i : nat) (e : edge) : bool := oep_eqb (get_proximal_endpoint e i) p.
Definition count_marks (g : ggraph) (p : endpoint) (i : nat) : Z := Z.of_nat (length (filter (shows p i) (get_node_edges g i))).
(** Some edge between i and j shows mark p at i. *)
Definition has_mark (g : ggraph) (p : endpoint) (i j : nat) : Prop :=
  exists e, In e (get_node_edges g i) /\ get_distal_node e i = Some j /\ get_proximal_endpoint e i = Some p.
(** No bidirected edge lies parallel to an edge with a tail at i. *)
Definition no_parallel_tail (g : ggraph) (i : nat) : Prop := forall j, (j < gn g)%nat -> gm g i j <> 4.
