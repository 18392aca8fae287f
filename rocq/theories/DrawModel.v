(** Model of the conversions of a graph for drawing: GraphUtils.to_pgv and to_pydot, GraphClass.to_nx_graph and to_nx_skeleton, PC.matrix_diff. *)
From Verif Require Import Base EdgeModel GraphModel MeekModel PCModel.
Local Open Scope Z_scope.

Inductive arrowtype := NoTip | Normal | Odot.
(** GraphUtils.py:485-493 and 548-556 get_g_arrow_type; None: NotImplementedError. *)
Definition g_arrow_type (p : endpoint) : option arrowtype := match p with TAIL => Some NoTip | ARROW => Some Normal | CIRCLE => Some Odot | _ => None end.
(** A drawn edge: the ids of the two ends, arrowtail (at the first) and arrowhead (at the second). *)
Record drawn := mkD { d_from : nat; d_to : nat; d_tail : arrowtype; d_head : arrowtype }.
Definition draw (e : edge) : option drawn := match g_arrow_type (e_end1 e), g_arrow_type (e_end2 e) with Some a, Some b => Some (mkD (e_node1 e) (e_node2 e) a b) | _, _ => None end.
Fixpoint collect {A} (l : list (option A)) : option (list A) := match l with [] => Some [] | x :: r => match x, collect r with Some a, Some s => Some (a :: s) | _, _ => None end end.
(** GraphUtils.py:558-575 the edges of to_pydot: one for each edge of the graph.  Colours, widths, labels and node shapes are not modelled. *)
Definition to_pydot (g : ggraph) : option (list drawn) := collect (map draw (get_graph_edges g)).
(** GraphUtils.py:495-507 to_pgv: a strict AGraph holds one edge from one node to another, so that adding a second one gives the first again, whose tips are then written over. *)
Fixpoint strict_add (l : list drawn) (d : drawn) : list drawn :=
  match l with [] => [d] | x :: r => if Nat.eqb (d_from x) (d_from d) && Nat.eqb (d_to x) (d_to d) then d :: r else x :: strict_add r d end.
Definition to_pgv (g : ggraph) : option (list drawn) := option_map (fun l => fold_left strict_add l []) (collect (map draw (get_graph_edges g))).

(** A networkx.DiGraph: its edges with their colours; adding an edge again changes the colour. *)
Inductive color := Green | Blue | Red.
Definition nxg := nat -> nat -> option color.
Definition nx_add (c : color) (x : nxg) (e : nat * nat) : nxg := fun i j => if Nat.eqb i (fst e) && Nat.eqb j (snd e) then Some c else x i j.
(** GraphClass.py:151-164 to_nx_graph, on the nx_graph the object has (empty at first). *)
Definition to_nx_graph (g : ggraph) (x : nxg) : nxg :=
  fold_left (nx_add Red) (find_bi_directed g) (fold_left (nx_add Blue) (find_fully_directed g) (fold_left (nx_add Green) (find_undirected g) x)).
(** GraphClass.py:166-172 to_nx_skeleton: the edges of an undirected networkx.Graph, an edge from i to j being one from j to i. *)
Definition to_nx_skeleton (g : ggraph) (x : nat -> nat -> bool) : nat -> nat -> bool :=
  fold_left (fun x e i j => (Nat.eqb i (fst e) && Nat.eqb j (snd e)) || (Nat.eqb j (fst e) && Nat.eqb i (snd e)) || x i j) (filter (fun e => Nat.ltb (fst e) (snd e)) (find_adj g)) x.
(** PC.py:483-497 matrix_diff of two graphs over n nodes (get_adjacancy_matrix: 1 where there is an edge): the cells that differ; the first result is half their number. *)
Definition has_edge (x : nxg) (i j : nat) : bool := match x i j with Some _ => true | None => false end.
Definition matrix_diff (n : nat) (x y : nxg) : list (nat * nat) := filter (fun c => negb (Bool.eqb (has_edge x (fst c) (snd c)) (has_edge y (fst c) (snd c)))) (cells n).
