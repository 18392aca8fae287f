(** Model of causallearn/graph/GeneralGraph.py over node indices.

    Nodes are represented by their index: every method of the class first maps
    its node arguments through [node_map].  The node list / node_map bookkeeping itself
    (add_node, remove_node, set_nodes, subgraph, __eq__) is in NamedGraphModel.v. *)
From Verif Require Import Base EdgeModel.
Local Open Scope Z_scope.

(** GeneralGraph.py:26-40: num_vars, graph, dpath. *)
Record ggraph : Type := mkG { gn : nat; gm : mat; gd : mat }.

Definition set_gm (g : ggraph) (m : mat) : ggraph := mkG (gn g) m (gd g).
Definition set_gd (g : ggraph) (d : mat) : ggraph := mkG (gn g) (gm g) d.

(** GeneralGraph.py:53-64 adjust_dpath (in-place updates inside the loop over k). *)
Definition adjust_step (i j : nat) (d : mat) (k : nat) : mat :=
  let d1 := if d i k =? 1 then upd d j k 1 else d in
  if d1 k j =? 1 then upd d1 k i 1 else d1.
Definition adjust_dpath (n : nat) (d : mat) (i j : nat) : mat :=
  fold_left (adjust_step i j) (seq 0 n) (upd d j i 1).

(** GeneralGraph.py:515-519 is_parent_of *)
Definition is_parent_of (g : ggraph) (i j : nat) : bool :=
  ((gm g j i =? 1) && (gm g i j =? -1)) || (gm g i j =? 4).

(** GeneralGraph.py:508-512 is_child_of *)
Definition is_child_of (g : ggraph) (i j : nat) : bool :=
  ((gm g j i =? -1) && (gm g i j =? 1)) || (gm g j i =? 4).

(** GeneralGraph.py:66-80 reconstitute_dpath; [edges.pop()] takes edges from the end. *)
Definition recon_init (n : nat) : mat :=
  fold_left (fun d i => adjust_dpath n d i i) (seq 0 n) zeros.
Definition recon_step (g : ggraph) (d : mat) (e : edge) : mat :=
  let i := e_node1 e in let j := e_node2 e in
  if is_parent_of g i j then adjust_dpath (gn g) d i j
  else if is_parent_of g j i then adjust_dpath (gn g) d j i else d.
Definition reconstitute_dpath (g : ggraph) (edges : list edge) : ggraph :=
  set_gd g (fold_left (recon_step g) (rev edges) (recon_init (gn g))).

(** GeneralGraph.py:26-49 __init__ (attribute bags and triple lists are not modelled). *)
Definition empty_graph (n : nat) : ggraph := reconstitute_dpath (mkG n zeros zeros) [].

(** GeneralGraph.py:97-103 *)
Definition add_directed_edge (g : ggraph) (i j : nat) : ggraph :=
  mkG (gn g) (upd2 (gm g) i j 1 (-1)) (adjust_dpath (gn g) (gd g) i j).

(** What add_edge returns: True, False or (falling off the end) None. *)
Inductive addret := RTrue | RFalse | RNone.

(** GeneralGraph.py:107-192.  The [return True] on line 192 is inside the outer
    [else], so a successful TAIL-first insertion returns None. *)
Definition add_edge_full (g : ggraph) (e : edge) : ggraph * addret :=
  let i := e_node1 e in let j := e_node2 e in
  let m := gm g in
  let e1 := m i j in let e2 := m j i in
  let bidirected := (e2 =? 1) && (e1 =? 1) in
  let existing := negb bidirected && (negb (e2 =? 0) || negb (e1 =? 0)) in
  match e_end1 e with
  | TAIL =>
      if existing then (g, RFalse) else
      match e_end2 e with
      | TAIL =>
          if bidirected then (set_gm g (upd2 m i j 4 4), RNone)
          else (set_gm g (upd2 m i j (-1) (-1)), RNone)
      | ARROW =>
          let m' := if bidirected then upd2 m i j 5 4 else upd2 m i j 1 (-1) in
          (mkG (gn g) m' (adjust_dpath (gn g) (gd g) i j), RNone)
      | CIRCLE =>
          if bidirected then (g, RFalse) else (set_gm g (upd2 m i j 2 (-1)), RNone)
      | _ => (g, RFalse)
      end
  | ARROW =>
      match e_end2 e with
      | ARROW =>
          if existing then
            if (e1 =? 2) || (e2 =? 2) then (g, RFalse)
            else
              let m1 := upd m j i (if m j i =? 1 then 5 else 4) in
              let m2 := upd m1 i j (if m1 i j =? 1 then 5 else 4) in
              (set_gm g m2, RTrue)
          else (set_gm g (upd2 m i j 1 1), RTrue)
      | _ => (g, RFalse)
      end
  | CIRCLE =>
      if existing then (g, RFalse) else
      match e_end2 e with
      | ARROW => if bidirected then (g, RFalse) else (set_gm g (upd2 m i j 1 2), RTrue)
      | CIRCLE => if bidirected then (g, RFalse) else (set_gm g (upd2 m i j 2 2), RTrue)
      | _ => (g, RFalse)
      end
  | _ => (g, RFalse)
  end.

Definition add_edge (g : ggraph) (e : edge) : ggraph := fst (add_edge_full g e).

(** GeneralGraph.py:234-296 *)
Definition contains_edge (g : ggraph) (e : edge) : bool :=
  let i := e_node1 e in let j := e_node2 e in
  let e1 := gm g i j in let e2 := gm g j i in
  match e_end1 e, e_end2 e with
  | TAIL, TAIL => ((e2 =? -1) && (e1 =? -1)) || ((e2 =? 4) && (e1 =? 4))
  | TAIL, ARROW => ((e1 =? -1) && (e2 =? 1)) || ((e1 =? 4) && (e2 =? 5))
  | TAIL, CIRCLE => (e1 =? -1) && (e2 =? 2)
  | ARROW, ARROW =>
      ((e1 =? 1) && (e2 =? 1)) || ((e1 =? 4) && (e2 =? 4)) || ((e1 =? 5) || (e2 =? 5))
  | CIRCLE, ARROW => (e1 =? 2) && (e2 =? 1)
  | CIRCLE, CIRCLE => (e1 =? 2) && (e2 =? 2)
  | _, _ => false
  end.

(** GeneralGraph.py:343-352 *)
Definition get_adjacent_nodes (g : ggraph) (j : nat) : list nat :=
  filter (fun i => negb (gm g j i =? 0) && negb (gm g i j =? 0)) (seq 0 (gn g)).

(** GeneralGraph.py:355-366 *)
Definition get_parents (g : ggraph) (j : nat) : list nat :=
  filter (fun i => ((gm g i j =? -1) && (gm g j i =? 1)) || ((gm g i j =? 4) && (gm g j i =? 5)))
         (seq 0 (gn g)).

(** GeneralGraph.py:381-392 *)
Definition get_children (g : ggraph) (i : nat) : list nat :=
  filter (fun j => ((gm g j i =? 1) && (gm g i j =? -1)) || ((gm g j i =? 5) && (gm g i j =? 4)))
         (seq 0 (gn g)).

(** Sum of a weight over a range: the counting loops. *)
Definition sum_over (l : list nat) (f : nat -> Z) : Z := fold_left (fun s k => s + f k) l 0.

(** GeneralGraph.py:395-406 *)
Definition get_indegree (g : ggraph) (i : nat) : Z :=
  sum_over (seq 0 (gn g)) (fun j => if gm g i j =? 1 then 1 else if gm g i j =? 5 then 2 else 0).

(** GeneralGraph.py:409-417 *)
Definition get_outdegree (g : ggraph) (i : nat) : Z :=
  sum_over (seq 0 (gn g)) (fun j => if (gm g i j =? -1) || (gm g i j =? 4) then 1 else 0).

(** Weight of one matrix cell in the degree / edge counters (GeneralGraph.py:425-429, 470-474). *)
Definition cellw (x : Z) : Z :=
  if (x =? 1) || (x =? -1) || (x =? 2) then 1 else if negb (x =? 0) then 2 else 0.

(** GeneralGraph.py:420-431 *)
Definition get_degree (g : ggraph) (i : nat) : Z :=
  sum_over (seq 0 (gn g)) (fun j => cellw (gm g i j)).

(** GeneralGraph.py:433-442 *)
Definition get_max_degree (g : ggraph) : Z :=
  fold_left (fun mx i => if get_degree g i >? mx then get_degree g i else mx) (seq 0 (gn g)) (-1).

(** GeneralGraph.py:466-476; [range(i+1, n)]. *)
Definition get_num_edges (g : ggraph) : Z :=
  sum_over (seq 0 (gn g)) (fun i =>
    sum_over (seq (S i) (gn g - S i)) (fun j => cellw (gm g i j))).

(** GeneralGraph.py:479-489 *)
Definition get_num_connected_edges (g : ggraph) (i : nat) : Z :=
  sum_over (seq 0 (gn g)) (fun j => cellw (gm g j i)).

(** GeneralGraph.py:496-499 *)
Definition is_adjacent_to (g : ggraph) (i j : nat) : bool := negb (gm g j i =? 0).

(** GeneralGraph.py:502-505 *)
Definition is_ancestor_of (g : ggraph) (i j : nat) : bool := gd g j i =? 1.

(** GeneralGraph.py:522-531 *)
Definition is_proper_ancestor_of (g : ggraph) (i j : nat) : bool := is_ancestor_of g i j && negb (Nat.eqb i j).
Definition is_descendant_of (g : ggraph) (i j : nat) : bool := is_ancestor_of g j i.
Definition is_proper_descendant_of (g : ggraph) (i j : nat) : bool := is_descendant_of g i j && negb (Nat.eqb i j).

(** GeneralGraph.py:534-545 *)
Definition get_edge (g : ggraph) (i j : nat) : res (option edge) :=
  if gm g i j =? 0 then Ok None
  else res_bind (endpoint_of (gm g i j)) (fun a =>
       res_bind (endpoint_of (gm g j i)) (fun b => Ok (Some (Edge i j a b)))).

(** GeneralGraph.py:548-559 *)
Definition get_directed_edge (g : ggraph) (i j : nat) : res (option edge) :=
  let e1 := gm g i j in let e2 := gm g j i in
  if (e1 >? 1) || (e1 =? 0) || ((e1 =? -1) && (e2 =? -1)) then Ok None
  else res_bind (endpoint_of e1) (fun a => res_bind (endpoint_of e2) (fun b => Ok (Some (Edge i j a b)))).

(** The body shared by get_node_edges and get_graph_edges (GeneralGraph.py:569-586, 595-612):
    the list of edges reported for the pair (i, j). *)
Definition pair_edges (g : ggraph) (i j : nat) : list edge :=
  let ji := gm g j i in let ij := gm g i j in
  if (ji =? 1) || (ji =? -1) || (ji =? 2) then
    match get_edge g i j with Ok (Some e) => [e] | _ => [] end
  else if (ji =? 4) && (ij =? 5) then [Edge i j ARROW TAIL; Edge i j ARROW ARROW]
  else if (ji =? 5) && (ij =? 4) then [Edge i j TAIL ARROW; Edge i j ARROW ARROW]
  else if (ji =? 4) && (ij =? 4) then [Edge i j TAIL TAIL; Edge i j ARROW ARROW]
  else [].

(** GeneralGraph.py:563-587.  Simplification: [edges.append(None)] (graph[j,i] legal but
    graph[i,j] = 0) contributes nothing here; excluded by the well-formedness invariant. *)
Definition get_node_edges (g : ggraph) (i : nat) : list edge :=
  flat_map (fun j => pair_edges g i j) (seq 0 (gn g)).

(** GeneralGraph.py:589-613 *)
Definition get_graph_edges (g : ggraph) : list edge :=
  flat_map (fun i => flat_map (fun j => pair_edges g i j) (seq (S i) (gn g - S i))) (seq 0 (gn g)).

(** GeneralGraph.py:616-621 *)
Definition get_endpoint (g : ggraph) (i j : nat) : res (option endpoint) :=
  res_bind (get_edge g i j) (fun o =>
    match o with Some e => Ok (get_proximal_endpoint e j) | None => Ok None end).

(** GeneralGraph.py:624-645; the loop over the edges of b, with the two circle flags.
    Line 642 tests adjacency of node1 and node2 (not node3), which is always true here. *)
Fixpoint def_noncollider_loop (g : ggraph) (a b c : nat) (es : list edge) (c12 c23 : bool) : bool :=
  match es with
  | [] => false
  | e :: r =>
      let isa := match get_distal_node e b with Some x => Nat.eqb x a | None => false end in
      let isc := match get_distal_node e b with Some x => Nat.eqb x c | None => false end in
      if isa && points_toward e a then true
      else if isc && points_toward e c then true
      else
        let c12 := c12 || (isa && oep_eqb (get_proximal_endpoint e b) CIRCLE) in
        let c23 := c23 || (isc && oep_eqb (get_proximal_endpoint e b) CIRCLE) in
        if c12 && c23 && negb (is_adjacent_to g a b) then true
        else def_noncollider_loop g a b c r c12 c23
  end.
Definition is_def_noncollider (g : ggraph) (a b c : nat) : bool :=
  def_noncollider_loop g a b c (get_node_edges g b) false false.

(** GeneralGraph.py:648-655 *)
Definition is_def_collider (g : ggraph) (a b c : nat) : res bool :=
  res_bind (get_edge g a b) (fun o1 => res_bind (get_edge g b c) (fun o2 =>
    match o1, o2 with
    | Some e1, Some e2 => Ok (oep_eqb (get_proximal_endpoint e1 b) ARROW && oep_eqb (get_proximal_endpoint e2 b) ARROW)
    | _, _ => Ok false
    end)).

(** GeneralGraph.py:684-701 *)
Definition is_directed_from_to (g : ggraph) (i j : nat) : bool := (gm g j i =? 1) && (gm g i j =? -1).
Definition is_undirected_from_to (g : ggraph) (i j : nat) : bool := (gm g j i =? -1) && (gm g i j =? -1).
Definition is_directly_connected_to (g : ggraph) (i j : nat) : bool := negb ((gm g j i =? 0) && (gm g i j =? 0)).

(** GeneralGraph.py:704-705 *)
Definition is_exogenous (g : ggraph) (i : nat) : bool := get_indegree g i =? 0.

(** GeneralGraph.py:708-730 / 733-755 *)
Definition into_code (p : endpoint) (x : Z) : bool :=
  match p with
  | ARROW => (x =? 1) || (x =? 5)
  | TAIL => (x =? -1) || (x =? 4)
  | CIRCLE => x =? 2
  | _ => false
  end.
Definition get_nodes_into (g : ggraph) (i : nat) (p : endpoint) : list nat :=
  filter (fun j => into_code p (gm g i j)) (seq 0 (gn g)).
Definition get_nodes_out_of (g : ggraph) (i : nat) (p : endpoint) : list nat :=
  filter (fun j => into_code p (gm g j i)) (seq 0 (gn g)).

(** GeneralGraph.py:758-805 *)
Definition remove_edge (g : ggraph) (e : edge) : ggraph :=
  let i := e_node1 e in let j := e_node2 e in
  let m := gm g in
  let out_of := m j i in let in_to := m i j in
  let end1 := e_num1 e in let end2 := e_num2 e in
  let fully := is_parent_of g i j || is_parent_of g j i in
  let m' :=
    if (out_of =? 4) && (in_to =? 4) then
      if end1 =? 1 then upd2 m i j (-1) (-1)
      else if end1 =? -1 then upd2 m j i 1 1 else m
    else if (out_of =? 5) && (in_to =? 4) then
      if end1 =? 1 then upd2 m i j 1 (-1)
      else if end1 =? -1 then upd2 m i j 1 1 else m
    else if (out_of =? 4) && (in_to =? 5) then
      if end1 =? 1 then upd2 m i j (-1) 1
      else if end1 =? -1 then upd2 m i j 1 1 else m
    else if (end1 =? in_to) && (end2 =? out_of) then upd2 m i j 0 0
    else m in
  let g' := set_gm g m' in
  if fully then reconstitute_dpath g' (get_graph_edges g') else g'.

(** GeneralGraph.py:808-813, 819-824: dpath is left untouched. *)
Definition remove_connecting_edge (g : ggraph) (i j : nat) : ggraph := set_gm g (upd2 (gm g) i j 0 0).

(** GeneralGraph.py:83-93 collect_ancestors; recursion on fuel, [None] = out of fuel. *)
Fixpoint collect_ancestors (fuel : nat) (g : ggraph) (v : nat) (anc : list nat) : option (list nat) :=
  match fuel with
  | O => None
  | S f =>
      if existsb (Nat.eqb v) anc then Some anc
      else fold_left (fun acc p => match acc with None => None | Some a => collect_ancestors f g p a end)
                     (get_parents g v) (Some (anc ++ [v]))
  end.

(** GeneralGraph.py:369-378 *)
Definition get_ancestors (fuel : nat) (g : ggraph) (vs : list nat) : option (list nat) :=
  fold_left (fun acc v => match acc with None => None | Some a => collect_ancestors fuel g v a end)
            vs (Some []).

(** GeneralGraph.py:318-323 *)
Definition exists_trek (g : ggraph) (a b : nat) : bool :=
  existsb (fun v => is_ancestor_of g v a && is_ancestor_of g v b) (seq 0 (gn g)).
