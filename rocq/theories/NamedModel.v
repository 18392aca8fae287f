(** Node-list bookkeeping of GeneralGraph and Dag: nodes, node_map, add_node, remove_node, subgraph, __eq__;
    and the name-based graph comparison classes SHD, AdjacencyConfusion, ArrowConfusion.
    A node object is represented by its name (GraphNode.py: __eq__ and __hash__ use the name); names are [nat]
    with the string order replaced by the order of [nat]. *)
From Verif Require Import Base EdgeModel GraphModel.
Local Open Scope Z_scope.

(** Python dict from names to indices, in insertion order. *)
Definition dict := list (nat * nat).
Definition dget (d : dict) (k : nat) : option nat :=
  match find (fun p => Nat.eqb (fst p) k) d with Some p => Some (snd p) | None => None end.
(** [d[k] = v]: overwrite in place, or append. *)
Fixpoint dset (d : dict) (k v : nat) : dict :=
  match d with
  | [] => [(k, v)]
  | (k', v') :: r => if Nat.eqb k' k then (k', v) :: r else (k', v') :: dset r k v
  end.
Definition dpop (d : dict) (k : nat) : dict := filter (fun p => negb (Nat.eqb (fst p) k)) d.

(** GeneralGraph.py:26-40: self.nodes, self.node_map, and (num_vars, graph, dpath). *)
Record ngraph : Type := mkNG { nodes : list nat; node_map : dict; ng : ggraph }.

(** [for i, node in enumerate(nodes): node_map[node] = i] (GeneralGraph.py:31-36, 853-857). *)
Definition enumerate_map (l : list nat) : dict :=
  fold_left (fun d p => dset d (snd p) (fst p)) (combine (seq 0 (length l)) l) [].

(** GeneralGraph.py:26-49 *)
Definition new_ngraph (l : list nat) : ngraph := mkNG l (enumerate_map l) (empty_graph (length l)).

(** Padding a matrix with a zero row and column (GeneralGraph.py:208-214: np.vstack / column_stack). *)
Definition pad (n : nat) (m : mat) : mat := fun i j => if (Nat.ltb i n && Nat.ltb j n)%bool then m i j else 0.

(** GeneralGraph.py:196-221 add_node. *)
Definition nadd_node (G : ngraph) (v : nat) : ngraph * bool :=
  if existsb (Nat.eqb v) (nodes G) then (G, false)
  else
    let n := gn (ng G) in
    (mkNG (nodes G ++ [v]) (dset (node_map G) v n)
       (mkG (S n) (pad n (gm (ng G))) (adjust_dpath (S n) (pad n (gd (ng G))) n n)), true).

(** np.delete(m, i, axis=0) followed by axis=1. *)
Definition skip (i a : nat) : nat := if Nat.ltb a i then a else S a.
Definition del_rc (m : mat) (i : nat) : mat := fun a b => m (skip i a) (skip i b).

(** [list.remove(v)]: drops the first occurrence. *)
Fixpoint lremove (v : nat) (l : list nat) : list nat :=
  match l with [] => [] | a :: r => if Nat.eqb a v then r else a :: lremove v r end.

(** GeneralGraph.py:834-860 remove_node; KeyError on an unknown node.
    The edge list handed to reconstitute_dpath names nodes through node_map, which has just been rebuilt as positions,
    so it is the index-level edge list.  dpath is re-created by GeneralGraph.reconstitute_dpath (line 67). *)
Definition nremove_node (G : ngraph) (v : nat) : res ngraph :=
  match dget (node_map G) v with
  | None => Raise
  | Some i =>
      let l := lremove v (nodes G) in
      let g1 := mkG (gn (ng G) - 1) (del_rc (gm (ng G)) i) (gd (ng G)) in
      Ok (mkNG l (enumerate_map l) (reconstitute_dpath g1 (get_graph_edges g1)))
  end.

(** Indices kept by [np.delete(graph, nodes_to_delete)] (GeneralGraph.py:871-881). *)
Definition kept (G : ngraph) (l : list nat) : list nat :=
  filter (fun i => existsb (Nat.eqb (nth i (nodes G) 0%nat)) l) (seq 0 (gn (ng G))).

(** GeneralGraph.py:868-886 subgraph: the matrix keeps self's order, the node list the argument's. *)
Definition nsubgraph (G : ngraph) (l : list nat) : ngraph :=
  let k := kept G l in
  let g1 := mkG (length l) (fun a b => gm (ng G) (nth a k 0%nat) (nth b k 0%nat)) zeros in
  mkNG l (enumerate_map l) (reconstitute_dpath g1 (get_graph_edges g1)).

(** Reading a cell of a numpy matrix: IndexError outside the shape. *)
Definition rd (n : nat) (m : mat) (i j : nat) : res Z :=
  if (Nat.ltb i n && Nat.ltb j n)%bool then Ok (m i j) else Raise.

(** GeneralGraph.py:534-545 get_edge, by node object: node_map lookup, then the two matrix cells. *)
Definition nget_edge (G : ngraph) (a b : nat) : res (option edge) :=
  match dget (node_map G) a, dget (node_map G) b with
  | Some i, Some j =>
      res_bind (rd (gn (ng G)) (gm (ng G)) i j) (fun x => res_bind (rd (gn (ng G)) (gm (ng G)) j i) (fun y =>
        if x =? 0 then Ok None
        else res_bind (endpoint_of x) (fun p => res_bind (endpoint_of y) (fun q => Ok (Some (Edge a b p q))))))
  | _, _ => Raise
  end.

(** Edge operations through node_map (GeneralGraph.py:97-192, 758-813): the operation at index level. *)
Definition on_nodes (G : ngraph) (a b : nat) (f : ggraph -> nat -> nat -> ggraph) : res ngraph :=
  match dget (node_map G) a, dget (node_map G) b with
  | Some i, Some j => Ok (mkNG (nodes G) (node_map G) (f (ng G) i j))
  | _, _ => Raise
  end.

(** Insertion sort standing for list.sort() on nodes (GraphNode.py: __lt__ compares names). *)
Fixpoint insert_sorted (x : nat) (l : list nat) : list nat :=
  match l with [] => [x] | a :: r => if Nat.leb x a then x :: l else a :: insert_sorted x r end.
Definition sort_nodes (l : list nat) : list nat := fold_right insert_sorted [] l.

(** GeneralGraph.py:332-341 __eq__: [nodes.sort()] sorts in place and returns None, so the test compares
    None == None and the two matrices; both node lists are left sorted while node_map and graph are not. *)
Definition mat_eqb (n : nat) (m1 m2 : mat) : bool :=
  forallb (fun i => forallb (fun j => m1 i j =? m2 i j) (seq 0 n)) (seq 0 n).
Definition nequal (G H : ngraph) : bool * ngraph * ngraph :=
  (Nat.eqb (gn (ng G)) (gn (ng H)) && mat_eqb (gn (ng G)) (gm (ng G)) (gm (ng H)),
   mkNG (sort_nodes (nodes G)) (node_map G) (ng G),
   mkNG (sort_nodes (nodes H)) (node_map H) (ng H)).

(** Dag.py:48-62 adjust_dpath is GeneralGraph's; Dag.py:64-75 reconstitute_dpath: dpath is not reset, and every
    listed edge is taken as node1 -> node2, indices through node_map.  [None] models the KeyError. *)
Definition dag_reconstitute (G : ngraph) (edges : list edge) : res ngraph :=
  let g := ng G in
  let d0 := fold_left (fun d i => adjust_dpath (gn g) d i i) (seq 0 (gn g)) (gd g) in
  res_bind (fold_left (fun acc e => res_bind acc (fun d =>
      match dget (node_map G) (e_node1 e), dget (node_map G) (e_node2 e) with
      | Some i, Some j => Ok (adjust_dpath (gn g) d i j)
      | _, _ => Raise
      end)) (rev edges) (Ok d0))
    (fun d => Ok (mkNG (nodes G) (node_map G) (mkG (gn g) (gm g) d))).

(** Dag.py:95-118 add_directed_edge / add_edge at index level are [add_directed_edge] of GraphModel.v. *)
Definition dag_add_edge (G : ngraph) (a b : nat) : res ngraph := on_nodes G a b add_directed_edge.

(** Dag.py:399-411 get_edge. *)
Definition dag_get_edge (G : ngraph) (a b : nat) : res (option edge) :=
  match dget (node_map G) a, dget (node_map G) b with
  | Some i, Some j =>
      res_bind (rd (gn (ng G)) (gm (ng G)) i j) (fun x => res_bind (rd (gn (ng G)) (gm (ng G)) j i) (fun y =>
        if (x =? 0) && (y =? 0) then Ok None
        else res_bind (endpoint_of x) (fun p => res_bind (endpoint_of y) (fun q => Ok (Some (Edge a b p q))))))
  | _, _ => Raise
  end.

(** Dag.py:430-441 get_graph_edges: cells by position, edges by node object.  A [None] entry of the Python list would
    make reconstitute_dpath fail on [edge.get_node1()]: modelled as Raise here. *)
Definition dag_graph_edges (G : ngraph) : res (list edge) :=
  fold_left (fun acc i => fold_left (fun acc j => res_bind acc (fun l =>
      if gm (ng G) j i =? 0 then Ok l
      else res_bind (dag_get_edge G (nth i (nodes G) 0%nat) (nth j (nodes G) 0%nat)) (fun o =>
           match o with Some e => Ok (l ++ [e]) | None => Raise end)))
    (seq (S i) (gn (ng G) - S i)) acc) (seq 0 (gn (ng G))) (Ok []).

(** Dag.py:585-606 remove_node: node_map.pop without renumbering. *)
Definition dag_remove_node (G : ngraph) (v : nat) : res ngraph :=
  match dget (node_map G) v with
  | None => Raise
  | Some i =>
      let G1 := mkNG (lremove v (nodes G)) (dpop (node_map G) v)
                     (mkG (gn (ng G) - 1) (del_rc (gm (ng G)) i) (gd (ng G))) in
      res_bind (dag_graph_edges G1) (dag_reconstitute G1)
  end.

(** Dag.py:546-557 remove_edge. *)
Definition dag_remove_edge (G : ngraph) (a b : nat) : res ngraph :=
  res_bind (on_nodes G a b (fun g i j => set_gm g (upd2 (gm g) i j 0 0))) (fun G1 =>
    res_bind (dag_graph_edges G1) (dag_reconstitute G1)).

(** GeneralGraph.py:502-505 / Dag.py is_ancestor_of by node object. *)
Definition nis_ancestor_of (G : ngraph) (a b : nat) : res bool :=
  match dget (node_map G) a, dget (node_map G) b with
  | Some i, Some j => Ok (gd (ng G) j i =? 1)
  | _, _ => Raise
  end.

(* ---------- graph comparison ---------- *)

(** The cell for two named nodes: [G.graph[G.node_map[a], G.node_map[b]]]. *)
Definition id_of (G : ngraph) (a : nat) : nat := match dget (node_map G) a with Some i => i | None => 0%nat end.
Definition cell (G : ngraph) (a b : nat) : Z := gm (ng G) (id_of G a) (id_of G b).

Definition keys (d : dict) : list nat := map fst d.
Definition subsetb (l r : list nat) : bool := forallb (fun x => existsb (Nat.eqb x) r) l.

(** SHD.py:10-31.  The assertion compares the name sets. *)
Definition shd (T E : ngraph) : res Z :=
  let ks := keys (node_map T) in
  if subsetb ks (keys (node_map E)) && subsetb (keys (node_map E)) ks then
    Ok (sum_over ks (fun a => sum_over ks (fun b =>
      if Nat.ltb (id_of T b) (id_of T a) then 0
      else if (cell T a b =? cell E a b) && (cell T b a =? cell E b a) then 0 else 1)))
  else Raise.

(** AdjacencyConfusion.py:14-42: [is_adjacent_to] reads graph[j, i] (GeneralGraph.py:496-499). *)
Definition nadjacent (G : ngraph) (a b : nat) : bool := negb (cell G b a =? 0).

Definition pair_count (T : ngraph) (f : nat -> nat -> bool) : Z :=
  let l := nodes T in
  sum_over (seq 0 (length l)) (fun i => sum_over (seq (S i) (length l - S i)) (fun j =>
    if f (nth i l 0%nat) (nth j l 0%nat) then 1 else 0)).
Definition adj_fn (T E : ngraph) : Z := pair_count T (fun a b => nadjacent T a b && negb (nadjacent E a b)).
Definition adj_fp (T E : ngraph) : Z := pair_count T (fun a b => nadjacent E a b && negb (nadjacent T a b)).
Definition adj_tp (T E : ngraph) : Z := pair_count T (fun a b => nadjacent E a b && nadjacent T a b).
Definition adj_tn (T E : ngraph) : Z := pair_count T (fun a b => negb (nadjacent E a b) && negb (nadjacent T a b)).

(** GeneralGraph.py:616-621 get_endpoint(a, b) == ARROW, by node object (None == ARROW is False). *)
Definition arrow_at (G : ngraph) (a b : nat) : bool :=
  match nget_edge G a b with Ok (Some e) => oep_eqb (get_proximal_endpoint e b) ARROW | _ => false end.

(** ArrowConfusion.py:31-66: the four 0/1 matrices, and the numpy reductions over all cells
    (x maximum 0, minimum(==, true)).  Cell [j][i] is indexed here by the ordered pair (i, j). *)
Definition b2z (b : bool) : Z := if b then 1 else 0.
Definition all_cells (T : ngraph) (f : nat -> nat -> Z) : Z :=
  let l := nodes T in
  sum_over (seq 0 (length l)) (fun i => sum_over (seq 0 (length l)) (fun j => f (nth i l 0%nat) (nth j l 0%nat))).
Definition cf_fp (T : ngraph) (tp ep : nat -> nat -> bool) : Z := all_cells T (fun a b => Z.max (b2z (ep a b) - b2z (tp a b)) 0).
Definition cf_fn (T : ngraph) (tp ep : nat -> nat -> bool) : Z := all_cells T (fun a b => Z.max (b2z (tp a b) - b2z (ep a b)) 0).
Definition cf_tp (T : ngraph) (tp ep : nat -> nat -> bool) : Z :=
  all_cells T (fun a b => Z.min (b2z (b2z (tp a b) =? b2z (ep a b))) (b2z (tp a b))).
Definition cf_tn (T : ngraph) (tp ep : nat -> nat -> bool) : Z :=
  all_cells T (fun a b => b2z (b2z (tp a b) =? b2z (ep a b))) - cf_tp T tp ep.

Definition arrows_fp (T E : ngraph) : Z := cf_fp T (arrow_at T) (arrow_at E).
Definition arrows_fn (T E : ngraph) : Z := cf_fn T (arrow_at T) (arrow_at E).
Definition arrows_tp (T E : ngraph) : Z := cf_tp T (arrow_at T) (arrow_at E).
Definition arrows_tn (T E : ngraph) : Z := cf_tn T (arrow_at T) (arrow_at E).

(** The common-edge variants (ArrowConfusion.py:45-50). *)
Definition true_ce (T E : ngraph) (a b : nat) : bool := arrow_at T a b && nadjacent E a b.
Definition est_ce (T E : ngraph) (a b : nat) : bool := arrow_at E a b && nadjacent T a b.
Definition arrows_fp_ce (T E : ngraph) : Z := cf_fp T (true_ce T E) (est_ce T E).
Definition arrows_fn_ce (T E : ngraph) : Z := cf_fn T (true_ce T E) (est_ce T E).
Definition arrows_tp_ce (T E : ngraph) : Z := cf_tp T (true_ce T E) (est_ce T E).
Definition arrows_tn_ce (T E : ngraph) : Z := cf_tn T (true_ce T E) (est_ce T E).

(** GeneralGraph.py:343-352 get_adjacent_nodes, by node object: positions are turned into nodes by self.nodes[i]. *)
Definition nadjacent_nodes (G : ngraph) (v : nat) : res (list nat) :=
  match dget (node_map G) v with
  | Some j => Ok (map (fun i => nth i (nodes G) 0%nat) (get_adjacent_nodes (ng G) j))
  | None => Raise
  end.
