(** Dag.subgraph and Dag.dag2pag (causallearn/graph/Dag.py). *)
From Verif Require Import Base EdgeModel GraphModel NamedModel UtilsModel.
Local Open Scope Z_scope.

(** np.delete(m, i, axis) on the list of the rows (or columns) that are left: an index beyond the current size is an IndexError. *)
Definition del_at (i : nat) (k : list nat) : res (list nat) :=
  if Nat.ltb i (length k) then Ok (firstn i k ++ skipn (S i) k) else Raise.
(** Dag.py:624-630: both loops delete by the index in the full graph, from the matrix that has already shrunk. *)
Definition dag_sub_rows (G : ngraph) (l : list nat) : res (list nat) :=
  fold_left (fun acc i => res_bind acc (fun k => if memb (nth i (nodes G) 0%nat) l then Ok k else del_at i k)) (seq 0 (gn (ng G))) (Ok (seq 0 (gn (ng G)))).
(** Dag.py:618-634 subgraph, for a list of nodes of the graph without repetitions.  (When nothing is deleted the two graphs share one matrix
    object; the sharing is not modelled.) *)
Definition dag_subgraph (G : ngraph) (l : list nat) : res ngraph :=
  res_bind (dag_sub_rows G l) (fun k =>
    let T := mkNG l (enumerate_map l) (mkG (length l) (fun a b => gm (ng G) (nth a k 0%nat) (nth b k 0%nat)) (gd (empty_graph (length l)))) in
    res_bind (dag_graph_edges T) (dag_reconstitute T)).

(** itertools.combinations(l, 2). *)
Fixpoint pairs2 (l : list nat) : list (nat * nat) :=
  match l with [] => [] | a :: r => map (fun b => (a, b)) r ++ pairs2 r end.
(** Dag.py:399-411 get_edge at index level. *)
Definition dget_edge (g : ggraph) (i j : nat) : res (option edge) :=
  if (gm g i j =? 0) && (gm g j i =? 0) then Ok None
  else res_bind (endpoint_of (gm g i j)) (fun a => res_bind (endpoint_of (gm g j i)) (fun b => Ok (Some (Edge i j a b)))).
(** Dag.py:764-768 *)
Definition d2p_copy (D : ggraph) : res ggraph :=
  fold_left (fun acc p => res_bind acc (fun G => res_bind (dget_edge D (fst p) (snd p)) (fun o => Ok (match o with Some e => add_edge G e | None => G end))))
    (pairs2 (seq 0 (gn D))) (Ok (empty_graph (gn D))).
(** Dag.py:225-235 get_parents and 253-263 get_children: the arrowheads only. *)
Definition dag_parents (D : ggraph) (i : nat) : list nat := filter (fun j => gm D i j =? 1) (seq 0 (gn D)).
Definition dag_children (D : ggraph) (i : nat) : list nat := filter (fun j => gm D j i =? 1) (seq 0 (gn D)).
(** Dag.py:770-783: parents and children are those in the DAG.  The calls of mod_endpoint set the endpoints the edge has already. *)
Definition d2p_latent (D : ggraph) (obs : list nat) (G : ggraph) (u : nat) : ggraph :=
  if memb u obs then G else
  let G1 := fold_left (fun G pc => add_edge G (Edge (fst pc) (snd pc) TAIL ARROW)) (list_prod (dag_parents D u) (dag_children D u)) G in
  fold_left (fun G xy => add_edge G (Edge (fst xy) (snd xy) ARROW ARROW)) (pairs2 (dag_children D u)) G1.
(** Dag.py:785-790: [pag.add_edge(None)] raises.  The nodes of the result keep the indices of the DAG (in the code: positions in [observable]). *)
Definition d2p_restrict (G : ggraph) (obs : list nat) : res ggraph :=
  fold_left (fun acc p => res_bind acc (fun P => res_bind (get_edge G (fst p) (snd p)) (fun o => match o with Some e => Ok (add_edge P e) | None => Raise end)))
    (pairs2 obs) (Ok (empty_graph (gn G))).
(** Dag.py:762-790 dag2pag. *)
Definition dag_dag2pag (D : ggraph) (obs : list nat) : res ggraph :=
  res_bind (d2p_copy D) (fun G => d2p_restrict (fold_left (d2p_latent D obs) (seq 0 (gn D)) G) obs).
