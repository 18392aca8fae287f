(** Model of GeneralGraph.transfer_nodes_and_edges, and of the list of nodes that a graph shares with whoever built it. *)
From Verif Require Import Base EdgeModel GraphModel NamedModel.
Local Open Scope Z_scope.

(** GeneralGraph.py:107-192 add_edge through node_map (KeyError on an unknown node), for an edge between the named nodes. *)
Definition nadd_edge (G : ngraph) (e : edge) : res ngraph :=
  match dget (node_map G) (e_node1 e), dget (node_map G) (e_node2 e) with
  | Some i, Some j => Ok (mkNG (nodes G) (node_map G) (add_edge (ng G) (mkE i j (e_end1 e) (e_end2 e) (e_num1 e) (e_num2 e))))
  | _, _ => Raise
  end.
(** The edges of get_graph_edges with the node objects in them. *)
Definition named_edges (G : ngraph) : list edge :=
  map (fun e => mkE (nth (e_node1 e) (nodes G) 0%nat) (nth (e_node2 e) (nodes G) 0%nat) (e_end1 e) (e_end2 e) (e_num1 e) (e_num2 e)) (get_graph_edges (ng G)).
(** GeneralGraph.py:896-901 transfer_nodes_and_edges: self is H, graph is G (two different objects with lists of their own). *)
Definition transfer (H G : ngraph) : res ngraph :=
  fold_left (fun R e => res_bind R (fun K => nadd_edge K e)) (named_edges G) (Ok (fold_left (fun K v => fst (nadd_node K v)) (nodes G) H)).

(** GeneralGraph.py:26-27: the object keeps the list it is given.  A heap of lists; a graph holds the address of its list. *)
Definition heap := nat -> list nat.
Record shared := mkSh { sh_list : nat; sh_map : dict; sh_g : ggraph }.
Definition view (h : heap) (G : shared) : ngraph := mkNG (h (sh_list G)) (sh_map G) (sh_g G).
Definition store (h : heap) (p : nat) (l : list nat) : heap := fun q => if Nat.eqb q p then l else h q.
(** GeneralGraph.py:26-45 *)
Definition construct (h : heap) (p : nat) : shared := mkSh p (enumerate_map (h p)) (empty_graph (length (h p))).
(** GeneralGraph.py:196-221: nodes.append changes the list itself. *)
Definition shared_add_node (h : heap) (G : shared) (v : nat) : heap * shared * bool :=
  let (G', r) := nadd_node (view h G) v in (store h (sh_list G) (nodes G'), mkSh (sh_list G) (node_map G') (ng G'), r).
(** GeneralGraph.py:834-860: so does nodes.remove. *)
Definition shared_remove_node (h : heap) (G : shared) (v : nat) : res (heap * shared) :=
  res_bind (nremove_node (view h G) v) (fun G' => Ok (store h (sh_list G) (nodes G'), mkSh (sh_list G) (node_map G') (ng G'))).
