(** causallearn/utils/DAG2PAG.py: the conversion of a DAG with latent and selection variables to a PAG.

    The nodes of the PAG are the observed nodes in the order in which Python lists the set difference of line 31; node k of
    the PAG is the node [nth k obs] of the DAG.  Parameters:
    - [dsepd x y T]: networkx's is_d_separator({x}, {y}, T) on the graph [dg] of lines 28-44, whose nodes are the indices in
      the DAG.  Lines 40-44 copy the directed edges of the DAG (edges of a Dag are stored with the arrow at endpoint 2, so the
      [else] of line 45 never runs); true_dag is the same graph with the nodes renumbered, so the test used by ruleR4B is
      [dsepd] on the renamed nodes (DAG2PAG.py:98, cit.py D_Separation);
    - [obs]: observed_nodes, [sel]: isselection, as indices in the DAG.  islatent is used nowhere else;
    - [so]: the order in which Python lists a set of nodes.

    sepset (line 58) holds sets of Node objects.  FCI's ruleR3 and ruleR4B test whether such a set contains an integer index
    (FCI.py:383, 613): a Node never equals an integer, so the answer is always no.  For those rules the table is therefore the
    same as one that holds the empty set for each pair ([no_members]). *)
From Verif Require Import Base EdgeModel GraphModel UtilsModel SkelModel PCModel FCIModel.
Local Open Scope Z_scope.

Section Dag2Pag.
Variable dsepd : nat -> nat -> list nat -> bool.
Variables obs sel : list nat.
Variable so : list nat -> list nat.
Definition name_of (k : nat) : nat := nth k obs 0%nat.
Definition width : nat := length obs.

(** itertools.combinations(observed_nodes, 2) as positions. *)
Definition all_pairs (n : nat) : list (nat * nat) := flat_map (fun i => map (pair i) (seq (S i) (n - S i))) (seq 0 n).

(** DAG2PAG.py:51-56: the complete graph with circles. *)
Definition circle_graph : ggraph :=
  fold_left (fun g p => add_edge g (set_endpoint2 (set_endpoint1 (Edge (fst p) (snd p) CIRCLE CIRCLE) CIRCLE) CIRCLE)) (all_pairs width) (empty_graph width).

(** DAG2PAG.py:58: sepset, keyed by positions; line 94-100 only renames the keys. *)
Definition psep := nat -> nat -> list nat.
Definition sep_or (s : psep) (x y : nat) (T : list nat) : psep := upd_f s x y (s x y ++ T).
(** DAG2PAG.py:67: is the pair separated by the set and the selection variables? *)
Definition separated (x y : nat) (T : list nat) : bool := dsepd (name_of x) (name_of y) (map name_of T ++ sel).
(** DAG2PAG.py:65-72: one conditioning set. *)
Definition skel_try (e : edge) (x y : nat) (s : ggraph * psep) (T : list nat) : ggraph * psep :=
  if memb x T || memb y T then s
  else if separated x y T then (remove_edge (fst s) e, sep_or (sep_or (snd s) x y T) y x T)
  else s.
(** DAG2PAG.py:61-64: one pair at one size. *)
Definition skel_pair (l : nat) (s : ggraph * psep) (p : nat * nat) : outcome (ggraph * psep) :=
  obind (of_res (get_edge (fst s) (fst p) (snd p))) (fun o =>
  match o with
  | None => Ret s
  | Some e => Ret (fold_left (skel_try e (fst p) (snd p)) (combs l (seq 0 width)) s)
  end).
(** DAG2PAG.py:60-72 *)
Definition pag_skeleton : outcome (ggraph * psep) :=
  foldO (fun s l => foldO (skel_pair l) (all_pairs width) s) (seq 0 (width - 1)) (circle_graph, fun _ _ => []).

(** DAG2PAG.py:145-151 mod_endpoint *)
Definition mod_end (e : edge) (z : nat) (p : endpoint) : res edge :=
  if Nat.eqb (e_node1 e) z then Ok (set_endpoint1 e p) else if Nat.eqb (e_node2 e) z then Ok (set_endpoint2 e p) else Raise.
Definition point_at (g : ggraph) (e : edge) (z : nat) : res ggraph :=
  let g1 := remove_edge g e in res_bind (mod_end e z ARROW) (fun e' => Ok (add_edge g1 e')).
(** DAG2PAG.py:77-92: one middle node. *)
Definition coll_step (s : psep) (x y : nat) (g : ggraph) (z : nat) : outcome ggraph :=
  if Nat.eqb z x || Nat.eqb z y then Ret g
  else if memb z (s x y) then Ret g
  else obind (of_res (get_edge g x z)) (fun o1 => obind (of_res (get_edge g y z)) (fun o2 =>
       match o1, o2 with
       | Some exz, Some eyz => of_res (res_bind (point_at g exz z) (fun g1 => point_at g1 eyz z))
       | _, _ => Ret g
       end)).
(** DAG2PAG.py:74-92 *)
Definition coll_pair (s : psep) (g : ggraph) (p : nat * nat) : outcome ggraph :=
  obind (of_res (get_edge g (fst p) (snd p))) (fun o =>
  match o with
  | Some _ => Ret g
  | None => foldO (coll_step s (fst p) (snd p)) (seq 0 width) g
  end).
Definition pag_colliders : outcome ggraph :=
  obind pag_skeleton (fun r => foldO (coll_pair (snd r)) (all_pairs width) (fst r)).

(** DAG2PAG.py:101-113: one pass of the orientation rules; FCI's rules are in FCIModel.v.  bk is None, so nothing is
    forbidden; ruleR4B's maxPathLength is -1. *)
Definition no_members : sepsets := fun _ _ => Some [].
Definition free : nat -> nat -> bool := fun _ _ => false.
Definition pag_test (x y : nat) (T : list nat) : bool := dsepd (name_of x) (name_of y) (map name_of T).
Definition pag_pass (fuel : nat) (g : ggraph) : outcome st :=
  obind (rulesR1R2 free (g, false)) (fun s => obind (ruleR3 free no_members s) (fun s =>
  obind (ruleR4B pag_test free fuel (-1) no_members s) (fun s =>
  obind (ruleR5 fuel s) (fun s => obind (ruleR6 s) (fun s => obind (ruleR7 s) (fun s => obind (rule8 s) (fun s =>
  obind (rule9 so fuel s) (fun s => rule10 so fuel s)))))))).
Fixpoint pag_loop (fuel : nat) (g : ggraph) : outcome ggraph :=
  match fuel with
  | O => Running
  | S f => obind (pag_pass fuel g) (fun r => if snd r then pag_loop f (fst r) else Ret (fst r))
  end.
(** DAG2PAG.py:16-115 dag2pag *)
Definition dag2pag (fuel : nat) : outcome ggraph := obind pag_colliders (pag_loop fuel).
End Dag2Pag.
