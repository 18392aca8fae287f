(** Model of causallearn/utils/GraphUtils.py (path search, causal order, d-connection, sdh). *)
From Verif Require Import Base EdgeModel GraphModel.
Local Open Scope Z_scope.

(** Result of a loop: a value, fuel exhausted (the Python loop is still running), or an exception. *)
Inductive outcome (A : Type) : Type := Ret (a : A) | Running | Failed.
Arguments Ret {A} a.
Arguments Running {A}.
Arguments Failed {A}.

Definition memb (x : nat) (l : list nat) : bool := existsb (Nat.eqb x) l.

(** GraphUtils.py:453-468, the inner loop over adjacent nodes.  Deques are lists whose head is the right end
    (the code only uses append and pop). *)
Inductive bfs_res := BReturn | BCont (V Q : list nat) | BErr.

Fixpoint bfs_inner (g : ggraph) (to t : nat) (us V Q : list nat) : bfs_res :=
  match us with
  | [] => BCont V Q
  | u :: r =>
      if is_parent_of g t u && is_parent_of g u t then BReturn
      else match get_edge g t u with
           | Raise => BErr
           | Ok None => BErr
           | Ok (Some e) =>
               match traverse_directed t e with
               | None => bfs_inner g to t r V Q
               | Some c =>
                   if memb c V then bfs_inner g to t r V Q
                   else if Nat.eqb c to then BReturn
                   else bfs_inner g to t r (V ++ [c]) (c :: Q)
               end
           end
  end.

(** GraphUtils.py:446-468 exists_directed_path_from_to_breadth_first: the outer while loop.
    Falling off the end returns None, which is falsy: modelled as [Ret false]. *)
Fixpoint bfs_loop (fuel : nat) (g : ggraph) (to : nat) (V Q : list nat) : outcome bool :=
  match fuel with
  | O => Running
  | S f =>
      match Q with
      | [] => Ret false
      | t :: Q' =>
          match bfs_inner g to t (get_adjacent_nodes g t) V Q' with
          | BReturn => Ret true
          | BCont V2 Q2 => bfs_loop f g to V2 Q2
          | BErr => Failed
          end
      end
  end.

Definition exists_directed_path (fuel : nat) (g : ggraph) (from to : nat) : outcome bool :=
  bfs_loop fuel g to [from] [from].

(** GeneralGraph.py:306-312 exists_directed_cycle. *)
Fixpoint cycle_loop (fuel : nat) (g : ggraph) (vs : list nat) : outcome bool :=
  match vs with
  | [] => Ret false
  | v :: r =>
      match exists_directed_path fuel g v v with
      | Ret true => Ret true
      | Ret false => cycle_loop fuel g r
      | Running => Running
      | Failed => Failed
      end
  end.
Definition exists_directed_cycle (fuel : nat) (g : ggraph) : outcome bool := cycle_loop fuel g (seq 0 (gn g)).

(** GraphUtils.py:273-291: one pass of the while loop; [err] marks NodeType.ERROR nodes.
    [all_nodes] are the non-error nodes; returns (found, sub_not_found). *)
Definition order_pass (g : ggraph) (all_nodes : list nat) (found : list nat) (not_found : list nat) : list nat * list nat :=
  fold_left (fun st node =>
      let '(found, sub) := st in
      let parents := filter (fun p => memb p all_nodes) (get_parents g node) in
      if forallb (fun p => memb p found) parents then (found ++ [node], sub ++ [node]) else (found, sub))
    not_found (found, []).

Fixpoint order_loop (fuel : nat) (g : ggraph) (all_nodes found not_found : list nat) : outcome (list nat) :=
  match not_found with
  | [] => Ret found
  | _ =>
      match fuel with
      | O => Running
      | S f =>
          let '(found', sub) := order_pass g all_nodes found not_found in
          order_loop f g all_nodes found' (filter (fun e => negb (memb e sub)) not_found)
      end
  end.

(** GraphUtils.py:259-293 get_causal_order; raises ValueError when exists_directed_cycle. *)
Definition get_causal_order (fuel : nat) (g : ggraph) (err : nat -> bool) : outcome (list nat) :=
  match exists_directed_cycle fuel g with
  | Ret true => Failed
  | Ret false =>
      let not_found := filter (fun v => negb (err v)) (seq 0 (gn g)) in
      order_loop fuel g not_found [] not_found
  | Running => Running
  | Failed => Failed
  end.

(** GraphUtils.py:127-144 is_ancestor(node, z, graph). *)
Fixpoint anc_loop (fuel : nat) (g : ggraph) (node : nat) (Q : list nat) : outcome bool :=
  match fuel with
  | O => Running
  | S f =>
      match Q with
      | [] => Ret false
      | t :: Q' =>
          if Nat.eqb t node then Ret true
          else anc_loop f g node
                 (fold_left (fun Q c => if memb c Q then Q else c :: Q) (get_parents g t) Q')
      end
  end.
Definition is_ancestor (fuel : nat) (g : ggraph) (node : nat) (z : list nat) : outcome bool :=
  if memb node z then Ret true else anc_loop fuel g node (rev z).

(** GraphUtils.py:113-124 reachable(edge1, edge2, node_a, z, graph). *)
Definition reachable (fuel : nat) (g : ggraph) (e1 e2 : edge) (a : nat) (z : list nat) : outcome bool :=
  match get_distal_node e1 a with
  | None => Failed
  | Some b =>
      let collider := oep_eqb (get_proximal_endpoint e1 b) ARROW && oep_eqb (get_proximal_endpoint e2 b) ARROW in
      if negb collider && negb (memb b z) then Ret true
      else match is_ancestor fuel g b z with
           | Ret anc => Ret (collider && anc)
           | x => x
           end
  end.

(** GraphUtils.py:27-54 is_dconnected_to.  Inner for loop over the edges of node_b. *)
Inductive dcon_res := DReturn | DCont (Q : list (edge * nat)) | DRunning | DFailed.

Fixpoint dcon_inner (fuel : nat) (g : ggraph) (y : nat) (z : list nat) (e : edge) (a b : nat)
         (es : list edge) (Q : list (edge * nat)) : dcon_res :=
  match es with
  | [] => DCont Q
  | e2 :: r =>
      match get_distal_node e2 b with
      | None => DFailed
      | Some c =>
          if Nat.eqb c a then dcon_inner fuel g y z e a b r Q
          else match reachable fuel g e e2 a z with
               | Ret true => if Nat.eqb c y then DReturn else dcon_inner fuel g y z e a b r ((e2, b) :: Q)
               | Ret false => dcon_inner fuel g y z e a b r Q
               | Running => DRunning
               | Failed => DFailed
               end
      end
  end.

Fixpoint dcon_loop (fuel : nat) (afuel : nat) (g : ggraph) (y : nat) (z : list nat) (Q : list (edge * nat)) : outcome bool :=
  match fuel with
  | O => Running
  | S f =>
      match Q with
      | [] => Ret false
      | (e, a) :: Q' =>
          match get_distal_node e a with
          | None => Failed
          | Some b =>
              match dcon_inner afuel g y z e a b (get_node_edges g b) Q' with
              | DReturn => Ret true
              | DCont Q2 => dcon_loop f afuel g y z Q2
              | DRunning => Running
              | DFailed => Failed
              end
          end
      end
  end.

(** [afuel] bounds each ancestor search, [fuel] the main loop. *)
Definition is_dconnected_to (fuel afuel : nat) (g : ggraph) (x y : nat) (z : list nat) : outcome bool :=
  if Nat.eqb x y then Ret true
  else
    let es := get_node_edges g x in
    if existsb (fun e => match get_distal_node e x with Some b => Nat.eqb b y | None => false end) es
    then Ret true
    else dcon_loop fuel afuel g y z (rev (map (fun e => (e, x)) es)).

(** GraphUtils.py:409-420: predicates on edges; calling them on None raises AttributeError. *)
Definition gu_undirected (e : option edge) : res bool :=
  match e with None => Raise | Some e => Ok (ep_eqb (e_end1 e) TAIL && ep_eqb (e_end2 e) TAIL) end.
Definition gu_directed (e : option edge) : res bool :=
  match e with None => Raise | Some e =>
    Ok ((ep_eqb (e_end1 e) TAIL && ep_eqb (e_end2 e) ARROW) || (ep_eqb (e_end1 e) ARROW && ep_eqb (e_end2 e) TAIL)) end.
Definition gu_bidirected (e : option edge) : res bool :=
  match e with None => Raise | Some e => Ok (ep_eqb (e_end1 e) ARROW && ep_eqb (e_end2 e) ARROW) end.

(** Python's short-circuiting [and] / [or] with possibly raising operands. *)
Definition pand (a : res bool) (b : unit -> res bool) : res bool :=
  match a with Raise => Raise | Ok false => Ok false | Ok true => b tt end.
Definition por (a : res bool) (b : unit -> res bool) : res bool :=
  match a with Raise => Raise | Ok true => Ok true | Ok false => b tt end.
Definition no_edge (e : option edge) : res bool := Ok (match e with None => true | _ => false end).

Definition pif {A} (c : res bool) (t : res A) (f : unit -> res A) : res A :=
  match c with Raise => Raise | Ok true => t | Ok false => f tt end.

(** GraphUtils.py:389-407 shd_one_edge: the elif chain. *)
Definition shd_one_edge (e1 e2 : option edge) : res Z :=
  pif (pand (no_edge e1) (fun _ => gu_undirected e2)) (Ok 1) (fun _ =>
  pif (pand (no_edge e2) (fun _ => gu_undirected e1)) (Ok 1) (fun _ =>
  pif (pand (no_edge e1) (fun _ => gu_directed e2)) (Ok 2) (fun _ =>
  pif (pand (no_edge e2) (fun _ => gu_directed e1)) (Ok 2) (fun _ =>
  pif (pand (gu_undirected e1) (fun _ => gu_directed e2)) (Ok 1) (fun _ =>
  pif (pand (gu_undirected e2) (fun _ => gu_directed e1)) (Ok 1) (fun _ =>
  pif (pand (gu_directed e1) (fun _ => gu_directed e2))
      (match e1, e2 with
       | Some a, Some b => if ep_eqb (e_end1 a) (e_end2 b) then Ok 1 else Ok 0
       | _, _ => Raise end) (fun _ =>
  pif (por (gu_bidirected e1) (fun _ => gu_bidirected e2)) (Ok 2) (fun _ => Ok 0)))))))).

(** GraphUtils.py:377-387 sdh; the outer range starts at 1. *)
Definition sdh (g1 g2 : ggraph) : res Z :=
  fold_left (fun acc i1 =>
    fold_left (fun acc i2 =>
      res_bind acc (fun s => res_bind (get_edge g1 i1 i2) (fun e1 => res_bind (get_edge g2 i1 i2) (fun e2 =>
        res_bind (shd_one_edge e1 e2) (fun d => Ok (s + d))))))
      (seq (S i1) (gn g1 - S i1)) acc)
    (seq 1 (gn g1 - 1)) (Ok 0).
