(** Model of GraphUtils.get_sepset (causallearn/utils/GraphUtils.py:146-256) and of its two callers GeneralGraph.get_sepset and Dag.get_sepset. *)
From Verif Require Import Base EdgeModel GraphModel UtilsModel.
Local Open Scope Z_scope.

(** GraphUtils.py:242-256 node_reachable.  The list [colliders] is only written, never read: it is left out. *)
Definition node_reachable (fuel : nat) (g : ggraph) (a b c : nat) (z : list nat) : outcome bool :=
  match is_def_collider g a b c with
  | Raise => Failed
  | Ok collider =>
      if negb collider && negb (memb b z) then Ret true
      else match is_ancestor fuel g b z with
           | Ret anc => Ret (collider && anc)
           | Running => Running
           | Failed => Failed
           end
  end.
(** GraphUtils.py:229-240 get_pass_nodes. *)
Fixpoint pass_loop (fuel : nat) (g : ggraph) (a b : nat) (z cs : list nat) : outcome (list nat) :=
  match cs with
  | [] => Ret []
  | c :: r =>
      if Nat.eqb c a then pass_loop fuel g a b z r
      else match node_reachable fuel g a b c z with
           | Ret v => match pass_loop fuel g a b z r with Ret l => Ret (if v then c :: l else l) | Running => Running | Failed => Failed end
           | Running => Running
           | Failed => Failed
           end
  end.
Definition get_pass_nodes (fuel : nat) (g : ggraph) (a b : nat) (z : list nat) : outcome (list nat) := pass_loop fuel g a b z (get_adjacent_nodes g b).
(** A for loop over nodes that stops at the first call that returns True; the calls change z. *)
Fixpoint any_found (f : nat -> list nat -> outcome (bool * list nat)) (cs z : list nat) : outcome (bool * list nat) :=
  match cs with
  | [] => Ret (false, z)
  | c :: r =>
      match f c z with
      | Ret (true, z') => Ret (true, z')
      | Ret (false, z') => any_found f r z'
      | Running => Running
      | Failed => Failed
      end
  end.
(** list.remove: the first occurrence. *)
Fixpoint remove_first (b : nat) (z : list nat) : list nat :=
  match z with [] => [] | c :: r => if Nat.eqb c b then r else c :: remove_first b r end.
(** GraphUtils.py:185: [b.get_node_type == NodeType.LATENT] compares the method (it is not called) with a constant: always False, whatever the
    type of the node. *)
Definition latent_test (latent : nat -> bool) (b : nat) : bool := false.
(** GraphUtils.py:175-227 sepset_path_found: whether it returned True, and the list z afterwards.  [fuel] bounds the recursion, [afuel] the ancestor
    searches.  The list path is restored by every return (b is appended only when it is not in it), so it is an argument. *)
Fixpoint path_found (fuel afuel : nat) (g : ggraph) (latent : nat -> bool) (y a b : nat) (path z : list nat) : outcome (bool * list nat) :=
  match fuel with
  | O => Running
  | S f =>
      if Nat.eqb b y then Ret (true, z)
      else if memb b path then Ret (false, z)
      else
        let visit := fun c z => path_found f afuel g latent y b c (path ++ [b]) z in
        if latent_test latent b || memb b z then
          match get_pass_nodes afuel g a b z with
          | Ret cs => any_found visit cs z
          | Running => Running
          | Failed => Failed
          end
        else
          match get_pass_nodes afuel g a b z with
          | Ret cs1 =>
              match any_found visit cs1 z with
              | Ret (false, z1) => Ret (false, z1)
              | Ret (true, z1) =>
                  let z1b := z1 ++ [b] in
                  match get_pass_nodes afuel g a b z1b with
                  | Ret cs2 =>
                      match any_found visit cs2 z1b with
                      | Ret (false, z2) => Ret (false, z2)
                      | Ret (true, z2) => Ret (true, remove_first b z2)
                      | Running => Running
                      | Failed => Failed
                      end
                  | Running => Running
                  | Failed => Failed
                  end
              | Running => Running
              | Failed => Failed
              end
          | Running => Running
          | Failed => Failed
          end
  end.
Fixpoint list_eqb (l m : list nat) : bool :=
  match l, m with [], [] => true | a :: l, b :: m => Nat.eqb a b && list_eqb l m | _, _ => false end.
(** GraphUtils.py:158-171: the while loop.  [srt] is list.sort, which orders nodes by name. *)
Fixpoint visit_loop (fuel pfuel afuel : nat) (g : ggraph) (latent : nat -> bool) (srt : list nat -> list nat) (x y : nat) (z : list nat) : outcome (option (list nat)) :=
  match fuel with
  | O => Running
  | S f =>
      match any_found (fun b z => path_found pfuel afuel g latent y x b [x] z) (get_adjacent_nodes g x) z with
      | Ret (true, _) => Ret None
      | Ret (false, z') => if list_eqb (srt z') (srt z) then Ret (Some (srt z')) else visit_loop f pfuel afuel g latent srt x y (srt z')
      | Running => Running
      | Failed => Failed
      end
  end.
(** GraphUtils.py:153-173 get_sepset_visit and 146-151 get_sepset. *)
Definition get_sepset_visit (fuel : nat) (g : ggraph) (latent : nat -> bool) (srt : list nat -> list nat) (x y : nat) : outcome (option (list nat)) :=
  if Nat.eqb x y then Ret None else visit_loop fuel fuel fuel g latent srt x y [].
Definition get_sepset (fuel : nat) (g : ggraph) (latent : nat -> bool) (srt : list nat -> list nat) (x y : nat) : outcome (option (list nat)) :=
  match get_sepset_visit fuel g latent srt x y with
  | Ret None => get_sepset_visit fuel g latent srt y x
  | o => o
  end.
(** GeneralGraph.py:981-983 get_sepset. *)
Definition gg_get_sepset := get_sepset.
(** Dag.py:732-733 get_sepset calls GraphUtils.get_sepset(node1, node2, self) on the class: the argument graph is missing, TypeError. *)
Definition dag_get_sepset (x y : nat) : outcome (option (list nat)) := Failed.
