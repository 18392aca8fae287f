(** CD-NOD: CDNOD.py cdnod_alg. *)
From Verif Require Import Base EdgeModel GraphModel UtilsModel KnowledgeModel MeekModel SkelModel PCModel.
Local Open Scope Z_scope.

(** CDNOD.py:92-94: every edge at the index node is pointed away from it.  The list of adjacent nodes is computed before the loop. *)
Definition orient_index (c : nat) (g : ggraph) : ggraph := fold_left (fun h i => add_directed_edge h c i) (get_adjacent_nodes g c) g.
(** CDNOD.py:169-172 (mvcdnod_alg): the same loop with the arguments the other way round. *)
Definition mv_orient_index (c : nat) (g : ggraph) : ggraph := fold_left (fun h i => add_directed_edge h i c) (get_adjacent_nodes g c) g.
(** CDNOD.py:47-127 cdnod_alg, on the data with the index as last column (CDNOD.py:36): [n] columns, the index is n - 1.
    The knowledge is not handed to the skeleton search (line 89). *)
Definition cdnod_alg (fuel : nat) (rx : nat -> nat -> bool) (nm : nat -> nat) (K : option bk) (pv : nat -> nat -> list nat -> Z) (alpha : Z)
    (stable : bool) (uc_rule : nat) (uc_priority : option nat) (n : nat) : outcome ggraph :=
  obind (of_opt (skeleton_discovery (fun x y cs => pv x y cs >? alpha) (fun _ _ => false) stable fuel n)) (fun gs =>
    let g0 := orient_index (n - 1) (fst gs) in
    let g1 := match K with None => g0 | Some k => orient_by_background_knowledge rx nm k g0 end in
    uc_and_meek fuel rx nm K pv alpha uc_rule uc_priority (snd gs) g1).
