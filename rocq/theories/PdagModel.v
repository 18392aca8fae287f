(** PDAG2DAG.py: extension of a partially directed graph to a DAG. *)
From Verif Require Import Base EdgeModel GraphModel UtilsModel MeekModel.
Local Open Scope Z_scope.

(** PDAG2DAG.py:25-30: keep only the directed edges. *)
Definition is_dir_edge (e : edge) : bool :=
  (ep_eqb (e_end1 e) ARROW && ep_eqb (e_end2 e) TAIL) || (ep_eqb (e_end1 e) TAIL && ep_eqb (e_end2 e) ARROW).
Definition strip_step (g : ggraph) (e : edge) : ggraph := if is_dir_edge e then g else remove_edge g e.
Definition strip (g : ggraph) : ggraph := fold_left strip_step (get_graph_edges g) g.

(** [inde] is represented by the list of the indices whose entry is 1, in the order they were set. *)
Definition alive (rem : list nat) (k : nat) : bool := negb (memb k rem).

(** PDAG2DAG.py:38-39: no k still present with graph[k,i] == 1. *)
Definition no_outgoing (g : ggraph) (rem : list nat) (i : nat) : bool :=
  Nat.eqb (length (filter (fun k => (gm g k i =? 1) && alive rem k) (seq 0 (gn g)))) 0.
(** PDAG2DAG.py:41-43 *)
Definition Nx (g : ggraph) (rem : list nat) (i : nat) : list nat :=
  filter (fun k => (gm g k i =? -1) && (gm g i k =? -1) && alive rem k) (seq 0 (gn g)).
(** PDAG2DAG.py:44-46 (numpy unions and intersections are sorted, as is [seq]). *)
Definition Ax (g : ggraph) (rem : list nat) (i : nat) : list nat :=
  filter (fun k => (((gm g i k =? 1) || (gm g k i =? 1)) && alive rem k) || memb k (Nx g rem i)) (seq 0 (gn g)).
(** PDAG2DAG.py:63-70 check2 *)
Definition check2 (g : ggraph) (nx ax : list nat) : bool :=
  forallb (fun x => Nat.eqb (length (filter (fun y => gm g x y =? 0) (filter (fun y => negb (Nat.eqb y x)) ax))) 0) nx.

(** PDAG2DAG.py:37-51: sign == 2 *)
Definition selectable (g : ggraph) (rem : list nat) (i : nat) : bool :=
  no_outgoing g rem i &&
  (if Nat.ltb 0 (length (Nx g rem i)) then check2 g (Nx g rem i) (Ax g rem i) else true).

(** PDAG2DAG.py:35-56: one node of the inner loop; the state is (Gd, inde). *)
Definition pd_step (g : ggraph) (s : ggraph * list nat) (i : nat) : ggraph * list nat :=
  if memb i (snd s) then s
  else if selectable g (snd s) i then
    (fold_left (fun d k => add_edge d (Edge k i TAIL ARROW))
       (filter (fun k => (gm g k i =? -1) && (gm g i k =? -1)) (seq 0 (gn g))) (fst s), snd s ++ [i])
  else s.
Definition pd_pass (g : ggraph) (s : ggraph * list nat) : ggraph * list nat := fold_left (pd_step g) (seq 0 (gn g)) s.
(** PDAG2DAG.py:34-58; [None] = out of fuel (still looping). *)
Fixpoint pd_loop (fuel : nat) (g : ggraph) (s : ggraph * list nat) : option ggraph :=
  if forallb (fun i => memb i (snd s)) (seq 0 (gn g)) then Some (fst s) else
  match fuel with O => None | S f => pd_loop f g (pd_pass g s) end.
(** PDAG2DAG.py:10-60 pdag2dag *)
Definition pdag2dag (fuel : nat) (g : ggraph) : option ggraph := pd_loop fuel g (strip g, []).
