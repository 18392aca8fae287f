(** The order of edges (Edge.py:207-208) and list.sort with it. *)
From Verif Require Import Base EdgeModel.

(** Edge.py:207-208 __lt__.  Nodes are compared by name (GraphNode.py:67-68); a node is the rank of its name here. *)
Definition edge_lt (a b : edge) : bool := Nat.ltb (e_node1 a) (e_node1 b) || Nat.ltb (e_node2 a) (e_node2 b).

(** CPython's list.sort on fewer than 64 elements (listobject.c: count_run, then binarysort): the longest initial run that never goes down, or that
    always goes down and is then reversed; every further element is put in by bisection.  Not modelled: longer lists (merging of runs). *)
Fixpoint up_run {A} (lt : A -> A -> bool) (p : A) (l : list A) : list A * list A :=
  match l with [] => ([], []) | x :: r => if lt x p then ([], l) else let '(u, v) := up_run lt x r in (x :: u, v) end.
Fixpoint down_run {A} (lt : A -> A -> bool) (p : A) (l : list A) : list A * list A :=
  match l with [] => ([], []) | x :: r => if lt x p then let '(u, v) := down_run lt x r in (x :: u, v) else ([], l) end.
(** The place of x between positions l and r of s (bisection; k bounds the halvings). *)
Fixpoint bisect {A} (lt : A -> A -> bool) (k l r : nat) (x : A) (s : list A) : nat :=
  match k with
  | O => l
  | S k' => if Nat.ltb l r then let m := (l + (r - l) / 2)%nat in if lt x (nth m s x) then bisect lt k' l m x s else bisect lt k' (S m) r x s else l
  end.
Definition insert_at {A} (i : nat) (x : A) (s : list A) : list A := firstn i s ++ x :: skipn i s.
Definition put {A} (lt : A -> A -> bool) (s : list A) (x : A) : list A := insert_at (bisect lt (length s) 0 (length s) x s) x s.
Definition py_sort {A} (lt : A -> A -> bool) (l : list A) : list A :=
  match l with
  | [] => []
  | [x] => [x]
  | x :: y :: r =>
      if lt y x then let '(u, v) := down_run lt y r in fold_left (put lt) v (rev (x :: y :: u))
      else let '(u, v) := up_run lt y r in fold_left (put lt) v (x :: y :: u)
  end.
