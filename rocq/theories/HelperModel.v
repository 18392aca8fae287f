(** utils/PCUtils/Helper.py (graphs as plain adjacency matrices) and the triple finders of utils/GraphUtils.py.
    An adjacency matrix of Helper.py is a numpy array of shape (n, n) with entries 1, 0, -1 or NaN; here a function to Z, NaN being any
    other integer (the code only compares entries with 1, 0 and -1, and NaN differs from each of them). *)
From Verif Require Import Base EdgeModel GraphModel UtilsModel MeekModel SkelModel PCModel.
Local Open Scope Z_scope.

(** [L = np.where(A == v)] then [list(zip(L[0], L[1]))]: row-major scan. *)
Definition hwhere (n : nat) (A : mat) (v : Z) : list (nat * nat) := filter (fun rc => A (fst rc) (snd rc) =? v) (cells n).

(** Helper.py:172-176 neighbors *)
Definition hneighbors (n : nat) (A : mat) (i : nat) : list nat :=
  filter (fun j => A i j =? 0) (seq 0 n) ++ filter (fun j => A i j =? 1) (seq 0 n).
(** Helper.py:181-189 degree_graph *)
Definition degree_graph (n : nat) (A : mat) : nat :=
  fold_left (fun m i => let d := length (hneighbors n A i) in if Nat.ltb m d then d else m) (seq 0 n) 0%nat.
(** Helper.py:295-301 find_all_conditioning_sets; powerset (114-119) is in PCModel.v; [list(set(L1 + L2))] (134-136 list_union) has no specified order, here one representative of
    each tuple in order of last occurrence. *)
Definition find_all_conditioning_sets (n : nat) (A : mat) (x y : nat) : list (list nat) :=
  nodup (list_eq_dec Nat.eq_dec) (powerset (hneighbors n A x) ++ powerset (hneighbors n A y)).
(** Helper.py:306-308, 313-315 *)
Definition find_conditioning_sets_with_middle (n : nat) (A : mat) (x y z : nat) : list (list nat) :=
  filter (fun T => memb z T) (find_all_conditioning_sets n A x y).
Definition find_conditioning_sets_without_middle (n : nat) (A : mat) (x y z : nat) : list (list nat) :=
  filter (fun T => negb (memb z T)) (find_all_conditioning_sets n A x y).

(** Helper.py:195-198 find_circ_arrow, 203-206 find_tail *)
Definition find_circ_arrow (n : nat) (A : mat) : list (nat * nat) := hwhere n A 1.
Definition find_tail (n : nat) (A : mat) : list (nat * nat) := hwhere n A 0.
(** Helper.py:211-213 find_undirected, 218-220 find_fully_directed, 225-227 find_bi_directed, 232-234 find_adj *)
Definition hfind_undirected (n : nat) (A : mat) : list (nat * nat) := filter (fun e => A (snd e) (fst e) =? 0) (find_tail n A).
Definition hfind_directed (n : nat) (A : mat) : list (nat * nat) := filter (fun e => A (snd e) (fst e) =? 0) (find_circ_arrow n A).
Definition hfind_bidirected (n : nat) (A : mat) : list (nat * nat) := filter (fun e => A (snd e) (fst e) =? 1) (find_circ_arrow n A).
Definition hfind_adj (n : nat) (A : mat) : list (nat * nat) := find_tail n A ++ find_circ_arrow n A.
(** Helper.py:239-241, 246-248, 253-255, 260-263 *)
Definition his_directed (A : mat) (i j : nat) : bool := (A i j =? 1) && (A j i =? 0).
Definition his_undirected (A : mat) (i j : nat) : bool := (A i j =? 0) && (A j i =? 0).
Definition his_bidirected (A : mat) (i j : nat) : bool := (A i j =? 1) && (A j i =? 1).
Definition his_adj (A : mat) (i j : nat) : bool := his_directed A i j || his_directed A j i || his_undirected A i j || his_bidirected A i j.

(** Helper.py:268-271 find_unshielded_triples *)
Definition hfind_ut (n : nat) (A : mat) : list triple :=
  map (fun pq => (fst (fst pq), snd (fst pq), snd (snd pq)))
    (filter (fun pq => Nat.eqb (snd (fst pq)) (fst (snd pq)) && negb (Nat.eqb (fst (fst pq)) (snd (snd pq)))
                       && (A (fst (fst pq)) (snd (snd pq)) =? -1)) (perms2 (hfind_adj n A))).
(** Helper.py:276-280 find_triangles *)
Definition hfind_tri (n : nat) (A : mat) : list triple :=
  map (fun pq => (fst (fst pq), snd (fst pq), snd (snd pq)))
    (filter (fun pq => Nat.eqb (snd (fst pq)) (fst (snd pq)) && negb (Nat.eqb (fst (fst pq)) (snd (snd pq)))
                       && pmem2 (fst (fst pq), snd (snd pq)) (hfind_adj n A)) (perms2 (hfind_adj n A))).
(** Helper.py:285-290 find_kites *)
Definition hfind_kites (n : nat) (A : mat) : list (nat * nat * nat * nat) :=
  map (fun pq => (t1 (fst pq), t2 (fst pq), t2 (snd pq), t3 (fst pq)))
    (filter (fun pq => Nat.eqb (t1 (fst pq)) (t1 (snd pq)) && Nat.eqb (t3 (fst pq)) (t3 (snd pq))
                       && Nat.ltb (t2 (fst pq)) (t2 (snd pq)) && (A (t2 (fst pq)) (t2 (snd pq)) =? -1))
            (perms2 (hfind_tri n A))).
(** Helper.py:320-325 find_uc *)
Definition find_uc (n : nat) (A : mat) : list triple :=
  map (fun pq => (fst (fst pq), snd (fst pq), fst (snd pq)))
    (filter (fun pq => Nat.eqb (snd (fst pq)) (snd (snd pq)) && Nat.ltb (fst (fst pq)) (fst (snd pq))
                       && (A (fst (fst pq)) (fst (snd pq)) =? -1)) (perms2 (hfind_directed n A))).

(** Helper.py:349 [pattern[pattern == 1] = 0] *)
Definition no_heads (A : mat) : mat := fun i j => if A i j =? 1 then 0 else A i j.
(** Helper.py:350-353 *)
Definition put_colliders (UC : list triple) (P : mat) : mat :=
  fold_left (fun P t => let '(i, j, k) := t in upd (upd P i j 1) k j 1) UC P.
(** Helper.py:362-365, 367-370, 372-379: one item of each of the three loops; the flag is [Loop]. *)
Definition hrule1 (s : mat * bool) (t : triple) : mat * bool :=
  let '(i, j, k) := t in
  if his_directed (fst s) i j && his_undirected (fst s) j k then (upd (fst s) j k 1, true) else s.
Definition hrule2 (s : mat * bool) (t : triple) : mat * bool :=
  let '(i, j, k) := t in
  if his_directed (fst s) i j && his_directed (fst s) j k && his_undirected (fst s) i k then (upd (fst s) i k 1, true) else s.
Definition hrule3 (s : mat * bool) (t : nat * nat * nat * nat) : mat * bool :=
  let '(i, j, k, l) := t in
  if his_undirected (fst s) i j && his_undirected (fst s) i k && his_directed (fst s) j l && his_directed (fst s) k l
     && his_undirected (fst s) i l then (upd (fst s) i l 1, true) else s.
Definition hround (UT Tri : list triple) (Kites : list (nat * nat * nat * nat)) (P : mat) : mat * bool :=
  fold_left hrule3 Kites (fold_left hrule2 Tri (fold_left hrule1 UT (P, false))).
(** Helper.py:359-379 [while Loop]; [None]: still running after [fuel] rounds. *)
Fixpoint hloop (fuel : nat) (UT Tri : list triple) (Kites : list (nat * nat * nat * nat)) (P : mat) : option mat :=
  match fuel with
  | O => None
  | S f => let '(P', lp) := hround UT Tri Kites P in if lp then hloop f UT Tri Kites P' else Some P'
  end.
(** Helper.py:346-381 dag2pattern *)
Definition dag2pattern (fuel n : nat) (A : mat) : option mat :=
  let P := put_colliders (find_uc n A) (no_heads A) in
  hloop fuel (hfind_ut n P) (hfind_tri n P) (hfind_kites n P) P.

(** Helper.py:330-341 rearrange_columns; [vars]: the numbers read from the column names, less one.
    [new_indices[var_indices[i]] = i] for i from 1; entry 0 stays from np.zeros_like.  An index out of range raises IndexError (not modelled). *)
Definition new_indices (vars : list nat) : nat -> nat :=
  fold_left (fun f i => fun v => if Nat.eqb v (nth i vars 0%nat) then i else f v) (seq 1 (length vars - 1)) (fun _ => 0%nat).
Definition rearrange_columns (A : mat) (vars : list nat) : mat := fun a b => A (new_indices vars a) (new_indices vars b).

(** A TETRAD text file, tokenised: the number of names on the first row, and the edge lines [k. Xl OP Xr] with node numbers less one. *)
Inductive tmark := TArrow | TLine | TBi.
Definition tline := (nat * tmark * nat)%type.
Definition tfile := (nat * list tline)%type.
(** Helper.py:491-516 adjmat2tetrad *)
Definition adjmat2tetrad (n : nat) (A : mat) : tfile :=
  (n, map (fun e => (fst e, TArrow, snd e)) (hfind_directed n A)
      ++ map (fun e => (fst e, TLine, snd e)) (filter (fun e => Nat.ltb (fst e) (snd e)) (hfind_undirected n A))
      ++ map (fun e => (fst e, TBi, snd e))
             (filter (fun e => (A (snd e) (fst e) =? 1) && Nat.ltb (fst e) (snd e)) (find_circ_arrow n A))).
(** The entries [adjmat[LEFT, RIGHT]] and [adjmat[RIGHT, LEFT]] a line stands for. *)
Definition fwd (m : tmark) : Z := match m with TArrow => 1 | TLine => 0 | TBi => 1 end.
Definition bwd (m : tmark) : Z := match m with TArrow => 0 | TLine => 0 | TBi => 1 end.
(** The NaN of Helper.py:439. *)
Definition nan : Z := 9.
(** Helper.py:447-483: one line; None: ValueError.  Simplification: node numbers out of range, which raise IndexError, are not told apart. *)
Definition tetrad_line (A : mat) (t : tline) : option mat :=
  let '(l, m, r) := t in
  if negb (A l r =? -1) && negb (A r l =? -1)
  then if negb (A l r =? fwd m) || negb (A r l =? bwd m) then None else Some A
  else Some (upd (upd A l r (fwd m)) r l (bwd m)).
Definition tetrad_start : mat := fun i j => if Nat.eqb i j then nan else -1.
(** Helper.py:427-486 tetrad2adjmat: the number of rows and the matrix.  Names are split at commas or semicolons; a row with neither
    (one node) gives the empty string, whose length is 0. *)
Definition tetrad2adjmat (f : tfile) : option (nat * mat) :=
  let n := if Nat.leb (fst f) 1 then 0%nat else fst f in
  match fold_left (fun s t => match s with Some A => tetrad_line A t | None => None end) (snd f) (Some tetrad_start) with
  | Some A => Some (n, A)
  | None => None
  end.

(** networkx node labels and coloured arcs *)
Inductive label := LInt (i : nat) | LStr (i : nat).
Inductive colour := Green | Blue | Red.
(** Helper.py:385-399 adjmat2digraph: node labels, and arcs in insertion order (a later [add_edge] of the same arc overwrites its colour). *)
Definition adjmat2digraph (n : nat) (A : mat) : list label * list (nat * nat * colour) :=
  (map LInt (seq 0 n),
   map (fun e => (e, Green)) (hfind_undirected n A) ++ map (fun e => (e, Blue)) (hfind_directed n A)
   ++ map (fun e => (e, Red)) (hfind_bidirected n A)).
Definition label_eqb (a b : label) : bool :=
  match a, b with LInt i, LInt j => Nat.eqb i j | LStr i, LStr j => Nat.eqb i j | _, _ => false end.
(** Helper.py:419-422 is_dsep.  [sep] stands for the answer of networkx.is_d_separator, which raises NodeNotFound (here None) when a queried
    label is not a node of the graph. *)
Definition is_dsep (sep : list label -> list label -> list label -> bool) (g : list label * list (nat * nat * colour)) (x y : nat) (Z : list nat) : option bool :=
  let q := LStr x :: LStr y :: map LStr Z in
  if forallb (fun a => existsb (label_eqb a) (fst g)) q then Some (sep [LStr x] [LStr y] (map LStr Z)) else None.

(** ** GraphUtils.py *)
(** GeneralGraph.py:589-612 get_graph_edges (on a DAG Dag.py:430-441 lists the same), as the pairs (get_node1(), get_node2()). *)
Definition edge_pairs (g : ggraph) : list (nat * nat) := map (fun e => (e_node1 e, e_node2 e)) (get_graph_edges g).
(** GraphUtils.py:295-326 find_unshielded_triples; note line 306, where node4 is read from get_node1. *)
Definition gu_ut_pair (g : ggraph) (pq : (nat * nat) * (nat * nat)) : list triple :=
  let '((n1, n2), (n3, _)) := pq in let n4 := n3 in
  if Nat.eqb n1 n3 && (negb (Nat.eqb n2 n4) && (gm g n2 n4 =? 0)) then [(n2, n1, n4)]
  else if Nat.eqb n1 n4 && (negb (Nat.eqb n2 n3) && (gm g n2 n3 =? 0)) then [(n2, n1, n3)]
  else if Nat.eqb n2 n3 && (negb (Nat.eqb n1 n4) && (gm g n1 n4 =? 0)) then [(n1, n2, n4)]
  else if Nat.eqb n2 n4 && (negb (Nat.eqb n2 n3) && (gm g n2 n3 =? 0)) then [(n1, n2, n3)]
  else [].
Definition gu_find_unshielded_triples (g : ggraph) : list triple := flat_map (gu_ut_pair g) (perms2 (edge_pairs g)).
(** GraphUtils.py:331-359 find_triangles *)
Definition gu_tri_pair (g : ggraph) (pq : (nat * nat) * (nat * nat)) : list triple :=
  let '((n1, n2), (n3, n4)) := pq in
  if Nat.eqb n1 n3 && is_adjacent_to g n2 n4 then [(n2, n1, n4)]
  else if Nat.eqb n1 n4 && is_adjacent_to g n2 n3 then [(n2, n1, n3)]
  else if Nat.eqb n2 n3 && is_adjacent_to g n1 n4 then [(n1, n2, n4)]
  else if Nat.eqb n2 n4 && is_adjacent_to g n1 n3 then [(n1, n2, n3)]
  else [].
Definition gu_find_triangles (g : ggraph) : list triple := flat_map (gu_tri_pair g) (perms2 (edge_pairs g)).
(** GraphUtils.py:364-373 find_kites *)
Definition gu_find_kites (g : ggraph) : list (nat * nat * nat * nat) :=
  map (fun pq => (t1 (fst pq), t2 (fst pq), t2 (snd pq), t3 (fst pq)))
    (filter (fun pq => Nat.eqb (t1 (fst pq)) (t1 (snd pq)) && Nat.eqb (t3 (fst pq)) (t3 (snd pq))
                       && Nat.ltb (t2 (fst pq)) (t2 (snd pq)) && (gm g (t2 (fst pq)) (t2 (snd pq)) =? 0))
            (perms2 (gu_find_triangles g))).
