(** Orientation of a CausalGraph: GraphClass.py queries, Meek.py and BackgroundKnowledgeOrientUtils.py.
    A CausalGraph is represented by its GeneralGraph ([cg.G]); node [i] is [cg.G.nodes[i]].
    [deepcopy] is the identity on values. *)
From Verif Require Import Base EdgeModel GraphModel NamedModel KnowledgeModel.
Local Open Scope Z_scope.

(** [np.where(M == v)] then [zip(L[1], L[0])]: row-major scan, reported as (column, row). *)
Definition cells (n : nat) : list (nat * nat) := flat_map (fun r => map (fun c => (r, c)) (seq 0 n)) (seq 0 n).
Definition where_code (g : ggraph) (v : Z) : list (nat * nat) :=
  map (fun rc => (snd rc, fst rc)) (filter (fun rc => gm g (fst rc) (snd rc) =? v) (cells (gn g))).

(** GraphClass.py:67-70, 72-75 *)
Definition find_arrow_heads (g : ggraph) : list (nat * nat) := where_code g 1.
Definition find_tails (g : ggraph) : list (nat * nat) := where_code g (-1).
(** GraphClass.py:77-79 *)
Definition find_undirected (g : ggraph) : list (nat * nat) :=
  filter (fun e => gm g (fst e) (snd e) =? -1) (find_tails g).
(** GraphClass.py:81-83 *)
Definition find_fully_directed (g : ggraph) : list (nat * nat) :=
  filter (fun e => gm g (fst e) (snd e) =? -1) (find_arrow_heads g).
(** GraphClass.py:85-89 *)
Definition find_bi_directed (g : ggraph) : list (nat * nat) :=
  map (fun e => (snd e, fst e))
      (filter (fun e => (gm g (snd e) (fst e) =? 1) && (gm g (fst e) (snd e) =? 1)) (find_arrow_heads g)).
(** GraphClass.py:91-93 *)
Definition find_adj (g : ggraph) : list (nat * nat) := find_tails g ++ find_arrow_heads g.
(** GraphClass.py:95-101 *)
Definition is_undirected (g : ggraph) (i j : nat) : bool := (gm g i j =? -1) && (gm g j i =? -1).
Definition is_fully_directed (g : ggraph) (i j : nat) : bool := (gm g i j =? -1) && (gm g j i =? 1).

(** [itertools.permutations(l, 2)]: ordered pairs of entries at different positions. *)
Definition perms2 {A : Type} (l : list A) : list (A * A) :=
  flat_map (fun i => flat_map (fun j =>
     if Nat.eqb i j then [] else
     match nth_error l i, nth_error l j with Some x, Some y => [(x, y)] | _, _ => [] end)
     (seq 0 (length l))) (seq 0 (length l)).

Definition pmem2 (p : nat * nat) (l : list (nat * nat)) : bool := pmem p l.
Definition triple := (nat * nat * nat)%type.
Definition t1 (t : triple) : nat := fst (fst t).
Definition t2 (t : triple) : nat := snd (fst t).
Definition t3 (t : triple) : nat := snd t.

(** GraphClass.py:103-106 *)
Definition find_unshielded_triples (g : ggraph) : list triple :=
  map (fun pq => (fst (fst pq), snd (fst pq), snd (snd pq)))
    (filter (fun pq => Nat.eqb (snd (fst pq)) (fst (snd pq)) && negb (Nat.eqb (fst (fst pq)) (snd (snd pq)))
                       && (gm g (fst (fst pq)) (snd (snd pq)) =? 0))
            (perms2 (find_adj g))).
(** GraphClass.py:108-112 *)
Definition find_triangles (g : ggraph) : list triple :=
  map (fun pq => (fst (fst pq), snd (fst pq), snd (snd pq)))
    (filter (fun pq => Nat.eqb (snd (fst pq)) (fst (snd pq)) && negb (Nat.eqb (fst (fst pq)) (snd (snd pq)))
                       && pmem2 (fst (fst pq), snd (snd pq)) (find_adj g))
            (perms2 (find_adj g))).
(** GraphClass.py:114-119; a kite (i, j, k, l). *)
Definition find_kites (g : ggraph) : list (nat * nat * nat * nat) :=
  map (fun pq => (t1 (fst pq), t2 (fst pq), t2 (snd pq), t3 (fst pq)))
    (filter (fun pq => Nat.eqb (t1 (fst pq)) (t1 (snd pq)) && Nat.eqb (t3 (fst pq)) (t3 (snd pq))
                       && Nat.ltb (t2 (fst pq)) (t2 (snd pq)) && (gm g (t2 (fst pq)) (t2 (snd pq)) =? 0))
            (perms2 (find_triangles g))).

Section Meek.
(** [block a b]: the background knowledge test guarding the orientation a --> b
    (Meek.py:42-44: [is_forbidden(a, b) or is_required(b, a)]; constantly false without knowledge). *)
Variable block : nat -> nat -> bool.

(** Meek.py:42-55 (= 59-72, 77-90, 132-144, ...): the orientation attempt a --> b; the flag is [loop].
    Under the callers' guards get_edge cannot raise (proved: both codes are -1). *)
Definition orient (s : ggraph * bool) (a b : nat) : ggraph * bool :=
  let g := fst s in
  if block a b then s else
  match get_edge g a b with
  | Ok (Some e) =>
      if is_ancestor_of g b a then s
      else (add_edge (remove_edge g e) (Edge a b TAIL ARROW), true)
  | _ => s
  end.

(** Meek.py:40-55 *)
Definition rule1 (s : ggraph * bool) (t : triple) : ggraph * bool :=
  let '(i, j, k) := t in
  if is_fully_directed (fst s) i j && is_undirected (fst s) j k then orient s j k else s.
(** Meek.py:57-72 *)
Definition rule2 (s : ggraph * bool) (t : triple) : ggraph * bool :=
  let '(i, j, k) := t in
  if is_fully_directed (fst s) i j && is_fully_directed (fst s) j k && is_undirected (fst s) i k
  then orient s i k else s.
(** Meek.py:74-90 *)
Definition rule3 (s : ggraph * bool) (t : nat * nat * nat * nat) : ggraph * bool :=
  let '(i, j, k, l) := t in
  if is_undirected (fst s) i j && is_undirected (fst s) i k && is_fully_directed (fst s) j l
     && is_fully_directed (fst s) k l && is_undirected (fst s) i l
  then orient s i l else s.

(** Meek.py:38-90: one execution of the body of [while loop]. *)
Definition meek_round (UT Tri : list triple) (Kite : list (nat * nat * nat * nat)) (g : ggraph) : ggraph * bool :=
  fold_left rule3 Kite (fold_left rule2 Tri (fold_left rule1 UT (g, false))).
(** Meek.py:36-92: [None] = out of fuel. *)
Fixpoint meek_loop (fuel : nat) (UT Tri : list triple) (Kite : list (nat * nat * nat * nat)) (g : ggraph)
  : option ggraph :=
  match fuel with
  | O => None
  | S f => let '(g', lp) := meek_round UT Tri Kite g in
           if lp then meek_loop f UT Tri Kite g' else Some g'
  end.
(** Meek.py:11-92 meek *)
Definition meek_with (fuel : nat) (g : ggraph) : option ggraph :=
  meek_loop fuel (find_unshielded_triples g) (find_triangles g) (find_kites g) g.

(** Meek.py:123-164: one definite non-collider. *)
Definition drule1 (s : ggraph * bool) (t : triple) : ggraph * bool :=
  let '(i, j, k) := t in
  if is_fully_directed (fst s) i j && is_undirected (fst s) j k && negb (block j k) then orient s j k
  else if is_fully_directed (fst s) k j && is_undirected (fst s) j i && negb (block j i) then orient s j i
  else s.
Definition tmem (t : triple) (l : list triple) : bool :=
  existsb (fun u => Nat.eqb (t1 u) (t1 t) && Nat.eqb (t2 u) (t2 t) && Nat.eqb (t3 u) (t3 t)) l.
(** Meek.py:183-200 *)
Definition drule3 (UC NUC : list triple) (s : ggraph * bool) (t : nat * nat * nat * nat) : ggraph * bool :=
  let '(i, j, k, l) := t in
  if (tmem (j, l, k) UC || tmem (k, l, j) UC) && (tmem (j, i, k) NUC || tmem (k, i, j) NUC)
     && is_undirected (fst s) i l
  then orient s i l else s.
Definition definite_round (UC NUC Tri : list triple) (Kite : list (nat * nat * nat * nat)) (g : ggraph) : ggraph * bool :=
  fold_left (drule3 UC NUC) Kite (fold_left rule2 Tri (fold_left drule1 NUC (g, false))).
Fixpoint definite_loop (fuel : nat) (UC NUC Tri : list triple) (Kite : list (nat * nat * nat * nat)) (g : ggraph)
  : option ggraph :=
  match fuel with
  | O => None
  | S f => let '(g', lp) := definite_round UC NUC Tri Kite g in
           if lp then definite_loop f UC NUC Tri Kite g' else Some g'
  end.
(** Meek.py:95-202 definite_meek; UC and NUC are cg.definite_UC and cg.definite_non_UC. *)
Definition definite_meek_with (fuel : nat) (UC NUC : list triple) (g : ggraph) : option ggraph :=
  definite_loop fuel UC NUC (find_triangles g) (find_kites g) g.
End Meek.

(** Meek.py:42-44; [nm i] is the name of node i, [rx] regular-expression matching. *)
Definition bk_block (rx : nat -> nat -> bool) (nm : nat -> nat) (K : option bk) (a b : nat) : bool :=
  match K with
  | None => false
  | Some K => is_forbidden rx K (nm a) (nm b) || is_required rx K (nm b) (nm a)
  end.
Definition meek (fuel : nat) (rx : nat -> nat -> bool) (nm : nat -> nat) (K : option bk) (g : ggraph) : option ggraph :=
  meek_with (bk_block rx nm K) fuel g.
Definition definite_meek (fuel : nat) (rx : nat -> nat -> bool) (nm : nat -> nat) (K : option bk)
  (UC NUC : list triple) (g : ggraph) : option ggraph :=
  definite_meek_with (bk_block rx nm K) fuel UC NUC g.

(** BackgroundKnowledgeOrientUtils.py:19-37, with [forb]/[req] the two queries on node indices.
    The edge list is computed before the loop. *)
Definition bk_orient_step (forb req : nat -> nat -> bool) (g : ggraph) (e : edge) : ggraph :=
  let a := e_node1 e in let b := e_node2 e in
  if is_undirected_from_to g a b then
    if forb b a then add_directed_edge (remove_edge g e) a b
    else if forb a b then add_directed_edge (remove_edge g e) b a
    else if req b a then add_directed_edge (remove_edge g e) b a
    else if req a b then add_directed_edge (remove_edge g e) a b
    else g
  else g.
Definition orient_by_knowledge (forb req : nat -> nat -> bool) (g : ggraph) : ggraph :=
  fold_left (bk_orient_step forb req) (get_graph_edges g) g.
Definition orient_by_background_knowledge (rx : nat -> nat -> bool) (nm : nat -> nat) (K : bk) (g : ggraph) : ggraph :=
  orient_by_knowledge (fun a b => is_forbidden rx K (nm a) (nm b)) (fun a b => is_required rx K (nm a) (nm b)) g.
