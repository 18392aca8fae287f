(** Permutation based search: gst.py (grow-shrink trees), BOSS.py, GRaSP.py.
    Scores are integers in exact arithmetic: [sc v P] is -LocalScoreClass.score_nocache(v, P) (LocalScoreFunctionClass.py:51-55), and the
    tolerance 1e-6 is a positive integer [eps] in the same unit.  Rounding, timing and printing are not modelled. *)
From Verif Require Import Base GraphModel UtilsModel CpdagModel.
Local Open Scope Z_scope.

(** list.remove(x): the first occurrence.  The ValueError of a missing x does not occur. *)
Fixpoint lremove (x : nat) (l : list nat) : list nat :=
  match l with [] => [] | a :: r => if Nat.eqb a x then r else a :: lremove x r end.
(** list.index(x); the ValueError of a missing x does not occur (the length is returned). *)
Fixpoint lindex (x : nat) (l : list nat) : nat :=
  match l with [] => O | a :: r => if Nat.eqb a x then O else S (lindex x r) end.
(** list.insert(k, x) *)
Definition linsert (k x : nat) (l : list nat) : list nat := firstn k l ++ x :: skipn k l.
(** f[k] = v *)
Definition fset {A : Type} (f : nat -> A) (k : nat) (v : A) : nat -> A := fun x => if Nat.eqb x k then v else f x.

Section GST.
Variable sc : nat -> list nat -> Z.

(** ** gst.py *)
(** gst.py:1-11 GSTNode: add, grow_score, shrink_score, branches, remove. *)
Inductive gnode : Type := GN (add : nat) (gscore sscore : Z) (branches : option (list gnode)) (removed : option (list nat)).
Definition n_add (n : gnode) : nat := let '(GN a _ _ _ _) := n in a.
Definition n_gscore (n : gnode) : Z := let '(GN _ g _ _ _) := n in g.
Definition new_node (a : nat) (s : Z) : gnode := GN a s s None None.

(** gst.py:13-14 __lt__ with list.sort (stable). *)
Fixpoint n_insert (x : gnode) (l : list gnode) : list gnode :=
  match l with [] => [x] | y :: r => if n_gscore y <? n_gscore x then y :: n_insert x r else x :: l end.
Definition n_sort (l : list gnode) : list gnode := fold_right n_insert [] l.
(** gst.py:16-25 grow *)
Definition grow (v : nat) (g : Z) (avail parents : list nat) : list gnode :=
  n_sort (filter (fun b => g <? n_gscore b) (map (fun a => new_node a (sc v (parents ++ [a]))) avail)).
(** gst.py:31-38: one pass over the parents. *)
Definition shrink_one (v : nat) (t : list nat * Z * option nat) (r : nat) : list nat * Z * option nat :=
  let '(parents, s, best) := t in
  let parents1 := lremove r parents in
  let score := sc v parents1 in
  if s <? score then (parents1 ++ [r], score, Some r) else (parents1 ++ [r], s, best).
(** gst.py:27-41 shrink: (parents, shrink_score, remove).  Every round removes a parent: the fuel S |parents| is enough. *)
Fixpoint shrink (fuel : nat) (v : nat) (parents : list nat) (s : Z) (rm : list nat) : list nat * Z * list nat :=
  match fuel with
  | O => (parents, s, rm)
  | S f =>
      match fold_left (shrink_one v) parents (parents, s, None) with
      | (ps, s', Some b) => shrink f v (lremove b ps) s' (rm ++ [b])
      | (ps, s', None) => (ps, s', rm)
      end
  end.
(** gst.py:45-49: the first branch whose variable is in the prefix: (branches before it, branch, branches after it, available). *)
Fixpoint find_branch (prefix : list nat) (brs : list gnode) (avail : list nat) : option (list gnode * gnode * list gnode * list nat) :=
  match brs with
  | [] => None
  | b :: r =>
      let avail' := lremove (n_add b) avail in
      if memb (n_add b) prefix then Some ([], b, r, avail')
      else match find_branch prefix r avail' with
           | None => None
           | Some (pre, b', post, av) => Some (b :: pre, b', post, av)
           end
  end.
(** gst.py:43-54 GSTNode.trace: the node afterwards, the score and the parents.  Every call takes a variable out of [avail]. *)
Fixpoint trace (fuel : nat) (v : nat) (prefix avail parents : list nat) (n : gnode) : gnode * Z * list nat :=
  match fuel with
  | O => (n, 0, parents)
  | S f =>
      let '(GN a g s brs rm) := n in
      let l := match brs with None => grow v g avail parents | Some l => l end in
      match find_branch prefix l avail with
      | Some (pre, b, post, avail') =>
          let '(b', t, ps) := trace f v prefix avail' (parents ++ [n_add b]) b in
          (GN a g s (Some (pre ++ b' :: post)) rm, t, ps)
      | None =>
          match rm with
          | None => let '(ps, s', rm') := shrink (S (length parents)) v parents s [] in (GN a g s' (Some l) (Some rm'), s', ps)
          | Some rm' => (GN a g s (Some l) rm, s, fold_left (fun ps r => lremove r ps) rm' parents)
          end
      end
  end.

(** gst.py:57-64 GST: the roots of the p trees. *)
Definition gsts : Type := nat -> gnode.
Definition new_gsts : gsts := fun v => new_node v (sc v []).
Section P.
Variable p : nat.
(** gst.py:66-69 GST.trace with an empty list of parents; forbidden = [vertex]. *)
Definition gst_trace (G : gsts) (v : nat) (prefix : list nat) : gsts * Z * list nat :=
  let '(n, s, ps) := trace (S p) v prefix (filter (fun i => negb (Nat.eqb i v)) (seq 0 p)) [] (G v) in (fset G v n, s, ps).

(** ** BOSS.py *)
(** BOSS.py:185-189: scores[j] for a prefix of the order. *)
Fixpoint bm_forward (v : nat) (ws : list nat) (j : nat) (prefix : list nat) (score : Z) (scores : nat -> Z) (G : gsts)
  : list nat * Z * (nat -> Z) * gsts :=
  match ws with
  | [] => (prefix, score, scores, G)
  | w :: r =>
      let '(G1, t, _) := gst_trace G v prefix in
      let scores1 := fset scores j (t + score) in
      if negb (Nat.eqb v w) then
        let '(G2, t2, _) := gst_trace G1 w prefix in bm_forward v r (S j) (prefix ++ [w]) (score + t2) scores1 G2
      else bm_forward v r (S j) prefix score scores1 G1
  end.
(** BOSS.py:196-201, on the reversed order; j is one less than the number of variables left. *)
Fixpoint bm_backward (v : nat) (ws : list nat) (prefix : list nat) (score : Z) (scores : nat -> Z) (best : nat) (G : gsts)
  : (nat -> Z) * nat * gsts :=
  match ws with
  | [] => (scores, best, G)
  | w :: r =>
      let j := length r in
      let '(prefix1, score1, G1) :=
        if negb (Nat.eqb v w) then
          let prefix1 := lremove w prefix in
          let '(G1, t, _) := gst_trace G w prefix1 in (prefix1, score + t, G1)
        else (prefix, score, G) in
      let scores1 := fset scores j (scores j + score1) in
      bm_backward v r prefix1 score1 scores1 (if scores1 best <? scores1 j then j else best) G1
  end.
(** BOSS.py:178-207 better_mutation: (returned value, order, trees). *)
Definition better_mutation (eps : Z) (v : nat) (order : list nat) (G : gsts) : bool * list nat * gsts :=
  let i := lindex v order in
  let n := length order in
  let '(prefix, score, scores, G1) := bm_forward v order 0 [] 0 (fun _ => 0) G in
  let '(G2, t, _) := gst_trace G1 v prefix in
  let scores1 := fset scores n (t + score) in
  let '(scores2, best, G3) := bm_backward v (rev order) (prefix ++ [v]) 0 scores1 n G2 in
  if scores2 best <? scores2 i + eps then (false, order, G3)
  else (true, linsert (best - (if Nat.ltb i best then 1 else 0)) v (lremove v order), G3).

(** BOSS.py:143-145 and 153-155: the parents of every variable. *)
Fixpoint trace_all (before rest : list nat) (G : gsts) (pa : nat -> list nat) : gsts * (nat -> list nat) :=
  match rest with
  | [] => (G, pa)
  | v :: r => let '(G1, _, ps) := gst_trace G v before in trace_all (before ++ [v]) r G1 (fset pa v ps)
  end.
(** BOSS.py:149-150: for v in variables. *)
Definition boss_pass (eps : Z) (vars : list nat) (order : list nat) (G : gsts) : bool * list nat * gsts :=
  fold_left (fun t v => let '(imp, o, G) := t in let '(b, o', G') := better_mutation eps v o G in (orb imp b, o', G')) vars (false, order, G).
(** random.shuffle: [sh k l] is the outcome of the k-th call. *)
Variable sh : nat -> list nat -> list nat.
(** BOSS.py:138-151: the while loop.  None: still running. *)
Fixpoint boss_loop (fuel : nat) (eps : Z) (verbose : bool) (k : nat) (vars order : list nat) (G : gsts) : option (list nat * gsts) :=
  match fuel with
  | O => None
  | S f =>
      let vars1 := sh k vars in
      let G1 := if verbose then fst (trace_all [] order G (fun _ => [])) else G in
      let '(imp, order1, G2) := boss_pass eps vars1 order G1 in
      if imp then boss_loop f eps verbose (S k) vars1 order1 G2 else Some (order1, G2)
  end.
(** BOSS.py:163-165 and GRaSP.py:212-214: the graph, before dag2cpdag. *)
Definition graph_of_parents (pa : nat -> list nat) : ggraph :=
  fold_left (fun g y => fold_left (fun g x => add_directed_edge g x y) (pa y) g) (seq 0 p) (empty_graph p).
(** BOSS.py:118-169 boss: the order, the parents and the graph returned; [cfuel] for the loops of dag2cpdag. *)
Definition boss_search (fuel : nat) (eps : Z) (verbose : bool) : option (list nat * (nat -> list nat)) :=
  match boss_loop fuel eps verbose 0 (seq 0 p) (seq 0 p) new_gsts with
  | None => None
  | Some (order, G) => Some (order, snd (trace_all [] order G (fun _ => [])))
  end.
Definition boss (fuel cfuel : nat) (eps : Z) (verbose : bool) : outcome ggraph :=
  match boss_search fuel eps verbose with
  | None => Running
  | Some (_, pa) => dag2cpdag cfuel (graph_of_parents pa)
  end.

(** ** GRaSP.py *)
(** GRaSP.py:24-77 Order.  Lists of parents are objects: [g_ref] gives the address of the list of a variable, [g_heap] the contents;
    [g_rnd] counts the calls of random.shuffle. *)
Record gstate : Type := mkGS { g_order : list nat; g_ref : nat -> nat; g_heap : nat -> list nat; g_next : nat;
                              g_loc : nat -> Z; g_edges : Z; g_gst : gsts; g_rnd : nat }.
Definition g_pa (s : gstate) (y : nat) : list nat := g_heap s (g_ref s y).
Definition with_order (s : gstate) (o : list nat) : gstate := mkGS o (g_ref s) (g_heap s) (g_next s) (g_loc s) (g_edges s) (g_gst s) (g_rnd s).
Definition with_heap (s : gstate) (a : nat) (l : list nat) : gstate :=
  mkGS (g_order s) (g_ref s) (fset (g_heap s) a l) (g_next s) (g_loc s) (g_edges s) (g_gst s) (g_rnd s).
Definition with_loc (s : gstate) (y : nat) (v : Z) : gstate :=
  mkGS (g_order s) (g_ref s) (g_heap s) (g_next s) (fset (g_loc s) y v) (g_edges s) (g_gst s) (g_rnd s).
Definition with_edges (s : gstate) (e : Z) : gstate := mkGS (g_order s) (g_ref s) (g_heap s) (g_next s) (g_loc s) e (g_gst s) (g_rnd s).
Definition with_gst (s : gstate) (G : gsts) : gstate := mkGS (g_order s) (g_ref s) (g_heap s) (g_next s) (g_loc s) (g_edges s) G (g_rnd s).
(** order.set_parents(y, l) with l a list no one else holds. *)
Definition with_parents (s : gstate) (y : nat) (l : list nat) : gstate :=
  mkGS (g_order s) (fset (g_ref s) y (g_next s)) (fset (g_heap s) (g_next s) l) (S (g_next s)) (g_loc s) (g_edges s) (g_gst s) (g_rnd s).
(** random.shuffle(l) *)
Definition with_rnd (s : gstate) : gstate :=
  mkGS (g_order s) (g_ref s) (g_heap s) (g_next s) (g_loc s) (g_edges s) (g_gst s) (S (g_rnd s)).
Definition g_get (s : gstate) (i : nat) : nat := nth i (g_order s) 0%nat.
Fixpoint nset (l : list nat) (k v : nat) : list nat :=
  match l, k with [], _ => [] | _ :: r, O => v :: r | a :: r, S k' => a :: nset r k' v end.

(** GRaSP.py:323-329 get_ancestors.  Every nested call appends a new variable. *)
Fixpoint get_anc (fuel : nat) (pa : nat -> list nat) (y : nat) (anc : list nat) : list nat :=
  match fuel with
  | O => anc
  | S f => fold_left (fun anc x => if memb x anc then anc else get_anc f pa x anc) (pa y) (anc ++ [y])
  end.
(** GRaSP.py:316-319: one position of the loop of tuck. *)
Definition tuck_one (anc : list nat) (j : nat) (t : list nat * nat) (k : nat) : list nat * nat :=
  let '(o, shift) := t in
  if memb (nth k o 0%nat) anc then (linsert (j + shift) (nth k o 0%nat) (firstn k o ++ skipn (S k) o), S shift) else (o, shift).
(** GRaSP.py:309-319 tuck *)
Definition tuck (i j : nat) (s : gstate) : gstate :=
  let anc := get_anc (S p) (g_pa s) (g_get s i) [] in
  with_order s (fst (fold_left (tuck_one anc j) (seq (S j) (i - j)) (g_order s, O))).
(** GRaSP.py:290-303: one position of update; (edge_bump, old_score, new_score). *)
Definition update_one (t : gstate * Z * Z * Z) (k : nat) : gstate * Z * Z * Z :=
  let '(s, eb, old, new) := t in
  let z := g_get s k in
  let a := g_ref s z in
  let eb1 := eb - Z.of_nat (length (g_heap s a)) in
  let old1 := old + g_loc s z in
  let '(G, score, ps) := gst_trace (g_gst s) z (firstn k (g_order s)) in
  (with_loc (with_heap (with_gst s G) a ps) z score, eb1 + Z.of_nat (length ps), old1, new + score).
(** GRaSP.py:284-305 update: (state, edge_bump, score_bump) *)
Definition update (i j : nat) (s : gstate) : gstate * Z * Z :=
  let '(s', eb, old, new) := fold_left update_one (seq j (S i - j)) (s, 0, 0, 0) in (s', eb, new - old).

(** Python sets of pairs. *)
Definition pset : Type := list (nat * nat).
Definition pmem (x : nat * nat) (l : pset) : bool := existsb (fun y => Nat.eqb (fst x) (fst y) && Nat.eqb (snd x) (snd y)) l.
Definition pseteq (a b : pset) : bool := forallb (fun x => pmem x b) a && forallb (fun x => pmem x a) b.
Definition pxor (a b : pset) : pset := filter (fun x => negb (pmem x b)) a ++ filter (fun x => negb (pmem x a)) b.
Definition seteq (a b : list nat) : bool := forallb (fun x => memb x b) a && forallb (fun x => memb x a) b.
(** tuple(sorted([x, z])) *)
Definition pair_sorted (x z : nat) : nat * nat := if Nat.leb x z then (x, z) else (z, x).

(** GRaSP.py:242-247: what the cache holds for positions j..i. *)
Definition snapshot (s : gstate) (i j : nat) : list (nat * (nat * list nat * Z)) :=
  map (fun k => let z := g_get s k in (k, (z, g_pa s z, g_loc s z))) (seq j (S i - j)).
(** GRaSP.py:273-278 *)
Definition restore_one (s : gstate) (c : nat * (nat * list nat * Z)) : gstate :=
  let '(k, (z, ps, l)) := c in with_loc (with_parents (with_order s (nset (g_order s) k z)) z ps) z l.
Definition restore (snap : list (nat * (nat * list nat * Z))) (e : Z) (s : gstate) : gstate := with_edges (fold_left restore_one snap s) e.

Section Dfs.
Variable eps : Z.
(** The recursive call dfs(depth - 1, ...); None if depth <= 0. *)
Variable rec : option (pset -> list pset -> gstate -> bool * gstate).
Variable history : list pset.
(** GRaSP.py:235-278: the body of [for x in y_parents]; (returned True, flipped, state). [yr]: the address of y_parents. *)
Definition try_x (i yr x : nat) (flipped : pset) (s : gstate) : bool * pset * gstate :=
  let covered := seteq (x :: g_pa s x) (g_heap s yr) in
  if (match history with [] => false | _ => true end) && negb covered then (false, flipped, s) else
  let j := lindex x (g_order s) in
  let snap := snapshot s i j in
  let e := g_edges s in
  let '(s1, edge_bump, score_bump) := update i j (tuck i j s) in
  if eps <? score_bump then (true, flipped, with_edges s1 (g_edges s1 + edge_bump)) else
  if - eps <? score_bump then
    let flipped1 := pxor flipped (map (pair_sorted x) (filter (fun z => Nat.ltb (lindex z (g_order s1)) i) (g_pa s1 x))) in
    if (Nat.ltb 0 (length flipped1)) && negb (existsb (pseteq flipped1) history) then
      match rec with
      | None => (false, flipped1, restore snap e s1)
      | Some r =>
          let '(b, s2) := r flipped1 (history ++ [flipped1]) s1 in
          if b then (true, flipped1, s2) else (false, flipped1, restore snap e s2)
      end
    else (false, flipped1, restore snap e s1)
  else (false, flipped, restore snap e s1).
(** GRaSP.py:234: the loop over the list object y_parents, which [try_x] changes while it runs; [t] is the position of the iterator.
    The list never holds more than p variables. *)
Fixpoint x_loop (n t i yr : nat) (flipped : pset) (s : gstate) : bool * pset * gstate :=
  match n with
  | O => (false, flipped, s)
  | S n' =>
      match nth_error (g_heap s yr) t with
      | None => (false, flipped, s)
      | Some x => let '(b, fl, s1) := try_x i yr x flipped s in if b then (true, fl, s1) else x_loop n' (S t) i yr fl s1
      end
  end.
(** GRaSP.py:229-232 *)
Fixpoint i_loop (is_ : list nat) (flipped : pset) (s : gstate) : bool * gstate :=
  match is_ with
  | [] => (false, s)
  | i :: r =>
      let yr := g_ref s (g_get s i) in
      let s1 := with_rnd (with_heap s yr (sh (g_rnd s) (g_heap s yr))) in
      let '(b, fl, s2) := x_loop (S p) 0 i yr flipped s1 in
      if b then (true, s2) else i_loop r fl s2
  end.
End Dfs.
(** GRaSP.py:222-280 dfs; a negative depth behaves like 0. *)
Fixpoint dfs (eps : Z) (depth : nat) (flipped : pset) (history : list pset) (s : gstate) : bool * gstate :=
  let rec := match depth with O => None | S d => Some (dfs eps d) end in
  i_loop eps rec history (sh (g_rnd s) (seq 0 (length (g_order s)))) flipped (with_rnd s).
(** GRaSP.py:25-38 and 190-199: Order(p, score) and the first parents. *)
Definition grasp_init : gstate :=
  fold_left (fun s i =>
      let y := g_get s i in
      let '(G, score, ps) := gst_trace (g_gst s) y (firstn i (g_order s)) in
      let s1 := with_loc (with_heap (with_gst s G) (g_ref s y) ps) y score in
      with_edges s1 (g_edges s1 + Z.of_nat (length ps)))
    (seq 0 p) (mkGS (sh 0 (seq 0 p)) (fun y => y) (fun _ => []) p (fun y => sc y []) 0 new_gsts 1).
(** GRaSP.py:201-204; [depth]: the parameter. *)
Fixpoint grasp_loop (fuel : nat) (eps : Z) (depth : nat) (s : gstate) : option gstate :=
  match fuel with
  | O => None
  | S f => let '(b, s1) := dfs eps (depth - 1) [] [] s in if b then grasp_loop f eps depth s1 else Some s1
  end.
Definition grasp_search (fuel : nat) (eps : Z) (depth : nat) : option gstate := grasp_loop fuel eps depth grasp_init.
Definition grasp (fuel cfuel : nat) (eps : Z) (depth : nat) : outcome ggraph :=
  match grasp_search fuel eps depth with
  | None => Running
  | Some s => dag2cpdag cfuel (graph_of_parents (g_pa s))
  end.
End P.
End GST.
