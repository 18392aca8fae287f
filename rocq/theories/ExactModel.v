(** ExactSearch.py: exact score-based search (dynamic programming and A star).
    Scores are integers in exact arithmetic ([bic i P] is bic_score_node(X, i, P)); INF is [None].  The floats' rounding and the value
    -inf that bic_score_node returns for rank-deficient data are not modelled.  Tuples of variables are lists. *)
From Verif Require Import Base UtilsModel SkelModel CacheModel.
Local Open Scope Z_scope.

Definition ext : Type := option Z.
Definition eadd (a b : ext) : ext := match a, b with Some x, Some y => Some (x + y) | _, _ => None end.
Definition eltb (a b : ext) : bool := match a, b with Some x, Some y => x <? y | Some _, None => true | None, _ => false end.
Definition eeqb (a b : ext) : bool := match a, b with Some x, Some y => x =? y | None, None => true | _, _ => false end.
Definition subset (A B : list nat) : bool := forallb (fun v => memb v B) A.

Definition pgraph : Type := list (list nat * Z).
(** ExactSearch.py:373-393 insort.  bisect_left on a list sorted by score: the first place whose score is not below. *)
Fixpoint insort (pg : pgraph) (P : list nat) (s : Z) : pgraph :=
  match pg with
  | [] => [(P, s)]
  | e :: r => if snd e <? s then e :: insort r P s else (P, s) :: pg
  end.
(** ExactSearch.py:396-411 query_best_structure: (None, INF) when nothing fits. *)
Definition query (pg : pgraph) (T : list nat) : option (list nat * Z) := find (fun e => subset (fst e) T) pg.
Definition qscore (pg : pgraph) (T : list nat) : ext := option_map snd (query pg T).
Definition qparents (pg : pgraph) (T : list nat) : option (list nat) := option_map fst (query pg T).

Section Search.
Variable bic : nat -> list nat -> Z.
(** [tuple(set(l))]: the elements of the set in some order. *)
Variable so : list nat -> list nat.

(** ExactSearch.py:334-353: one structure is considered. *)
Definition consider (i : nat) (inc : list nat) (pg : pgraph) (P : list nat) : pgraph :=
  if negb (subset inc P) then pg else
  let s := bic i P in
  if existsb (fun v => eltb (qscore pg (filter (fun l => negb (Nat.eqb l v)) P)) (Some s)) P then pg else insort pg P s.
(** ExactSearch.py:326-353: structures of size j. *)
Definition pg_size (i maxp : nat) (pset inc : list nat) (pg : pgraph) (j : nat) : pgraph :=
  if Nat.eqb j 0 then (if Nat.ltb 0 (length inc) then pg else insort pg [] (bic i []))
  else if Nat.leb j maxp then fold_left (consider i inc) (combs j pset) pg else pg.
(** ExactSearch.py:282-355 generate_parent_graph *)
Definition generate_parent_graph (i maxp : nat) (parent_set inc : list nat) : pgraph :=
  let pset := so parent_set in fold_left (pg_size i maxp pset inc) (seq 0 (S (length pset))) [].

Section Order.
Variable d : nat.
Variable pgs : nat -> pgraph.
(** parent_graphs[i][0][1].  0 stands for the IndexError of an empty parent graph. *)
Definition gbest (i : nat) : Z := match pgs i with [] => 0 | e :: _ => snd e end.
(** parent_graphs[i][0][0] *)
Definition gstruct (i : nat) : list nat := match pgs i with [] => [] | e :: _ => fst e end.
(** tuple(i for i in range(d) if i not in U) *)
Definition out_set (U : list nat) : list nat := filter (fun i => negb (memb i U)) (seq 0 d).
(** tuple(sorted(U + (i,))), U sorted, i not in U *)
Definition uplus (U : list nat) (i : nat) : list nat := sins i U.
(** A list of parent sets, None where no structure was found. *)
Definition structs : Type := list (option (list nat)).
Fixpoint set_nth (st : structs) (i : nat) (x : option (list nat)) : structs :=
  match st, i with
  | [], _ => []
  | _ :: r, O => x :: r
  | a :: r, S i' => a :: set_nth r i' x
  end.

(** ExactSearch.py:414-431 path_extension.  Every round adds a variable; the fuel d leaves no variable outside U. *)
Fixpoint path_extension (fuel : nat) (U : list nat) (st : structs) (g : ext) : list nat * structs * ext :=
  match fuel with
  | O => (U, st, g)
  | S f =>
      match find (fun i => eeqb (qscore (pgs i) U) (Some (gbest i))) (out_set U) with
      | None => (U, st, g)
      | Some i => path_extension f (uplus U i) (set_nth st i (qparents (pgs i) U)) (eadd g (Some (gbest i)))
      end
  end.

(** ExactSearch.py:185: sum(parent_graphs[j][0][1] for j in range(d) if j not in new_U) *)
Definition simple_h (U : list nat) : Z := fold_right Z.add 0 (map gbest (out_set U)).

(** *** A star *)
(** PriorityQueue by its contract (C29: pop returns an entry of least weight, get and delete go by key), which holds as long as no key is
    pushed that is already queued: [a_ok] records this, and a run in which it fails has no result here.
    An entry is (U, structures) with its weight. *)
Record qentry : Type := mkQ { q_U : list nat; q_st : structs; q_f : ext }.
Record astate : Type := mkA { a_open : list qentry; a_closed : list (list nat); a_score : list nat -> ext; a_ok : bool }.
Fixpoint leqb (l m : list nat) : bool :=
  match l, m with [], [] => true | a :: l', b :: m' => Nat.eqb a b && leqb l' m' | _, _ => false end.
Definition lmem (U : list nat) (l : list (list nat)) : bool := existsb (leqb U) l.
Definition has_key (l : list qentry) (U : list nat) : bool := existsb (fun e => leqb U (q_U e)) l.
Definition opened_has (s : astate) (U : list nat) : bool := has_key (a_open s) U.
Definition sput (m : list nat -> ext) (U : list nat) (v : ext) : list nat -> ext := fun W => if leqb W U then v else m W.

Section AStar.
Variable use_ext : bool.
(** The heuristic: simple_h, or compute_dynamic_h(_, PD). *)
Variable hfun : list nat -> ext.
(** heapq's choice at the k-th pop among the entries of least weight: an index. *)
Variable pick : nat -> list qentry -> nat.

(** ExactSearch.py:170-203: the body of [for i in out_set]. *)
Definition expand_one (U : list nat) (st : structs) (s : astate) (i : nat) : astate :=
  let g := eadd (qscore (pgs i) U) (a_score s U) in
  let '(U', st', g') :=
    if use_ext then path_extension d (uplus U i) (set_nth st i (qparents (pgs i) U)) g
    else (uplus U i, set_nth st i (qparents (pgs i) U), g) in
  let e := mkQ U' st' (eadd g' (hfun U')) in
  let push l closed := mkA (e :: l) closed (sput (a_score s) U' g') (a_ok s && negb (has_key l U')) in
  if lmem U' (a_closed s) then
    if eltb g' (a_score s U') then
      push (a_open s) (filter (fun W => negb (leqb W U')) (a_closed s))
    else s
  else if opened_has s U' then
    if eltb g' (a_score s U') then
      push (filter (fun x => negb (leqb U' (q_U x))) (a_open s)) (a_closed s)
    else s
  else push (a_open s) (a_closed s).

(** ExactSearch.py:156-206: the while loop; [last] is the variable [structures].  None: out of fuel, a bad [pick] or a_ok false. *)
Fixpoint astar_loop (fuel : nat) (last : structs) (s : astate) : option structs :=
  match fuel with
  | O => None
  | S f =>
      if negb (a_ok s) then None else
      match a_open s with
      | [] => Some last
      | _ =>
          match nth_error (a_open s) (pick f (a_open s)) with
          | None => None
          | Some e =>
              let rest := firstn (pick f (a_open s)) (a_open s) ++ skipn (S (pick f (a_open s))) (a_open s) in
              if lmem (q_U e) (a_closed s) then astar_loop f (q_st e) (mkA rest (a_closed s) (a_score s) (a_ok s)) else
              let s1 := mkA rest (q_U e :: a_closed s) (a_score s) (a_ok s) in
              if Nat.eqb (length (q_U e)) d then Some (q_st e)
              else astar_loop f (q_st e) (fold_left (expand_one (q_U e) (q_st e)) (out_set (q_U e)) s1)
          end
      end
  end.
(** ExactSearch.py:139-152 *)
Definition astar_init : astate :=
  mkA [mkQ [] (repeat (Some []) d) (Some (fold_right Z.add 0 (map gbest (seq 0 d))))] []
      (fun U => if leqb U [] then Some 0 else None) true.
Definition astar (fuel : nat) : option structs := astar_loop fuel [] astar_init.
End AStar.

(** *** The k-cycle conflict heuristic *)
Definition edict : Type := list (list nat * ext).
Definition eget (m : edict) (U : list nat) : option ext := option_map snd (find (fun e => leqb U (fst e)) m).
Fixpoint eput (m : edict) (U : list nat) (v : ext) : edict :=
  match m with [] => [(U, v)] | (W, w) :: r => if leqb U W then (W, v) :: r else (W, w) :: eput r U v end.
Definition esub (a : ext) (b : Z) : ext := option_map (fun x => x - b) a.
(** ExactSearch.py:501-506 tuple_diff on sorted tuples *)
Definition tuple_diff (A B : list nat) : list nat := filter (fun x => negb (memb x B)) A.
(** ExactSearch.py:465-474 expand *)
Definition pd_expand (U : list nat) (g0 : ext) (cur : edict) : edict :=
  fold_left (fun cur i =>
    let o := tuple_diff U [i] in
    let g := eadd g0 (qscore (pgs i) o) in
    match eget cur o with
    | Some w => if eltb g w then eput cur o g else cur
    | None => eput cur o g
    end) U cur.
(** ExactSearch.py:477-488 check_save; delta_h.  A missing key of delta_h (KeyError) reads as INF; it does not occur. *)
Definition pd_check (U : list nat) (g : ext) (dh : edict) (save : list (list nat)) : edict * list (list nat) :=
  let dh' := eput dh U (esub g (simple_h U)) in
  let at_ W := match eget dh' W with Some v => v | None => None end in
  (dh', if existsb (fun i => eltb (at_ (uplus U i)) (at_ U)) (tuple_diff (seq 0 d) U) then tuple_diff (seq 0 d) U :: save else save).
(** ExactSearch.py:443-452: one level *)
Record pdstate : Type := mkPD { pd_fin : edict; pd_prev : edict; pd_dh : edict; pd_save : list (list nat) }.
Definition pd_level (s : pdstate) (_ : nat) : pdstate :=
  let '(fin, cur, dh, save) := fold_left (fun (t : edict * edict * edict * list (list nat)) Ug =>
    let '(fin, cur, dh, save) := t in
    let U := fst Ug in let g := snd Ug in
    let cur' := pd_expand U g cur in
    let '(dh', save') := pd_check U g dh save in
    (eput fin (tuple_diff (seq 0 d) U) g, cur', dh', save')) (pd_prev s) (pd_fin s, [], pd_dh s, pd_save s) in
  mkPD fin cur dh save.
(** sorted(..., reverse=True): stable, decreasing. *)
Fixpoint pd_ins (key : list nat -> ext) (x : list nat * ext) (l : edict) : edict :=
  match l with [] => [x] | y :: r => if eltb (key (fst x)) (key (fst y)) then y :: pd_ins key x r else x :: l end.
(** ExactSearch.py:434-462 create_dynamic_pd *)
Definition create_dynamic_pd (k : nat) : edict :=
  let s := fold_left pd_level (seq 1 k) (mkPD [] [(seq 0 d, Some 0)] [(seq 0 d, Some 0)] []) in
  let key S := match eget (pd_dh s) (tuple_diff (seq 0 d) S) with Some v => v | None => None end in
  fold_right (pd_ins key) [] (filter (fun e => lmem (fst e) (pd_save s)) (pd_fin s)).
(** ExactSearch.py:491-498 compute_dynamic_h *)
Definition compute_dynamic_h (PD : edict) (U : list nat) : ext :=
  snd (fold_left (fun Rh S => if subset (fst S) (fst Rh) then (tuple_diff (fst Rh) (fst S), eadd (snd Rh) (snd S)) else Rh) PD (U, Some 0)).

(** *** Dynamic programming *)
Record oedge : Type := mkOE { oe_from : list nat; oe_to : list nat; oe_st : option (list nat); oe_w : ext }.
Definition odict : Type := list (list nat * list nat).
Definition oget (m : odict) (U : list nat) : option (list nat) := option_map snd (find (fun e => leqb U (fst e)) m).
(** ExactSearch.py:246-256: one variable of one subset. *)
Definition dp_step (use_ext : bool) (s : list oedge * odict) (sv : list nat * nat) : list oedge * odict :=
  let '(E, oc) := s in
  let '(sub, v) := sv in
  let parent := filter (fun x => negb (Nat.eqb x v)) sub in
  let e := mkOE parent sub (qparents (pgs v) parent) (qscore (pgs v) parent) in
  if use_ext then
    match oget oc parent with
    | Some _ => (E, oc)
    | None => (e :: E, if subset (gstruct v) parent then (parent, sub) :: oc else oc)
    end
  else (e :: E, oc).
(** ExactSearch.py:241-263: one level. *)
Definition dp_level (use_ext : bool) (E : list oedge) (i : nat) : list oedge :=
  let '(E', oc) := fold_left (dp_step use_ext) (flat_map (fun sub => map (fun v => (sub, v)) sub) (combs i (seq 0 d))) (E, []) in
  filter (fun e => match oget oc (oe_from e) with None => true | Some c => leqb (oe_to e) c end) E'.
Definition dp_edges (use_ext : bool) : list oedge := fold_left (dp_level use_ext) (seq 0 (S d)) [].

(** A path in the order graph, as its list of edges, and its weight. *)
Fixpoint is_path (E : list oedge) (U : list nat) (p : list oedge) (V : list nat) : Prop :=
  match p with [] => U = V | e :: p' => In e E /\ oe_from e = U /\ is_path E (oe_to e) p' V end.
Definition weight (p : list oedge) : ext := fold_right (fun e w => eadd (oe_w e) w) (Some 0) p.
Definition ele (a b : ext) : Prop := match a, b with Some x, Some y => x <= y | _, None => True | None, Some _ => False end.
(** networkx.shortest_path(order_graph, (), tuple(range(d)), weight, 'bellman-ford') by its contract. *)
Definition shortest (E : list oedge) (U V : list nat) (p : list oedge) : Prop :=
  is_path E U p V /\ forall p', is_path E U p' V -> ele (weight p) (weight p').
(** ExactSearch.py:268-273: read the structures off the path. *)
Definition dp_structures (p : list oedge) : structs :=
  fold_left (fun st e => match find (fun x => negb (memb x (oe_from e))) (oe_to e) with Some i => set_nth st i (oe_st e) | None => st end)
            p (repeat None d).
End Order.

(** *** bic_exact_search *)
Definition parent_graphs (d maxp : nat) (sup inc : nat -> nat -> bool) (i : nat) : pgraph :=
  generate_parent_graph i maxp (filter (fun p => sup p i) (seq 0 d)) (filter (fun p => inc p i) (seq 0 d)).
(** ExactSearch.py:106-108: dag_est[parents, i] = 1.  Simplification: a parent set None (dag_est[None, i] = 1 fills row i) gives an empty
    column; it does not occur when some graph satisfies the constraints. *)
Definition dag_est (st : structs) (p i : nat) : Z :=
  match nth_error st i with Some (Some P) => if memb p P then 1 else 0 | _ => 0 end.
End Search.
