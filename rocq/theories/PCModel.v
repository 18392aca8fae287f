(** The PC algorithm: UCSepset.py (uc_sepset, maxp, definite_maxp) and PC.py pc_alg.
    p-values are represented by integers: the code only compares them with each other, with alpha and with 0. *)
From Verif Require Import Base EdgeModel GraphModel UtilsModel NamedModel KnowledgeModel MeekModel SkelModel.
Local Open Scope Z_scope.

(** Helper.py:114-119 powerset *)
Definition powerset (l : list nat) : list (list nat) := flat_map (fun k => combs k l) (seq 0 (S (length l))).
(** GraphClass.py:122-128 find_cond_sets.  [list(set(...))]: the code only takes maxima over the result or looks for the
    existence of a member; duplicates and order do not matter, and are kept here. *)
Definition find_cond_sets (g : ggraph) (i j : nat) : list (list nat) := powerset (neighbors g i) ++ powerset (neighbors g j).
(** GraphClass.py:130-136 *)
Definition find_cond_sets_with_mid (g : ggraph) (i j k : nat) : list (list nat) := filter (fun cs => memb k cs) (find_cond_sets g i j).
Definition find_cond_sets_without_mid (g : ggraph) (i j k : nat) : list (list nat) := filter (fun cs => negb (memb k cs)) (find_cond_sets g i j).

(** Python's [max] of a list: ValueError when it is empty. *)
Definition maxl (l : list Z) : res Z := match l with [] => Raise | a :: r => Ok (fold_left Z.max r a) end.

(** A dict from triples to values, in order of insertion. *)
Definition tdict := list (triple * Z).
Definition tkey_eqb (t u : triple) : bool := Nat.eqb (t1 t) (t1 u) && Nat.eqb (t2 t) (t2 u) && Nat.eqb (t3 t) (t3 u).
Fixpoint tput (d : tdict) (k : triple) (v : Z) : tdict :=
  match d with
  | [] => [(k, v)]
  | (k', v') :: r => if tkey_eqb k' k then (k', v) :: r else (k', v') :: tput r k v
  end.
(** Helper.py:153-156 sort_dict_ascending: [sorted] is stable, also with reverse=True. *)
Fixpoint tins (desc : bool) (x : triple * Z) (l : tdict) : tdict :=
  match l with
  | [] => [x]
  | y :: r => if (if desc then snd y <=? snd x else snd x <=? snd y) then x :: l else y :: tins desc x r
  end.
Definition sort_dict (desc : bool) (d : tdict) : tdict := fold_right (tins desc) [] d.

(** The triples (x, y, z) with x < z (UCSepset.py:41, 144, 297). *)
Definition ordered_triples (g : ggraph) : list triple := filter (fun t => Nat.ltb (t1 t) (t3 t)) (find_unshielded_triples g).

(** UCSepset.py:53-58, 67, ...: delete the edge if there is one, then add x --> y. *)
Definition point_at (g : ggraph) (x y : nat) : ggraph := add_edge (remove_if_exists g x y) (Edge x y TAIL ARROW).
(** UCSepset.py:52-67: priority 0, overwrite. *)
Definition overwrite (g : ggraph) (t : triple) : ggraph :=
  let '(x, y, z) := t in
  let g1 := add_edge (remove_if_exists (remove_if_exists g x y) y x) (Edge x y TAIL ARROW) in
  add_edge (remove_if_exists (remove_if_exists g1 y z) z y) (Edge z y TAIL ARROW).
(** UCSepset.py:70-79 (= 81-90): priority 1, one of the two edges. *)
Definition bi_point (g : ggraph) (x y : nat) : ggraph :=
  match get_edge g x y with
  | Ok (Some e) =>
      if (gm g x y =? -1) && (gm g y x =? -1) then add_edge (remove_edge g e) (Edge x y TAIL ARROW)
      else if (gm g x y =? 1) && (gm g y x =? -1) then add_edge (remove_edge g e) (Edge x y ARROW ARROW)
      else g
  | _ => add_edge g (Edge x y TAIL ARROW)
  end.
Definition bidirect (g : ggraph) (t : triple) : ggraph := let '(x, y, z) := t in bi_point (bi_point g x y) z y.
(** UCSepset.py:92-103 = 129-140: priorities 2, 3, 4: only if neither edge points away from y. *)
Definition fits (g : ggraph) (t : triple) : bool :=
  let '(x, y, z) := t in negb (is_fully_directed g y x) && negb (is_fully_directed g y z).
Definition keep_existing (g : ggraph) (t : triple) : ggraph :=
  let '(x, y, z) := t in if fits g t then point_at (point_at g x y) z y else g.

Section UC.
(** [pv x y S] is cg.ci_test(x, y, S); [blk x y]: the background knowledge rejects x --> y
    (is_forbidden(x, y) or is_required(y, x)). *)
Variable pv : nat -> nat -> list nat -> Z.
Variable blk : nat -> nat -> bool.

(** UCSepset.py:44-49 and repetitions. *)
Definition blocked (t : triple) : bool := let '(x, y, z) := t in blk x y || blk z y.
Definition p_with (g : ggraph) (t : triple) : res Z :=
  let '(x, y, z) := t in maxl (map (pv x z) (find_cond_sets_with_mid g x z y)).
Definition p_without (g : ggraph) (t : triple) : res Z :=
  let '(x, y, z) := t in maxl (map (pv x z) (find_cond_sets_without_mid g x z y)).

(** The final loop over the sorted dict (UCSepset.py:122-140 = 251-270). *)
Definition apply_sorted (g : ggraph) (l : list triple) : ggraph :=
  fold_left (fun g t => if blocked t then g else keep_existing g t) l g.

(** The treatment of one collider for priorities 0, 1, 2; for 3 and 4 it is put on a list. *)
Definition now (prio : nat) (g : ggraph) (t : triple) : ggraph :=
  match prio with O => overwrite g t | 1%nat => bidirect g t | _ => keep_existing g t end.

(** UCSepset.py:43-106: the state is (cg_new.G, R0); [sep] is cg.sepset, where [] stands for None (iterating over None raises). *)
Definition uc_step (prio : nat) (sep : nat -> nat -> list (list nat)) (st : res (ggraph * list triple)) (t : triple) : res (ggraph * list triple) :=
  res_bind st (fun s =>
    let '(x, y, z) := t in
    if blocked t then Ok s
    else match sep x z with
         | [] => Raise
         | l => if forallb (fun cs => negb (memb y cs)) l
                then if Nat.leb prio 2 then Ok (now prio (fst s) t, snd s) else Ok (fst s, snd s ++ [t])
                else Ok s
         end).
(** UCSepset.py:111-120 *)
Fixpoint fill_dict (f : triple -> res Z) (l : list triple) (d : tdict) : res tdict :=
  match l with
  | [] => Ok d
  | t :: r => res_bind (f t) (fun v => fill_dict f r (tput d t v))
  end.
(** UCSepset.py:12-142 uc_sepset *)
Definition uc_sepset (prio : nat) (sep : nat -> nat -> list (list nat)) (g : ggraph) : res ggraph :=
  if Nat.leb prio 4 then
    res_bind (fold_left (uc_step prio sep) (ordered_triples g) (Ok (g, []))) (fun s =>
      if Nat.leb prio 2 then Ok (fst s)
      else res_bind (fill_dict (if Nat.eqb prio 3 then p_with (fst s) else p_without (fst s)) (snd s) [])
             (fun d => Ok (apply_sorted (fst s) (map fst (sort_dict (Nat.eqb prio 4) d)))))
  else Raise.

(** UCSepset.py:168-246: the loop of maxp; the state is (cg_new.G, UC_dict). *)
Definition maxp_step (prio : nat) (st : res (ggraph * tdict)) (t : triple) : res (ggraph * tdict) :=
  res_bind st (fun s =>
    if blocked t then Ok s
    else res_bind (p_with (fst s) t) (fun pw => res_bind (p_without (fst s) t) (fun po =>
      if po >? pw
      then if Nat.leb prio 2 then Ok (now prio (fst s) t, snd s)
           else Ok (fst s, tput (snd s) t (if Nat.eqb prio 3 then pw else po))
      else Ok s))).
(** UCSepset.py:145-272 maxp *)
Definition maxp (prio : nat) (g : ggraph) : res ggraph :=
  if Nat.leb prio 4 then
    res_bind (fold_left (maxp_step prio) (ordered_triples g) (Ok (g, []))) (fun s =>
      if Nat.leb prio 2 then Ok (fst s)
      else Ok (apply_sorted (fst s) (map fst (sort_dict (Nat.eqb prio 4) (snd s)))))
  else Raise.

(** UCSepset.py:313-319: the sets containing y, left at the first p > alpha; returns (uc_bool, max_p_contain_y). *)
Fixpoint scan_with (alpha : Z) (ps : list Z) (mx : Z) : bool * Z :=
  match ps with
  | [] => (true, mx)
  | p :: r => if p >? alpha then (false, mx) else scan_with alpha r (if p >? mx then p else mx)
  end.
(** UCSepset.py:321-328; returns (nuc_bool, max_p_not_contain_y). *)
Fixpoint scan_without (alpha : Z) (uc : bool) (ps : list Z) (nuc : bool) (mx : Z) : bool * Z :=
  match ps with
  | [] => (nuc, mx)
  | p :: r =>
      if (p >? alpha) && negb uc then (false, mx)
      else scan_without alpha uc r (if p >? alpha then false else nuc) (if p >? mx then p else mx)
  end.
(** UCSepset.py:303-347: one triple; the state is (UC_dict, definite_non_UC). *)
Definition definite_step (alpha : Z) (prio : nat) (g : ggraph) (s : tdict * list triple) (t : triple) : tdict * list triple :=
  let '(x, y, z) := t in
  let (uc, pw) := scan_with alpha (map (pv x z) (find_cond_sets_with_mid g x z y)) 0 in
  let (nuc, po) := scan_without alpha uc (map (pv x z) (find_cond_sets_without_mid g x z y)) true 0 in
  let v := if Nat.eqb prio 4 then po else pw in
  if uc then
    if nuc then if po >? pw then (tput (fst s) t v, snd s) else (fst s, snd s ++ [t])
    else (tput (fst s) t v, snd s)
  else if nuc then (fst s, snd s ++ [t]) else s.
(** UCSepset.py:354-376: the state is (cg_new.G, definite_UC). *)
Definition definite_apply (s : ggraph * list triple) (t : triple) : ggraph * list triple :=
  if blocked t then s
  else if fits (fst s) t then (keep_existing (fst s) t, snd s ++ [t]) else s.
(** UCSepset.py:275-378 definite_maxp (the assertion 1 > alpha >= 0 is not modelled): the graph, definite_UC, definite_non_UC. *)
Definition definite_maxp (alpha : Z) (prio : nat) (g : ggraph) : res (ggraph * list triple * list triple) :=
  if Nat.leb 2 prio && Nat.leb prio 4 then
    let (d, nuc) := fold_left (definite_step alpha prio g) (ordered_triples g) ([], []) in
    let d' := if Nat.eqb prio 3 then sort_dict false d else if Nat.eqb prio 4 then sort_dict true d else d in
    Ok (fold_left definite_apply (map fst d') (g, []), nuc)
  else Raise.
End UC.

(** PC.py:59-136 pc_alg.  [K]: the background knowledge; [uc_priority = None] stands for -1, the default of the rule.
    Running: a loop is still running; Failed: an exception. *)
Definition of_res {A} (r : res A) : outcome A := match r with Ok a => Ret a | Raise => Failed end.
Definition of_opt {A} (o : option A) : outcome A := match o with Some a => Ret a | None => Running end.
Definition obind {A B} (o : outcome A) (f : A -> outcome B) : outcome B := match o with Ret a => f a | Running => Running | Failed => Failed end.
(** PC.py:111-133 = CDNOD.py:99-121 (without knowledge also CDNOD.py:181-203): the rule for the colliders, then meek. *)
Definition uc_and_meek (fuel : nat) (rx : nat -> nat -> bool) (nm : nat -> nat) (K : option bk) (pv : nat -> nat -> list nat -> Z) (alpha : Z)
    (uc_rule : nat) (uc_priority : option nat) (sep : nat -> nat -> list (list nat)) (g1 : ggraph) : outcome ggraph :=
  let prio d := match uc_priority with Some p => p | None => d end in
  let blk := bk_block rx nm K in
  match uc_rule with
  | 0%nat => obind (of_res (uc_sepset pv blk (prio 3%nat) sep g1)) (fun g2 => of_opt (meek fuel rx nm K g2))
  | 1%nat => obind (of_res (maxp pv blk (prio 3%nat) g1)) (fun g2 => of_opt (meek fuel rx nm K g2))
  | 2%nat => obind (of_res (definite_maxp pv blk alpha (prio 4%nat) g1)) (fun r =>
               obind (of_opt (definite_meek fuel rx nm K (snd (fst r)) (snd r) (fst (fst r)))) (fun g2 => of_opt (meek fuel rx nm K g2)))
  | _ => Failed
  end.
Definition pc_alg (fuel : nat) (rx : nat -> nat -> bool) (nm : nat -> nat) (K : option bk) (pv : nat -> nat -> list nat -> Z) (alpha : Z)
    (stable : bool) (uc_rule : nat) (uc_priority : option nat) (n : nat) : outcome ggraph :=
  let forb a b := match K with None => false | Some k => is_forbidden rx k (nm a) (nm b) end in
  obind (of_opt (skeleton_discovery (fun x y cs => pv x y cs >? alpha) (fun x y => forb x y && forb y x) stable fuel n)) (fun gs =>
    let g1 := match K with None => fst gs | Some k => orient_by_background_knowledge rx nm k (fst gs) end in
    uc_and_meek fuel rx nm K pv alpha uc_rule uc_priority (snd gs) g1).
