(** The FCI algorithm: search/ConstraintBased/FCI.py.
    Nodes are indices; [graph.get_nodes()] and the list [nodes] built by fci name the same nodes in the same order.
    Printing is not modelled. *)
From Verif Require Import Base EdgeModel GraphModel UtilsModel SkelModel PCModel.
Local Open Scope Z_scope.

(** [for a in l: s = f(s, a)], stopped by an exception or by a loop that is still running. *)
Fixpoint foldO {A S : Type} (f : S -> A -> outcome S) (l : list A) (s : S) : outcome S :=
  match l with [] => Ret s | a :: r => obind (f s a) (foldO f r) end.

(** [cg = ChoiceGenerator(len(l), 2)]: the pairs (l[i], l[j]), i < j, in lexicographic order (C27); every caller reads both
    entries before calling next() again, so the reuse of the returned list (C45) does not matter here. *)
Fixpoint upairs (l : list nat) : list (nat * nat) :=
  match l with [] => [] | a :: r => map (pair a) r ++ upairs r end.

(** [graph.get_endpoint(x, y) == p]: the mark at y (GeneralGraph.py:616-621).  get_endpoint does not raise on the graphs
    met here, and [None == p] is False. *)
Definition epis (g : ggraph) (x y : nat) (p : endpoint) : bool :=
  match get_endpoint g x y with Ok o => oep_eqb o p | Raise => false end.
(** [graph.is_def_collider(a, b, c)]; same remark. *)
Definition def_coll (g : ggraph) (a b c : nat) : bool :=
  match is_def_collider g a b c with Ok v => v | Raise => false end.

(** [edge = get_edge(x, y); remove_edge(edge); add_edge(Edge(x, y, p, q))], where p and q are constants or read from the
    old edge.  remove_edge(None) and Edge(.., None, ..) raise. *)
Definition reedge (g : ggraph) (x y : nat) (p q : edge -> option endpoint) : outcome ggraph :=
  match get_edge g x y with
  | Ok (Some e) => match p e, q e with
                   | Some a, Some b => Ret (add_edge (remove_edge g e) (Edge x y a b))
                   | _, _ => Failed
                   end
  | _ => Failed
  end.
Definition mk (p : endpoint) : edge -> option endpoint := fun _ => Some p.
Definition kept (x : nat) : edge -> option endpoint := fun e => get_proximal_endpoint e x.

(** FCI.py:20-30 is_uncovered_path *)
Definition is_uncovered_path (g : ggraph) (p : list nat) : bool :=
  forallb (fun i => negb (is_adjacent_to g (nth i p 0%nat) (nth (i + 2) p 0%nat))) (seq 0 (length p - 2)).

(** FCI.py:33-40 traverseSemiDirected *)
Definition traverse_semi (v : nat) (e : edge) : option nat :=
  if Nat.eqb v (e_node1 e) then
    if ep_eqb (e_end1 e) TAIL || ep_eqb (e_end1 e) CIRCLE then Some (e_node2 e) else None
  else if Nat.eqb v (e_node2 e) then
    if ep_eqb (e_end2 e) TAIL || ep_eqb (e_end2 e) CIRCLE then Some (e_node1 e) else None
  else None.
(** FCI.py:42-49 traverseCircle *)
Definition traverse_circle (v : nat) (e : edge) : option nat :=
  if Nat.eqb v (e_node1 e) then
    if ep_eqb (e_end1 e) CIRCLE && ep_eqb (e_end2 e) CIRCLE then Some (e_node2 e) else None
  else if Nat.eqb v (e_node2 e) then
    if ep_eqb (e_end1 e) CIRCLE && ep_eqb (e_end2 e) CIRCLE then Some (e_node1 e) else None
  else None.

(** FCI.py:56-65 = 72-81: one adjacent node u of t; the state is (V, Q), Q with its front first. *)
Definition sd_step (g : ggraph) (t : nat) (s : list nat * list nat) (u : nat) : outcome (list nat * list nat) :=
  match get_edge g t u with
  | Ok (Some e) => match traverse_semi t e with
                   | None => Ret s
                   | Some c => if memb c (fst s) then Ret s else Ret (fst s ++ [c], snd s ++ [c])
                   end
  | _ => Failed
  end.
Definition sd_push (g : ggraph) (t : nat) (V Q : list nat) : outcome (list nat * list nat) :=
  foldO (sd_step g t) (get_adjacent_nodes g t) (V, Q).
(** FCI.py:67-83 *)
Fixpoint sd_loop (fuel : nat) (g : ggraph) (to : nat) (V Q : list nat) : outcome bool :=
  match Q with
  | [] => Ret false
  | t :: Q' =>
      match fuel with
      | O => Running
      | S f => if Nat.eqb t to then Ret true
               else obind (sd_push g t V Q') (fun s => sd_loop f g to (fst s) (snd s))
      end
  end.
(** FCI.py:52-83 existsSemiDirectedPath *)
Definition exists_semi (fuel : nat) (g : ggraph) (from to : nat) : outcome bool :=
  obind (sd_push g from [] []) (fun s => sd_loop fuel g to (fst s) (snd s)).

(** FCI.py:109-118: one adjacent node of t; the queue holds (node, path from node_from). *)
Definition cp_step (g : ggraph) (ex : list nat) (t : nat) (path : list nat) (s : list nat * list (nat * list nat)) (u : nat)
  : outcome (list nat * list (nat * list nat)) :=
  match get_edge g t u with
  | Ok (Some e) => match traverse_circle t e with
                   | None => Ret s
                   | Some c => if memb c ex || memb c (fst s) then Ret s else Ret (fst s ++ [c], snd s ++ [(c, path ++ [c])])
                   end
  | _ => Failed
  end.
Definition cp_push g ex t path V Q := foldO (cp_step g ex t path) (get_adjacent_nodes g t) (V, Q).
(** FCI.py:104-118.  Simplification: the generator is run up to the (only) time it dequeues [to]; after that it can yield
    nothing, because a node is queued at most once, and only reads the graph. *)
Fixpoint cp_loop (fuel : nat) (g : ggraph) (to : nat) (ex : list nat) (V : list nat) (Q : list (nat * list nat)) : outcome (option (list nat)) :=
  match Q with
  | [] => Ret None
  | (t, path) :: Q' =>
      match fuel with
      | O => Running
      | S f => if Nat.eqb t to then Ret (if is_uncovered_path g path then Some path else None)
               else obind (cp_push g ex t path V Q') (fun s => cp_loop f g to ex (fst s) (snd s))
      end
  end.
(** FCI.py:85-118 GetUncoveredCirclePath (lines 92-93 test the exclusion before get_edge; [c] is [u], so once is enough) *)
Definition uncovered_circle_path (fuel : nat) (g : ggraph) (from to : nat) (ex : list nat) : outcome (option (list nat)) :=
  obind (cp_push g ex from [from] [] []) (fun s => cp_loop fuel g to ex (fst s) (snd s)).

Section FCI.
(** [ind x y S]: [independence_test_method(x, y, S) > alpha]; [forb]/[req]: the queries is_forbidden / is_required of the
    background knowledge on node indices, constantly false without knowledge (every use is guarded by [is not None]);
    [so]: the order in which Python lists a set of nodes; [srt]: [sort(reverse=True)] of a list of nodes by name. *)
Variable ind : nat -> nat -> list nat -> bool.
Variable forb req : nat -> nat -> bool.
Variable so srt : list nat -> list nat.
Definition sepsets := nat -> nat -> option (list nat).

(** FCI.py:246-257 is_arrow_point_allowed *)
Definition allowed (g : ggraph) (x y : nat) : bool :=
  if epis g x y ARROW then true
  else if epis g x y TAIL then false
  else if epis g y x ARROW && forb x y then false
  else if epis g y x TAIL && forb x y then false
  else epis g x y CIRCLE.

(** FCI.py:302-309 reorientAllWith(graph, CIRCLE) *)
Definition reorient_all (g : ggraph) : ggraph :=
  fold_left (fun g e => add_edge (remove_edge g e) (set_endpoint2 (set_endpoint1 e CIRCLE) CIRCLE)) (get_graph_edges g) g.

(** FCI.py:221-243 fci_orient_bk *)
Definition fci_bk_step (g : ggraph) (e : edge) : ggraph :=
  let a := e_node1 e in let b := e_node2 e in
  if forb a b then add_directed_edge (remove_edge g e) b a
  else if forb b a then add_directed_edge (remove_edge g e) a b
  else if req a b then add_directed_edge (remove_edge g e) a b
  else if req b a then add_directed_edge (remove_edge g e) b a
  else g.
Definition fci_orient_bk (g : ggraph) : ggraph := fold_left fci_bk_step (get_graph_edges g) g.

(** FCI.py:273-295: one pair of neighbours of b. *)
Definition rule0_step (sep : sepsets) (b : nat) (g : ggraph) (ac : nat * nat) : outcome ggraph :=
  let (a, c) := ac in
  if is_adjacent_to g a c then Ret g
  else if def_coll g a b c then Ret g
  else match sep a c with
       | Some s => if negb (memb b s) && allowed g a b && allowed g c b
                   then obind (reedge g a b (kept a) (mk ARROW)) (fun g1 => reedge g1 c b (kept c) (mk ARROW))
                   else Ret g
       | None => Ret g
       end.
(** FCI.py:260-299 rule0 *)
Definition rule0 (sep : sepsets) (g : ggraph) : outcome ggraph :=
  foldO (fun g b => foldO (rule0_step sep b) (upairs (get_adjacent_nodes g b)) g) (seq 0 (gn g)) (fci_orient_bk (reorient_all g)).

(** The state of a rule: the graph and the change flag. *)
Definition st : Type := (ggraph * bool)%type.
Definition changed (o : outcome ggraph) : outcome st := obind o (fun g => Ret (g, true)).

(** FCI.py:312-330 ruleR1 *)
Definition ruleR1 (a b c : nat) (s : st) : outcome st :=
  let g := fst s in
  if is_adjacent_to g a c then Ret s
  else if epis g a b ARROW && epis g c b CIRCLE && allowed g b c then changed (reedge g c b (mk ARROW) (mk TAIL))
  else Ret s.
(** FCI.py:333-352 ruleR2 *)
Definition ruleR2 (a b c : nat) (s : st) : outcome st :=
  let g := fst s in
  if is_adjacent_to g a c && epis g a c CIRCLE && epis g a b ARROW && epis g b c ARROW && (epis g b a TAIL || epis g c b TAIL) && allowed g a c
  then changed (reedge g a c (kept a) (mk ARROW))
  else Ret s.
(** FCI.py:355-376 rulesR1R2cycle *)
Definition r12_step (b : nat) (s : st) (ac : nat * nat) : outcome st :=
  let (a, c) := ac in
  obind (ruleR1 a b c s) (fun s => obind (ruleR1 c b a s) (fun s => obind (ruleR2 a b c s) (ruleR2 c b a))).
Definition rulesR1R2 (s : st) : outcome st :=
  foldO (fun s b => foldO (r12_step b) (upairs (get_adjacent_nodes (fst s) b)) s) (seq 0 (gn (fst s))) s.

(** FCI.py:379-383 isNoncollider *)
Definition is_noncollider (sep : sepsets) (i j k : nat) : bool :=
  match sep i k with Some s => memb j s | None => false end.
(** FCI.py:399-429: node_D and one pair of nodes into B. *)
Definition r3_step (sep : sepsets) (b d : nat) (s : st) (ac : nat * nat) : outcome st :=
  let (a, c) := ac in let g := fst s in
  if is_adjacent_to g a c then Ret s
  else if negb (is_adjacent_to g a d) || negb (is_adjacent_to g c d) then Ret s
  else if is_noncollider sep a d c && epis g a d CIRCLE && epis g c d CIRCLE && allowed g d b
       then changed (reedge g d b (kept d) (mk ARROW)) else Ret s.
(** FCI.py:386-430 ruleR3 *)
Definition ruleR3 (sep : sepsets) (s : st) : outcome st :=
  foldO (fun s b => let arr := get_nodes_into (fst s) b ARROW in
    foldO (fun s d => foldO (r3_step sep b d) (upairs arr) s) (get_nodes_into (fst s) b CIRCLE) s) (seq 0 (gn (fst s))) s.

(** FCI.py:444-463 orient_on_path_helper, preceded by the edge A - B (497-498). *)
Fixpoint consecutive (p : list nat) : list (nat * nat) :=
  match p with a :: ((b :: _) as r) => (a, b) :: consecutive r | _ => [] end.
Definition r5_pairs (a b : nat) (path : list nat) : list (nat * nat) :=
  (a, b) :: (a, hd 0%nat path) :: (b, last path 0%nat) :: consecutive path.
Definition tails (g : ggraph) (p : nat * nat) : outcome ggraph := reedge g (fst p) (snd p) (mk TAIL) (mk TAIL).
(** FCI.py:487-505: one of the generators found for A and B, run when the loop reaches it. *)
Definition r5_pair (fuel : nat) (a b : nat) (s : st) (cd : nat * nat) : outcome st :=
  obind (uncovered_circle_path fuel (fst s) (fst cd) (snd cd) [a; b]) (fun o =>
    match o with None => Ret s | Some path => changed (foldO tails (r5_pairs a b path) (fst s)) end).
Definition circle_nbrs (g : ggraph) (v a b : nat) : list nat :=
  filter (fun u => negb (Nat.eqb u a) && negb (Nat.eqb u b) && epis g u v CIRCLE && epis g v u CIRCLE) (get_adjacent_nodes g v).
Definition r5_step (fuel : nat) (b : nat) (s : st) (a : nat) : outcome st :=
  let g := fst s in
  if epis g b a CIRCLE then
    foldO (r5_pair fuel a b)
      (flat_map (fun c => if is_adjacent_to g b c then [] else
                 flat_map (fun d => if is_adjacent_to g a d then [] else [(c, d)]) (circle_nbrs g b a b)) (circle_nbrs g a a b)) s
  else Ret s.
(** FCI.py:432-507 ruleR5 *)
Definition ruleR5 (fuel : nat) (s : st) : outcome st :=
  foldO (fun s b => foldO (r5_step fuel b) (get_nodes_into (fst s) b CIRCLE) s) (seq 0 (gn (fst s))) s.

(** FCI.py:509-532 ruleR6 *)
Definition r6_node (s : st) (b : nat) : outcome st :=
  let g := fst s in
  if existsb (fun a => epis g b a TAIL) (get_nodes_into g b TAIL) then
    foldO (fun s c => changed (reedge (fst s) b c (mk TAIL) (kept c))) (get_nodes_into g b CIRCLE) s
  else Ret s.
Definition ruleR6 (s : st) : outcome st := foldO r6_node (seq 0 (gn (fst s))) s.

(** FCI.py:535-556 ruleR7 *)
Definition r7_step (b c : nat) (s : st) (a : nat) : outcome st :=
  if Nat.eqb a c then Ret s
  else if is_adjacent_to (fst s) a c then Ret s
  else changed (reedge (fst s) b c (mk TAIL) (kept c)).
Definition r7_node (s : st) (b : nat) : outcome st :=
  let g := fst s in
  let circ := get_nodes_into g b CIRCLE in
  let la := filter (fun a => epis g b a TAIL) circ in
  foldO (fun s c => foldO (r7_step b c) la s) circ s.
Definition ruleR7 (s : st) : outcome st := foldO r7_node (seq 0 (gn (fst s))) s.

(** A dict from nodes to nodes. *)
Definition prevmap := nat -> option nat.
Definition pset (p : prevmap) (k v : nat) : prevmap := fun x => if Nat.eqb x k then Some v else p x.
(** FCI.py:558-567 getPath *)
Fixpoint get_path (fuel : nat) (p : prevmap) (v : nat) : outcome (list nat) :=
  match p v with
  | None => Ret []
  | Some w => match fuel with O => Running | S f => obind (get_path f p w) (fun l => Ret (w :: l)) end
  end.
(** [l.remove(v)]; ValueError when absent. *)
Fixpoint lremove1 (v : nat) (l : list nat) : option (list nat) :=
  match l with
  | [] => None
  | x :: r => if Nat.eqb x v then Some r else match lremove1 v r with Some r' => Some (x :: r') | None => None end
  end.
(** FCI.py:570-644 doDdpOrientation: (res, graph and flag).  getPath reads previous[node_d], KeyError when absent. *)
Definition ddp_orientation (fuel : nat) (d a b c : nat) (prev : prevmap) (sep : sepsets) (s : st) : outcome (bool * st) :=
  let g := fst s in
  if is_adjacent_to g d c then Failed else
  match prev d with
  | None => Failed
  | Some _ =>
    obind (get_path fuel prev d) (fun path =>
    match lremove1 b path with
    | None => Failed
    | Some path2 =>
      let i1 := ind d c path in
      let i2 := ind d c path2 in
      match (if i1 || i2 then Some i1 else match sep d c with None => None | Some sp => Some (memb b sp) end) with
      | None => Ret (false, s)
      | Some true => obind (changed (reedge g c b (kept c) (mk TAIL))) (fun s' => Ret (true, s'))
      | Some false =>
          if allowed g a b && allowed g c b then
            obind (changed (obind (reedge g a b (kept a) (mk ARROW)) (fun g1 => reedge g1 c b (kept c) (mk ARROW)))) (fun s' => Ret (true, s'))
          else Ret (false, s)
      end
    end)
  end.
(** FCI.py:680-702: the loop over the nodes into t; the state is (previous, V, Q).  [inl]: the search is over. *)
Definition ddp_inner (fuel : nat) (a b c t : nat) (cpar : list nat) (sep : sepsets)
    (x : st + (st * prevmap * list nat * list nat)) (d : nat) : outcome (st + (st * prevmap * list nat * list nat)) :=
  match x with
  | inl s => Ret (inl s)
  | inr (s, prev, V, Q) =>
      if memb d V then Ret (inr (s, prev, V, Q))
      else match prev t with
           | None => Failed
           | Some p =>
               let prev' := pset prev d t in
               if negb (def_coll (fst s) d t p) then Ret (inr (s, prev', V, Q))
               else
                 let more s := if memb d cpar then inr (s, prev', V ++ [d], Q ++ [d]) else inr (s, prev', V, Q) in
                 if negb (is_adjacent_to (fst s) d c) && negb (Nat.eqb d c) then
                   obind (ddp_orientation fuel d a b c prev' sep s) (fun r =>
                     if fst r then Ret (inl (snd r)) else Ret (more (snd r)))
                 else Ret (more s)
           end
  end.
(** FCI.py:669-703: [e] is node_a from the first iteration on, and node_a is dequeued once, so the distance is 1 throughout. *)
Fixpoint ddp_loop (fuel : nat) (a b c : nat) (cpar : list nat) (sep : sepsets) (s : st) (prev : prevmap) (V Q : list nat) : outcome st :=
  match Q with
  | [] => Ret s
  | t :: Q' =>
      match fuel with
      | O => Running
      | S f => obind (foldO (ddp_inner fuel a b c t cpar sep) (get_nodes_into (fst s) t ARROW) (inr (s, prev, V, Q'))) (fun x =>
                 match x with
                 | inl s' => Ret s'
                 | inr (s', prev', V', Q'') => ddp_loop f a b c cpar sep s' prev' V' Q''
                 end)
      end
  end.
(** FCI.py:647-703 ddpOrient.  [mpl]: maxPathLength. *)
Definition ddp_orient (fuel : nat) (mpl : Z) (sep : sepsets) (a b c : nat) (s : st) : outcome st :=
  if 1 >? (if mpl =? -1 then 1000 else mpl) then Ret s
  else ddp_loop fuel a b c (get_parents (fst s) c) sep s (pset (fun _ => None) a b) [a; b] [a].
(** FCI.py:706-726 ruleR4B *)
Definition r4_node (fuel : nat) (mpl : Z) (sep : sepsets) (s : st) (b : nat) : outcome st :=
  let pa := get_nodes_out_of (fst s) b ARROW in
  let pc := get_nodes_into (fst s) b CIRCLE in
  foldO (fun s a => foldO (fun s c =>
     if is_parent_of (fst s) a c && epis (fst s) b c ARROW then ddp_orient fuel mpl sep a b c s else Ret s) pc s) pa s.
Definition ruleR4B (fuel : nat) (mpl : Z) (sep : sepsets) (s : st) : outcome st :=
  foldO (r4_node fuel mpl sep) (seq 0 (gn (fst s))) s.

(** FCI.py:730-758 rule8 *)
Definition r8_step (b : nat) (s : st) (ac : nat * nat) : outcome st :=
  let (a, c) := ac in let g := fst s in
  if (epis g a b ARROW && epis g b a TAIL && epis g b c ARROW && epis g c b TAIL && is_adjacent_to g a c && epis g a c ARROW && epis g c a CIRCLE)
     || (epis g a b CIRCLE && epis g b a TAIL && epis g b c ARROW && epis g c b TAIL && is_adjacent_to g a c && epis g a c ARROW && epis g c a CIRCLE)
  then changed (reedge g a c (mk TAIL) (mk ARROW)) else Ret s.
Definition rule8 (s : st) : outcome st :=
  foldO (fun s b => foldO (r8_step b) (upairs (get_adjacent_nodes (fst s) b)) s) (seq 0 (gn (fst s))) s.

(** FCI.py:762-771 is_possible_parent, 774-784 find_possible_children: a set, listed by [so]. *)
Definition is_possible_parent (g : ggraph) (p ch : nat) : bool :=
  if Nat.eqb p ch then false
  else if negb (is_adjacent_to g p ch) then false
  else negb (epis g ch p ARROW).
Definition possible_children (g : ggraph) (p : nat) (en : list nat) : list nat := so (filter (is_possible_parent g p) en).

(** FCI.py:802-810: the loop over the possible children of A, left at the first success. *)
Fixpoint r9_children (fuel : nat) (a c : nat) (bs : list nat) (s : st) : outcome st :=
  match bs with
  | [] => Ret s
  | b :: r => if is_adjacent_to (fst s) b c then r9_children fuel a c r s
              else obind (exists_semi fuel (fst s) b c) (fun v =>
                     if v then changed (reedge (fst s) a c (mk TAIL) (mk ARROW)) else r9_children fuel a c r s)
  end.
Definition r9_step (fuel : nat) (c : nat) (s : st) (a : nat) : outcome st :=
  let g := fst s in
  if epis g c a CIRCLE then
    r9_children fuel a c (possible_children g a (filter (fun u => negb (Nat.eqb u a) && negb (Nat.eqb u c)) (get_adjacent_nodes g a))) s
  else Ret s.
(** FCI.py:786-811 rule9 *)
Definition rule9 (fuel : nat) (s : st) : outcome st :=
  foldO (fun s c => foldO (r9_step fuel c) (get_nodes_into (fst s) c ARROW) s) (seq 0 (gn (fst s))) s.

(** FCI.py:847-858: the pairs of possible children of A, left at the first success. *)
Fixpoint r10_pairs (fuel : nat) (a b c d : nat) (ps : list (nat * nat)) (s : st) : outcome st :=
  match ps with
  | [] => Ret s
  | (u, v) :: r =>
      obind (exists_semi fuel (fst s) u b) (fun p1 =>
        if negb p1 then r10_pairs fuel a b c d r s
        else obind (exists_semi fuel (fst s) v d) (fun p2 =>
          if negb p2 then r10_pairs fuel a b c d r s
          else if negb (is_adjacent_to (fst s) u v) then changed (reedge (fst s) a c (mk TAIL) (mk ARROW))
          else r10_pairs fuel a b c d r s))
  end.
Definition r10_choice (fuel : nat) (a c : nat) (ch : list nat) (s : st) (bd : nat * nat) : outcome st :=
  let (b, d) := bd in
  if epis (fst s) c b TAIL && epis (fst s) c d TAIL then r10_pairs fuel a b c d (upairs ch) s else Ret s.
Definition r10_step (fuel : nat) (c : nat) (arr : list nat) (s : st) (a : nat) : outcome st :=
  let ch := possible_children (fst s) a (filter (fun u => negb (Nat.eqb u c)) (get_adjacent_nodes (fst s) a)) in
  if Nat.ltb (length ch) 2 then Ret s else foldO (r10_choice fuel a c ch) (upairs arr) s.
(** FCI.py:814-860 rule10 *)
Definition r10_node (fuel : nat) (s : st) (c : nat) : outcome st :=
  let arr := get_nodes_into (fst s) c ARROW in
  if Nat.ltb (length arr) 2 then Ret s
  else foldO (r10_step fuel c arr) (filter (fun a => epis (fst s) c a CIRCLE) arr) s.
Definition rule10 (fuel : nat) (s : st) : outcome st := foldO (r10_node fuel) (seq 0 (gn (fst s))) s.

(** FCI.py:1093-1126: one execution of the body of [while change_flag].  [ft]: first_time; [kall]: the knowledge has
    forbidden and required edges and tiers.  FCI.py:1106 sets first_time inside the branch. *)
Definition fci_pass (fuel : nat) (mpl : Z) (kall ft : bool) (sep : sepsets) (g : ggraph) : outcome (st * bool) :=
  obind (rulesR1R2 (g, false)) (fun s => obind (ruleR3 sep s) (fun s =>
    let go := snd s || (ft && kall) in
    obind (if go then ruleR4B fuel mpl sep s else Ret s) (fun s =>
    obind (ruleR5 fuel s) (fun s => obind (ruleR6 s) (fun s => obind (ruleR7 s) (fun s => obind (rule8 s) (fun s =>
    obind (rule9 fuel s) (fun s => obind (rule10 fuel s) (fun s => Ret (s, ft && negb go)))))))))).
Fixpoint fci_loop (fuel : nat) (mpl : Z) (kall ft : bool) (sep : sepsets) (g : ggraph) : outcome ggraph :=
  match fuel with
  | O => Running
  | S f => obind (fci_pass fuel mpl kall ft sep g) (fun r =>
             if snd (fst r) then fci_loop f mpl kall (snd r) sep (fst (fst r)) else Ret (fst (fst r)))
  end.

(** FCI.py:122-137 existOnePathWithPossibleParents, called with node_w = node_b *)
Definition prevsets := nat -> option (list nat).
Fixpoint one_path (fuel : nat) (g : ggraph) (x b : nat) (rs : list nat) : outcome bool :=
  match rs with
  | [] => Ret false
  | r :: rest =>
      if Nat.eqb r b || Nat.eqb r x then one_path fuel g x b rest
      else obind (exists_semi fuel g r x) (fun p1 => if p1 then Ret true else
           obind (exists_semi fuel g r b) (fun p2 => if p2 then Ret true else one_path fuel g x b rest))
  end.
Definition exist_one_path (fuel : nat) (g : ggraph) (prev : prevsets) (x b : nat) : outcome bool :=
  if Nat.eqb b x then Ret true else
  match prev b with None => Ret false | Some l => one_path fuel g x b (so l) end.
Definition sadd (x : nat) (l : list nat) : list nat := if memb x l then l else l ++ [x].
Definition prev_add (p : prevsets) (k v : nat) : prevsets :=
  fun x => if Nat.eqb x k then Some (sadd v (match p k with Some l => l | None => [] end)) else p x.
Definition pair_eqb (p q : nat * nat) : bool := Nat.eqb (fst p) (fst q) && Nat.eqb (snd p) (snd q).
Definition oepair_eqb (o : option (nat * nat)) (q : nat * nat) : bool := match o with Some p => pair_eqb p q | None => false end.
(** FCI.py:190-209: one neighbour c of b; the state is (previous, V, Q, e). *)
Definition pd_nbr (g : ggraph) (x y a b : nat) (s : prevsets * list (nat * nat) * list (nat * nat) * option (nat * nat)) (c : nat) :=
  let '(prev, V, Q, e) := s in
  if Nat.eqb c a || Nat.eqb c x || Nat.eqb c y then s
  else
    let prev' := prev_add prev c b in
    if def_coll g a b c || is_adjacent_to g a c then
      let u := (a, c) in
      if existsb (pair_eqb u) V then (prev', V, Q, e)
      else (prev', V ++ [u], Q ++ [u], match e with None => Some u | _ => e end)
    else (prev', V, Q, e).
(** FCI.py:176-209.  The length limit is always -1, i.e. 1000. *)
Fixpoint pds_loop (fuel : nat) (g : ggraph) (x y : nat) (dist : nat) (dsep : list nat)
    (s : prevsets * list (nat * nat) * list (nat * nat) * option (nat * nat)) : outcome (list nat) :=
  let '(prev, V, Q, e) := s in
  match Q with
  | [] => Ret dsep
  | t :: Q' =>
      match fuel with
      | O => Running
      | S f =>
          let hit := oepair_eqb e t in
          let e' := if hit then None else e in
          let dist' := if hit then S dist else dist in
          if hit && Nat.ltb 1000 dist' then Ret dsep
          else
            let (a, b) := t in
            obind (exist_one_path fuel g prev x b) (fun p =>
              pds_loop f g x y dist' (if p then sadd b dsep else dsep)
                (fold_left (pd_nbr g x y a b) (get_adjacent_nodes g b) (prev, V, Q', e')))
      end
  end.
(** FCI.py:140-218 getPossibleDsep *)
Definition pds_init (x y : nat) (s : list nat * (prevsets * list (nat * nat) * list (nat * nat) * option (nat * nat))) (b : nat) :=
  if Nat.eqb b y then s
  else let '(dsep, (prev, V, Q, e)) := s in
       (sadd b dsep, (prev_add prev x b, V ++ [(x, b)], Q ++ [(x, b)], match e with None => Some (x, b) | _ => e end)).
Definition possible_dsep (fuel : nat) (g : ggraph) (x y : nat) : outcome (list nat) :=
  let s0 := fold_left (pds_init x y) (so (get_adjacent_nodes g x)) ([], (fun _ => None, [], [], None)) in
  obind (pds_loop fuel g x y 0 (fst s0) (snd s0)) (fun d => Ret (srt (filter (fun v => negb (Nat.eqb v x) && negb (Nat.eqb v y)) d))).

(** FCI.py:965-971: [choice = gen.next()] is called before [origin_choice] is read, and DepthChoiceGenerator reuses the list
    it returned as long as the size does not change (C45): of the choices c1 .. ck of one size the body sees c2, .., ck, ck. *)
Definition seen (l : list (list nat)) : list (list nat) := match l with [] => [] | _ => tl l ++ [last l []] end.
Definition seen_choices (p : list nat) : list (list nat) := flat_map (fun k => seen (combs k p)) (seq 0 (S (length p))).
Definition contains_all (l cs : list nat) : bool := forallb (fun v => memb v l) cs.
(** FCI.py:968-985 = 990-1007 *)
Fixpoint pd_search (g : ggraph) (a b : nat) (l : list (list nat)) : option (list nat) :=
  match l with
  | [] => None
  | cs :: r =>
      if Nat.ltb (length cs) 2 then pd_search g a b r
      else if contains_all (get_adjacent_nodes g a) cs || contains_all (get_adjacent_nodes g b) cs then pd_search g a b r
      else if ind a b cs then Some cs else pd_search g a b r
  end.
Definition sep_set (sep : sepsets) (x y : nat) (v : list nat) : sepsets := upd_f sep x y (Some v).
(** FCI.py:957-1009: one edge. *)
Definition pd_edge (fuel : nat) (s : ggraph * sepsets) (e : edge) : outcome (ggraph * sepsets) :=
  let a := e_node1 e in let b := e_node2 e in
  obind (possible_dsep fuel (fst s) a b) (fun p1 =>
    let s1 := match pd_search (fst s) a b (seen_choices p1) with
              | Some cs => (remove_edge (fst s) e, sep_set (snd s) a b cs) | None => s end in
    if contains_edge (fst s1) e then
      obind (possible_dsep fuel (fst s1) b a) (fun p2 =>
        Ret match pd_search (fst s1) a b (seen_choices p2) with
            | Some cs => (remove_edge (fst s1) e, sep_set (snd s1) a b cs) | None => s1 end)
    else Ret s1).
(** FCI.py:951-1009 removeByPossibleDsep *)
Definition remove_by_pdsep (fuel : nat) (sep : sepsets) (g : ggraph) : outcome (ggraph * sepsets) :=
  foldO (pd_edge fuel) (get_graph_edges g) (g, sep).

(** FCI.py:863-885 visibleEdgeHelperVisit; the state is the list [path].  Returns the answer and the path. *)
Fixpoint visible_visit (fuel : nat) (g : ggraph) (c a b : nat) (path : list nat) : outcome (bool * list nat) :=
  match fuel with
  | O => Running
  | S f =>
      if memb a path then Ret (false, path)
      else if Nat.eqb a b then Ret (true, path ++ [a])
      else
        obind (foldO (fun (r : bool * list nat) d =>
            if fst r then Ret r
            else if is_parent_of g d c then Ret (true, snd r)
            else if negb (def_coll g d c a) then Ret r
            else if negb (is_parent_of g c b) then Ret r
            else visible_visit f g d c b (snd r)) (get_nodes_into g a ARROW) (false, path ++ [a])) (fun r =>
          if fst r then Ret r else Ret (false, removelast (snd r)))
  end.
(** FCI.py:888-898 visibleEdgeHelper *)
Fixpoint visible_helper (fuel : nat) (g : ggraph) (a b : nat) (cs : list nat) (path : list nat) : outcome bool :=
  match cs with
  | [] => Ret false
  | c :: r => if is_parent_of g c a then Ret true
              else obind (visible_visit fuel g c a b path) (fun v => if fst v then Ret true else visible_helper fuel g a b r (snd v))
  end.
(** FCI.py:901-919 defVisible *)
Definition def_visible (fuel : nat) (g : ggraph) (e : edge) : outcome bool :=
  if contains_edge g e then
    let (a, b) := if ep_eqb (e_end1 e) TAIL then (e_node1 e, e_node2 e) else (e_node2 e, e_node1 e) in
    if existsb (fun c => negb (Nat.eqb c b) && negb (is_adjacent_to g c b) && epis g c a ARROW) (get_adjacent_nodes g a) then Ret true
    else visible_helper fuel g a b (get_nodes_into g a ARROW) [a]
  else Failed.
(** FCI.py:922-948 get_color_edges.  For each edge: None (not a directed edge), or Some (dd?, nl?). *)
Definition color_step (fuel : nat) (s : ggraph * list (edge * option (bool * bool))) (e : edge) : outcome (ggraph * list (edge * option (bool * bool))) :=
  let g := fst s in
  if (ep_eqb (e_end1 e) TAIL && ep_eqb (e_end2 e) ARROW) || (ep_eqb (e_end1 e) ARROW && ep_eqb (e_end2 e) TAIL) then
    let (x, y) := if ep_eqb (e_end1 e) TAIL then (e_node1 e, e_node2 e) else (e_node2 e, e_node1 e) in
    let g1 := remove_edge g e in
    obind (exists_semi fuel g1 x y) (fun p =>
      let g2 := add_edge g1 e in
      obind (def_visible fuel g2 e) (fun v => Ret (g2, snd s ++ [(e, Some (negb p, v))])))
  else Ret (g, snd s ++ [(e, None)]).
Definition color_edges (fuel : nat) (g : ggraph) : outcome (ggraph * list (edge * option (bool * bool))) :=
  foldO (color_step fuel) (get_graph_edges g) (g, []).

(** FCI.py:1012-1132 fci after the checks of its arguments.  [depth]: None stands for -1. *)
Definition fci_oriented (fuel : nat) (depth : option nat) (mpl : Z) (kall : bool) (n : nat) : outcome ggraph :=
  obind (of_opt (fas ind (fun x y => forb x y && forb y x) true depth fuel n)) (fun gs =>
  obind (rule0 (snd gs) (reorient_all (fst gs))) (fun g1 =>
  obind (remove_by_pdsep fuel (snd gs) g1) (fun g2s =>
  obind (rule0 (snd g2s) (reorient_all (fst g2s))) (fun g3 => fci_loop fuel mpl kall true (snd g2s) g3)))).
Definition fci (fuel : nat) (depth : option nat) (mpl : Z) (kall : bool) (n : nat) : outcome (ggraph * list (edge * option (bool * bool))) :=
  obind (fci_oriented fuel depth mpl kall n) (color_edges fuel).
End FCI.
