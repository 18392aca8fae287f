(** GES.py and GESUtils.py: greedy equivalence search. *)
From Verif Require Import Base EdgeModel GraphModel UtilsModel SkelModel PCModel PdagModel CpdagModel.
Local Open Scope Z_scope.

(** GES.py:175-178, 273-276, GESUtils.py:60-63, 101-104, 194-197, 280-283, 299-302: the neighbours of Xj
    (numpy index sets are sorted, as is [seq]). *)
Definition nbs (g : ggraph) (j : nat) : list nat :=
  filter (fun k => (gm g k j =? -1) && (gm g j k =? -1)) (seq 0 (gn g)).
(** GES.py:180-183, 277-280, GESUtils.py:64-67 and the like: the nodes adjacent to Xi. *)
Definition adjs (g : ggraph) (i : nat) : list nat :=
  filter (fun k => negb (gm g k i =? 0) || negb (gm g i k =? 0)) (seq 0 (gn g)).
(** GES.py:281-283, GESUtils.py:68, 109, 202, 288, 307: neighbours of Xj adjacent to Xi. *)
Definition NAset (g : ggraph) (i j : nat) : list nat := filter (fun k => memb k (adjs g i)) (nbs g j).
(** GES.py:185-188: neighbours of Xj not adjacent to Xi. *)
Definition T0set (g : ggraph) (i j : nat) : list nat := filter (fun k => negb (memb k (adjs g i))) (nbs g j).
(** GESUtils.py:26-40 Combinatorial *)
Definition Combinatorial (T0 : list nat) : list (list nat) :=
  match T0 with
  | [] => [[]]
  | [x] => [[]; [x]]
  | _ => flat_map (fun n => combs n T0) (seq 0 (S (length T0)))
  end.
(** np.union1d of two sets of node indices. *)
Definition union1 (g : ggraph) (a b : list nat) : list nat := filter (fun k => memb k a || memb k b) (seq 0 (gn g)).

(** GESUtils.py:75-94 check_clique *)
Definition check_clique (g : ggraph) (sub : list nat) : bool :=
  let ns := length sub in
  forallb (fun p => forallb (fun q =>
      let a := nth p sub 0%nat in let b := nth q sub 0%nat in
      let v := if (gm g a b =? 1) || (gm g b a =? 1) then -1 else gm g a b in
      v =? (if Nat.eqb p q then 0 else -1)) (seq 0 ns)) (seq 0 ns).

(** GESUtils.py:54-72 insert_validity_test1 *)
Definition insert_test1 (g : ggraph) (i j : nat) (T : list nat) : bool := check_clique g (union1 g (NAset g i j) T).

(** GESUtils.py:150-158: children and neighbours of the node on top of the stack. *)
Definition vc2_children (g : ggraph) (top : nat) : list nat :=
  filter (fun k => gm g k top =? 1) (seq 0 (gn g)) ++
  filter (fun k => (gm g top k =? -1) && (gm g k top =? -1)) (seq 0 (gn g)).
(** GESUtils.py:120-175 insert_vc2_new.  A stack entry is the list of the nodes of its chain of "pa" links, the node
    itself first. *)
Fixpoint vc2 (fuel : nat) (g : ggraph) (target : nat) (nat_ : list nat) (stack : list (list nat)) : outcome bool :=
  match fuel with
  | O => Running
  | S f =>
      match stack with
      | [] => Ret true
      | [] :: stack' => vc2 f g target nat_ stack'
      | (top :: pa) :: stack' =>
          if Nat.eqb top target then
            if existsb (fun v => memb v nat_) pa then vc2 f g target nat_ stack' else Ret false
          else
            vc2 f g target nat_
              (rev (map (fun c => c :: top :: pa) (filter (fun c => negb (memb c pa)) (vc2_children g top))) ++ stack')
      end
  end.
(** GESUtils.py:97-117 insert_validity_test2 *)
Definition insert_test2 (fuel : nat) (g : ggraph) (i j : nat) (T : list nat) : outcome bool :=
  vc2 fuel g i (union1 g (NAset g i j) T) [[j]].

(** GESUtils.py:178-189 find_subset_include *)
Definition find_subset_include (s0 : list nat) (sub : list (list nat)) : list bool :=
  match s0, sub with
  | [], _ | _, [] => map (fun _ => true) sub
  | _, _ => map (fun s => let tmp := filter (fun x => memb x s) s0 in
               negb (Nat.eqb (length tmp) 0) && forallb (fun x => memb x tmp) s0 && forallb (fun x => memb x s0) tmp) sub
  end.
(** S[np.where(Idx == 1)] = v *)
Fixpoint mark (idx : list bool) (v : nat) (fl : list nat) : list nat :=
  match idx, fl with
  | b :: idx', s :: fl' => (if b then v else s) :: mark idx' v fl'
  | _, _ => fl
  end.

(** The record of local scores: for every node the list of [parents..., score]; the parents are kept as integers
    because the empty set may be stored as [-1]. *)
Definition record := nat -> list (list Z * Z).
Definition same_ids (a b : list Z) : bool :=
  forallb (fun x => existsb (Z.eqb x) b) a && forallb (fun x => existsb (Z.eqb x) a) b.
(** GESUtils.py:217-235, 324-340; an absent value stands for s1 = 0 (s2 = 0). *)
Fixpoint lookup2 (t3 t2 : list Z) (l : list (list Z * Z)) (s1 s2 : option Z) : option Z * option Z :=
  match l with
  | [] => (s1, s2)
  | (k, v) :: r =>
      let s1' := if same_ids k t3 then Some v else s1 in
      let s2' := if same_ids k t2 then Some v
                 else if same_ids k [-1] && Nat.eqb (length t2) 0 then Some v else s2 in
      match s1', s2' with Some _, Some _ => (s1', s2') | _, _ => lookup2 t3 t2 r s1' s2' end
  end.
Definition rappend (rec : record) (j : nat) (x : list Z * Z) : record :=
  fun k => if Nat.eqb k j then rec j ++ [x] else rec k.
(** GESUtils.py:209-255, 316-360.  Simplification: a Python set turned into a list is listed in increasing order. *)
Definition changed_score (sc : nat -> list nat -> Z) (rec : record) (j : nat) (t3 t2 : list nat) : Z * record :=
  let z3 := map Z.of_nat t3 in let z2 := map Z.of_nat t2 in
  let '(s1, s2) := lookup2 z3 z2 (rec j) None None in
  let '(score1, rec1) := match s1 with Some v => (v, rec) | None => (sc j t3, rappend rec j (z3, sc j t3)) end in
  let '(score2, rec2) := match s2 with
    | Some v => (v, rec1)
    | None => (sc j t2, rappend rec1 j (if Nat.eqb (length t2) 0 then [-1] else z2, sc j t2)) end in
  (score1 - score2, rec2).

(** np.where(G.graph[j, :] == ARROW) *)
Definition paj (g : ggraph) (j : nat) : list nat := filter (fun k => gm g j k =? 1) (seq 0 (gn g)).
(** GESUtils.py:192-255 insert_changed_score *)
Definition insert_sets (g : ggraph) (i j : nat) (T : list nat) : list nat * list nat :=
  let tmp1 := union1 g (NAset g i j) T in
  let tmp2 := union1 g tmp1 (paj g j) in
  let tmp3 := union1 g tmp2 [i] in (tmp3, tmp2).
Definition insert_changed_score sc (g : ggraph) (i j : nat) (T : list nat) (rec : record) : Z * record :=
  changed_score sc rec j (fst (insert_sets g i j T)) (snd (insert_sets g i j T)).
(** GESUtils.py:297-360 delete_changed_score *)
Definition delete_sets (g : ggraph) (i j : nat) (H : list nat) : list nat * list nat :=
  let Paj := union1 g (paj g j) [i] in
  let tmp1 := filter (fun k => negb (memb k H)) (NAset g i j) in
  let tmp2 := union1 g tmp1 Paj in
  let tmp3 := filter (fun k => negb (Nat.eqb k i)) tmp2 in (tmp3, tmp2).
Definition delete_changed_score sc (g : ggraph) (i j : nat) (H : list nat) (rec : record) : Z * record :=
  changed_score sc rec j (fst (delete_sets g i j H)) (snd (delete_sets g i j H)).
(** GESUtils.py:274-294 delete_validity_test *)
Definition delete_test (g : ggraph) (i j : nat) (H : list nat) : bool :=
  check_clique g (filter (fun k => negb (memb k H)) (NAset g i j)).

(** GESUtils.py:258-271 insert *)
Definition redirect (g : ggraph) (a b : nat) : res ggraph :=
  res_bind (get_edge g a b) (fun o =>
    Ok (add_edge (match o with Some e => remove_edge g e | None => g end) (Edge a b TAIL ARROW))).
Definition insert_op (g : ggraph) (i j : nat) (T : list nat) : res ggraph :=
  fold_left (fun r t => res_bind r (fun g => redirect g t j)) T (Ok (add_edge g (Edge i j TAIL ARROW))).
(** GESUtils.py:363-376 delete *)
Definition drop_edge (g : ggraph) (a b : nat) : res ggraph :=
  res_bind (get_edge g a b) (fun o => Ok (match o with Some e => remove_edge g e | None => g end)).
Definition delete_op (g : ggraph) (i j : nat) (H : list nat) : res ggraph :=
  fold_left (fun r h => res_bind r (fun g =>
      res_bind (drop_edge g j h) (fun g1 => res_bind (drop_edge g1 i h) (fun g2 =>
      Ok (add_edge (add_edge g2 (Edge j h TAIL ARROW)) (Edge i h TAIL ARROW))))))
    H (drop_edge g i j).

(** (record_local_score, (min_chscore, min_desc)) *)
Definition desc := (nat * nat * list nat)%type.
Definition sweep_st := (record * (Z * option desc))%type.
Definition consider (ch : Z) (d : desc) (best : Z * option desc) : Z * option desc :=
  if ch <? fst best then (ch, Some d) else best.

(** GES.py:196-235: one subset of the neighbours of Xj, in the forward phase. *)
Definition fwd_subset (vf : nat) sc (g : ggraph) (i j : nat) (sub : list (list nat))
    (acc : outcome (list nat * sweep_st)) (k : nat) : outcome (list nat * sweep_st) :=
  obind acc (fun '(fl, (rec, best)) =>
    let s := nth k sub [] in
    if Nat.ltb (nth k fl 0%nat) 2 then
      if insert_test1 g i j s then
        obind (if Nat.eqb (nth k fl 0%nat) 0 then insert_test2 vf g i j s else Ret true) (fun v2 =>
          if v2 then
            let fl' := mark (find_subset_include s sub) 1 fl in
            let '(ch, rec') := insert_changed_score sc g i j s rec in
            Ret (fl', (rec', consider ch (i, j, s) best))
          else Ret (fl, (rec, best)))
      else Ret (mark (find_subset_include s sub) 2 fl, (rec, best))
    else Ret (fl, (rec, best))).
(** GES.py:166-235 *)
Definition fwd_pair (vf : nat) (maxP : Z) sc (g : ggraph) (acc : outcome sweep_st) (ij : nat * nat) : outcome sweep_st :=
  obind acc (fun st =>
    let '(i, j) := ij in
    if (gm g i j =? 0) && (gm g j i =? 0) && negb (Nat.eqb i j) && (Z.of_nat (length (paj g j)) <=? maxP) then
      let sub := Combinatorial (T0set g i j) in
      obind (fold_left (fwd_subset vf sc g i j sub) (seq 0 (length sub)) (Ret (map (fun _ => 0%nat) sub, st))) (fun r => Ret (snd r))
    else Ret st).
Definition all_ij (n : nat) : list (nat * nat) := flat_map (fun i => map (fun j => (i, j)) (seq 0 n)) (seq 0 n).
Definition fwd_sweep (vf : nat) (maxP big : Z) sc (g : ggraph) (rec : record) : outcome sweep_st :=
  fold_left (fwd_pair vf maxP sc g) (all_ij (gn g)) (Ret (rec, (big, None))).

(** GES.py:289-316 *)
Definition bwd_subset sc (g : ggraph) (i j : nat) (sub : list (list nat)) (acc : list nat * sweep_st) (k : nat) : list nat * sweep_st :=
  let '(fl, (rec, best)) := acc in
  let s := nth k sub [] in
  let '(v, fl') :=
    if Nat.eqb (nth k fl 0%nat) 1 then
      if delete_test g i j s then (true, mark (find_subset_include s sub) 2 fl) else (false, fl)
    else (true, fl) in
  if v then let '(ch, rec') := delete_changed_score sc g i j s rec in (fl', (rec', consider ch (i, j, s) best))
  else (fl', (rec, best)).
(** GES.py:265-316 *)
Definition bwd_pair sc (g : ggraph) (st : sweep_st) (ij : nat * nat) : sweep_st :=
  let '(i, j) := ij in
  if ((gm g j i =? -1) && (gm g i j =? -1)) || (gm g j i =? 1) then
    let sub := Combinatorial (NAset g i j) in
    snd (fold_left (bwd_subset sc g i j sub) (seq 0 (length sub)) (map (fun _ => 1%nat) sub, st))
  else st.
Definition bwd_sweep (big : Z) sc (g : ggraph) (rec : record) : outcome sweep_st :=
  Ret (fold_left (bwd_pair sc g) (all_ij (gn g)) (rec, (big, None))).

(** The graph objects recorded so far: [older] is Record['G_step1'] during the backward phase ([] during the forward
    phase) and [steps] the list of the current phase.  The object [G] of the loop is the last object recorded. *)
Fixpoint replace_last {A} (l : list A) (x : A) : list A :=
  match l with [] => [] | [_] => [x] | a :: r => a :: replace_last r x end.
Record loop_st := mkL {
  l_G : ggraph; l_older : list ggraph; l_steps : list ggraph; l_rec : record;
  l_score_new : Z; l_updates : list desc; l_scores : list Z }.
(** insert and delete modify [G] in place (GESUtils.py:262-271, 366-376): the recorded object changes too. *)
Definition overwrite (st : loop_st) (g : ggraph) : list ggraph * list ggraph :=
  match l_steps st with
  | [] => (replace_last (l_older st) g, [])
  | _ => (l_older st, replace_last (l_steps st) g)
  end.
(** GES.py:159-248 and 258-329: the loop of a phase; [sweep] chooses the operator and [op] applies it. *)
Fixpoint ges_loop (fuel gf : nat) (sweep : ggraph -> record -> outcome sweep_st)
    (op : ggraph -> nat -> nat -> list nat -> res ggraph) (st : loop_st) : outcome (loop_st * Z) :=
  match fuel with
  | O => Running
  | S f =>
      let score := l_score_new st in
      let scores := l_scores st ++ [score] in
      obind (sweep (l_G st) (l_rec st)) (fun '(rec, (mn, md)) =>
        let st1 := mkL (l_G st) (l_older st) (l_steps st) rec score (l_updates st) scores in
        match md with
        | None => Ret (st1, score)
        | Some (i, j, T) =>
            let score_new := score + mn in
            if score - score_new <=? 0 then Ret (st1, score)
            else
              obind (of_res (op (l_G st) i j T)) (fun g1 =>
              obind (of_opt (pdag2dag gf g1)) (fun g2 =>
              obind (dag2cpdag gf g2) (fun g3 =>
                let '(older, steps) := overwrite st g1 in
                ges_loop f gf sweep op
                  (mkL g3 older (steps ++ [g3]) rec score_new (l_updates st ++ [(i, j, T)]) scores))))
        end)
  end.

Record ges_record := mkRec {
  r_update1 : list desc; r_update2 : list desc; r_step1 : list ggraph; r_step2 : list ggraph;
  r_G : ggraph; r_score : Z; r_scores1 : list Z; r_scores2 : list Z }.
(** GESUtils.py:43-51 score_g *)
Definition score_g (sc : nat -> list nat -> Z) (g : ggraph) : Z :=
  fold_left (fun s i => s + sc i (get_parents g i)) (seq 0 (gn g)) 0.
(** GES.py:139-339, for [n] variables and the local score [sc] (its cache, LocalScoreFunctionClass.py, is modelled
    elsewhere); [big] is the initial min_chscore 1e7.  Scores are exact integers instead of floating point numbers.
    [scores1] and [scores2] are the local lists score_record1 and score_record2. *)
Definition ges (fuel gf vf n : nat) (maxP big : Z) (sc : nat -> list nat -> Z) : outcome ges_record :=
  let G0 := empty_graph n in
  let score := score_g sc G0 in
  obind (of_opt (pdag2dag gf G0)) (fun G1 =>
  obind (dag2cpdag gf G1) (fun G2 =>
  obind (ges_loop fuel gf (fwd_sweep vf maxP big sc) insert_op (mkL G2 [] [] (fun _ => []) score [] [])) (fun '(s1, sc1) =>
  obind (ges_loop fuel gf (bwd_sweep big sc) delete_op (mkL (l_G s1) (l_steps s1) [] (l_rec s1) sc1 [] [])) (fun '(s2, sc2) =>
    Ret (mkRec (l_updates s1) (l_updates s2) (l_older s2) (l_steps s2) (l_G s2) sc2 (l_scores s1) (l_scores s2)))))).
