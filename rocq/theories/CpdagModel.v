(** DAG2CPDAG.py and MECCheck.py: the completed partially directed graph of a DAG. *)
From Verif Require Import Base EdgeModel GraphModel UtilsModel.
Local Open Scope Z_scope.

(** A [for] loop over [l] that breaks at the first element satisfying [f]: the value the loop variable is left with. *)
Definition for_break (f : nat -> bool) (l : list nat) (d : nat) : nat :=
  match find f l with Some x => x | None => last l d end.

(** Dag.py:321-330 get_num_edges *)
Definition dag_num_edges (g : ggraph) : nat :=
  length (flat_map (fun i => filter (fun j => negb (gm g j i =? 0)) (seq (S i) (gn g - S i))) (seq 0 (gn g))).

(** Rows of [edges_order] are pairs (i, j). *)
Definition row_eqb (a b : nat * nat) : bool := Nat.eqb (fst a) (fst b) && Nat.eqb (snd a) (snd b).
Definition has_row (i j : nat) (eo : list (nat * nat)) : bool := existsb (row_eqb (i, j)) eo.

(** DAG2CPDAG.py:40-55: the test that leaves the loop over [ny]. *)
Definition y_test (g : ggraph) (eo : list (nat * nat)) (j : nat) : bool :=
  let inci_all := filter (fun k => gm g j k =? 1) (seq 0 (gn g)) in
  if Nat.eqb (length inci_all) 0 then false
  else if Nat.eqb (length eo) 0 then true
  else let inci := map fst (filter (fun e => Nat.eqb (snd e) j) eo) in
       negb (Nat.eqb (length (filter (fun k => negb (memb k inci)) inci_all)) 0).
(** DAG2CPDAG.py:56-73: the test that leaves the loop over [nx]. *)
Definition x_test (g : ggraph) (eo : list (nat * nat)) (j i : nat) : bool :=
  if Nat.eqb (length eo) 0 then gm g j i =? 1
  else negb (has_row i j eo) && (gm g j i =? 1).
(** DAG2CPDAG.py:39-74: one iteration appends one row. *)
Definition eo_step (g : ggraph) (order : list nat) (eo : list (nat * nat)) : list (nat * nat) :=
  let j := for_break (y_test g eo) (rev order) 0%nat in
  let i := for_break (x_test g eo j) order 0%nat in
  eo ++ [(i, j)].
(** The while loop runs until M rows are present, i.e. M times. *)
Definition edges_order (g : ggraph) (order : list nat) : list (nat * nat) :=
  Nat.iter (dag_num_edges g) (eo_step g order) [].

(** [sign_edges] is kept next to the rows it belongs to: a list of (row, sign). *)
Definition lrow : Type := ((nat * nat) * Z).
Definition no_row : lrow := ((0%nat, 0%nat), 0).
(** sign_edges[np.where(p)] = v *)
Definition label (p : nat * nat -> Z -> bool) (v : Z) (st : list lrow) : list lrow :=
  map (fun x => if p (fst x) (snd x) then (fst x, v) else x) st.
Definition into (j : nat) (e : nat * nat) (s : Z) : bool := Nat.eqb (snd e) j.
Definition is_row (i j : nat) (e : nat * nat) (s : Z) : bool := Nat.eqb (fst e) i && Nat.eqb (snd e) j.
Definition into_unknown (j : nat) (e : nat * nat) (s : Z) : bool := Nat.eqb (snd e) j && (s =? 0).

(** DAG2CPDAG.py:90-105: the loop over the edges w -> x; returns (ss, labels). *)
Fixpoint w_loop (g : ggraph) (j : nat) (idk : list nat) (st : list lrow) : bool * list lrow :=
  match idk with
  | [] => (false, st)
  | m :: r =>
      let row := nth m st no_row in
      let w := fst (fst row) in
      if snd row =? 1 then
        if negb (gm g j w =? 1) then (true, label (into j) 1 st)
        else w_loop g j r (label (is_row w j) 1 st)
      else w_loop g j r st
  end.
(** DAG2CPDAG.py:109-126: a parent of y, other than x, that is not a parent of x. *)
Definition z_test (g : ggraph) (i j : nat) : bool :=
  existsb (fun z => (gm g j z =? 1) && negb (Nat.eqb z i) &&
                    ((gm g i z =? 0) || (gm g i z =? -1) || ((gm g i z =? -1) && (gm g z i =? -1)))) (seq 0 (gn g)).
(** DAG2CPDAG.py:79-151: one iteration of the labelling loop. *)
Definition lab_step (g : ggraph) (st : list lrow) : list lrow :=
  match find (fun m => snd (nth m st no_row) =? 0) (rev (seq 0 (length st))) with
  | None => st
  | Some m =>
      let i := fst (fst (nth m st no_row)) in
      let j := snd (fst (nth m st no_row)) in
      let idk := filter (fun m => Nat.eqb (snd (fst (nth m st no_row))) i) (seq 0 (length st)) in
      let (ss, st1) := w_loop g j idk st in
      if ss then st1
      else let v := if z_test g i j then 1 else -1 in
           label (into_unknown j) v (label (is_row i j) v st1)
  end.
(** DAG2CPDAG.py:78; [None] = out of fuel (still looping). *)
Fixpoint lab_loop (fuel : nat) (g : ggraph) (st : list lrow) : option (list lrow) :=
  if forallb (fun x : lrow => negb (snd x =? 0)) st then Some st else
  match fuel with O => None | S f => lab_loop f g (lab_step g st) end.

(** DAG2CPDAG.py:154-175 *)
Definition cp_edge (x : lrow) : edge :=
  if snd x =? 1 then Edge (fst (fst x)) (snd (fst x)) TAIL ARROW else Edge (fst (fst x)) (snd (fst x)) TAIL TAIL.
Definition cp_build (n : nat) (st : list lrow) : ggraph := fold_left add_edge (map cp_edge st) (empty_graph n).

(** DAG2CPDAG.py:9-177 dag2cpdag.  Simplification: no node has type ERROR, so that the causal ordering
    (Dag.py:719-721) lists every node. *)
Definition dag2cpdag (fuel : nat) (g : ggraph) : outcome ggraph :=
  match get_causal_order fuel g (fun _ => false) with
  | Ret order =>
      match lab_loop fuel g (map (fun e => (e, 0)) (edges_order g order)) with
      | Some st => Ret (cp_build (gn g) st)
      | None => Running
      end
  | Running => Running
  | Failed => Failed
  end.

(** MECCheck.py:9-31 mec_check.  [None]: a loop is still running or dag2cpdag raised.  Only called here on graphs
    with the same number of nodes (numpy broadcasting of different shapes is not modelled). *)
Definition mec_check (fuel : nat) (g1 g2 : ggraph) : option bool :=
  match dag2cpdag fuel g1, dag2cpdag fuel g2 with
  | Ret c1, Ret c2 =>
      Some (forallb (fun i => forallb (fun j => gm c1 i j =? gm c2 i j) (seq 0 (gn c1))) (seq 0 (gn c1)))
  | _, _ => None
  end.
