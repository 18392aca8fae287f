(** Missing-value PC: PC.py mvpc_alg, skeleton_correction, detect_parent, get_parent_missingness_pairs. *)
From Verif Require Import Base EdgeModel GraphModel UtilsModel NamedModel KnowledgeModel MeekModel SkelModel PCModel.
Local Open Scope Z_scope.

(** PC.py:340 = 440 list(permutations(range(n), 2)): the ordered pairs, the first component varies slowest. *)
Definition perms2 (n : nat) : list (nat * nat) :=
  flat_map (fun x => map (pair x) (filter (fun y => negb (Nat.eqb y x)) (seq 0 n))) (seq 0 n).
(** cg.G, cg.sepset, edge_removal *)
Record cst : Type := mkC { cG : ggraph; cS : nat -> nat -> list (list nat); cR : list (nat * nat) }.

Section Correct.
(** [ind x y S] is [cg.ci_test(x, y, S) > alpha], a function of its arguments. *)
Variable ind : nat -> nat -> list nat -> bool.
Variable stable : bool.
(** PC.py:446-470 (= 346-378): one pair; the loop over the conditioning sets is left at the first acceptance.  In the unstable
    mode no separating set is recorded. *)
Definition c_step (depth : nat) (st : cst) (p : nat * nat) : cst :=
  let (x, y) := p in
  let neigh := neighbors (cG st) x in
  if memb y neigh then
    let others := filter (fun z => negb (Nat.eqb z y)) neigh in
    if Nat.leb depth (length others) then
      match find (ind x y) (combs depth others) with
      | None => st
      | Some T =>
          if stable then mkC (cG st) (append_both (cS st) x y T) (cR st ++ [(x, y); (y, x)])
          else mkC (remove_if_exists (remove_if_exists (cG st) x y) y x) (cS st) (cR st)
      end
    else st
  else st.
(** PC.py:472-475 (= 380-383): the order of the set does not matter (removing an edge that is already gone does nothing). *)
Definition c_pass (ps : list (nat * nat)) (depth : nat) (st : cst) : cst :=
  let st1 := fold_left (c_step depth) ps (mkC (cG st) (cS st) []) in
  mkC (fold_left (fun g p => remove_if_exists g (fst p) (snd p)) (cR st1) (cG st1)) (cS st1) [].
(** PC.py:442-445 (= 342-345): [while max_degree() - 1 > depth: depth += 1]; [next] is depth + 1; [None]: still running. *)
Fixpoint c_loop (ps : list (nat * nat)) (fuel next : nat) (st : cst) : option cst :=
  if Nat.ltb next (max_degree (cG st)) then
    match fuel with O => None | S f => c_loop ps f (S next) (c_pass ps next st) end
  else Some st.
(** PC.py:410-477 skeleton_correction, started from the graph and the separating sets of init_cg. *)
Definition skeleton_correction (fuel : nat) (g : ggraph) (sep : nat -> nat -> list (list nat)) : option cst :=
  c_loop (perms2 (gn g)) fuel 0 (mkC g sep []).
(** PC.py:302-403 detect_parent (with get_parent) after the column r has been replaced by its missingness indicator:
    only pairs (r, y) are tested; the answer is the list of the nodes still joined to r. *)
Definition detect_parent (fuel n r : nat) : option (list nat) :=
  match c_loop (filter (fun p => Nat.eqb (fst p) r) (perms2 n)) fuel 0 (mkC (complete_graph n) (fun _ _ => []) []) with
  | Some st => Some (neighbors (cG st) r)
  | None => None
  end.
End Correct.

(** PC.py:254-299 get_parent_missingness_pairs (with isempty, get_missingness_index).  [some i]: column i has a missing entry;
    [all i]: every entry of column i is missing (then the indicator is constant and detect_parent returns the empty array,
    PC.py:332-333); [indm i]: the verdicts on the data whose column i is replaced by its indicator. *)
Fixpoint missingness_pairs (indm : nat -> nat -> nat -> list nat -> bool) (some all : nat -> bool) (stable : bool) (fuel n : nat) (is : list nat) : option (list (list nat * nat)) :=
  match is with
  | [] => Some []
  | i :: r =>
      match (if negb (some i) || all i then Some [] else detect_parent (indm i) stable fuel n i), missingness_pairs indm some all stable fuel n r with
      | Some [], Some l => Some l
      | Some prt, Some l => Some ((prt, i) :: l)
      | _, _ => None
      end
  end.
Definition get_parent_missingness_pairs (indm : nat -> nat -> nat -> list nat -> bool) (some all : nat -> bool) (stable : bool) (fuel n : nat) : option (list (list nat * nat)) :=
  missingness_pairs indm some all stable fuel n (filter some (seq 0 n)).

(** PC.py:141-249 mvpc_alg.  [pv1]: the p-values of the test-wise deletion test; [pv2 prt_m]: those of the corrected test, which
    also uses the parents of the missingness indicators.  The elapsed time and the skeleton for drawing are not modelled. *)
Definition mvpc_alg (fuel : nat) (rx : nat -> nat -> bool) (nm : nat -> nat) (K : option bk)
    (indm : nat -> nat -> nat -> list nat -> bool) (some all : nat -> bool)
    (pv1 : nat -> nat -> list nat -> Z) (pv2 : list (list nat * nat) -> nat -> nat -> list nat -> Z) (alpha : Z)
    (stable : bool) (uc_rule : nat) (uc_priority : option nat) (n : nat) : outcome ggraph :=
  let forb a b := match K with None => false | Some k => is_forbidden rx k (nm a) (nm b) end in
  let orient g := match K with None => g | Some k => orient_by_background_knowledge rx nm k g end in
  obind (of_opt (get_parent_missingness_pairs indm some all stable fuel n)) (fun prt_m =>
  obind (of_opt (skeleton_discovery (fun x y cs => pv1 x y cs >? alpha) (fun x y => forb x y && forb y x) stable fuel n)) (fun gs =>
  obind (of_opt (skeleton_correction (fun x y cs => pv2 prt_m x y cs >? alpha) stable fuel (orient (fst gs)) (snd gs))) (fun st =>
    uc_and_meek fuel rx nm K (pv2 prt_m) alpha uc_rule uc_priority (cS st) (orient (cG st))))).
