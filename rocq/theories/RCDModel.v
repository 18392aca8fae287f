(** Model of causallearn/search/FCMBased/lingam/rcd.py: RCD.fit and get_error_independence_p_values.
    The statistical tests are arbitrary functions of what they look at.  A "residual variable" (H, x) is the residual of x after the linear regression on the
    variables H (the variable itself when H is empty; rcd.py:111-127).  Coefficients are integers (only tested for zero), NaN is [None]. *)
From Verif Require Import Base UtilsModel SkelModel LingamModel.
Local Open Scope nat_scope.

(** M: [M i j] is "j in M[i]", j is an ancestor of i. *)
Definition anc := nat -> nat -> bool.
Record rcd_tests := mkT {
  nongauss : list nat -> nat -> bool;                           (** rcd.py:129-134, the residual of x on H is not Gaussian (p <= shapiro_alpha) *)
  corr : list nat * nat -> list nat * nat -> bool;              (** 136-138, Pearson correlation of two residual variables *)
  indep : list nat -> nat -> list nat -> bool;                  (** 197-222, the residual of (H, x) on the (H, y) is independent of them *)
  ols : list nat -> nat -> list Z                               (** 111-117, coefficients of x on a list of variables *)
}.
(** A set of variables below n, as the sorted list. *)
Definition as_set (n : nat) (f : nat -> bool) : list nat := filter f (seq 0 n).
(** rcd.py:106-109 _get_common_ancestors *)
Definition common (n : nat) (M : anc) (U : list nat) : list nat := as_set n (fun k => forallb (fun j => M j k) U).
(** itertools.combinations(U, 2) *)
Fixpoint pairs (U : list nat) : list (nat * nat) := match U with [] => [] | x :: r => map (pair x) r ++ pairs r end.
(** 140-149 _exists_ancestor_in_U *)
Definition exists_ancestor (M : anc) (x : nat) (ys : list nat) : bool := existsb (fun y => M y x) ys || forallb (M x) ys.
Definition hist := list (list nat * list nat).
Fixpoint leqb (a b : list nat) : bool := match a, b with [], [] => true | x :: a', y :: b' => Nat.eqb x y && leqb a' b' | _, _ => false end.
Fixpoint lookup (U : list nat) (h : hist) : option (list nat) := match h with [] => None | (V, H) :: r => if leqb U V then Some H else lookup U r end.
(** 258-268: the set of sinks *)
Definition sinks (T : rcd_tests) (M : anc) (H U : list nat) : list nat :=
  filter (fun x => negb (exists_ancestor M x (others U x)) && indep T H x (others U x)) U.
Definition add_anc (M : anc) (x : nat) (ys : list nat) : anc := fun i j => M i j || (Nat.eqb i x && memb j ys).
(** 233-278: one set U.  hu_history is written only when the set passes the tests. *)
Definition visit (n : nat) (T : rcd_tests) (st : anc * hist * bool) (U : list nat) : anc * hist * bool :=
  let '(M, h, ch) := st in
  let H := common n M U in
  if match lookup U h with Some H' => leqb H H' | None => false end then st
  else if negb (forallb (nongauss T H) U) then st
  else if negb (forallb (fun p => corr T (H, fst p) (H, snd p)) (pairs U)) then st
  else
    let h' := (U, H) :: h in
    match sinks T M H U with
    | [x] => if forallb (M x) (others U x) then (M, h', ch) else (add_anc M x (others U x), h', true)
    | _ => (M, h', ch)
    end.
(** 224-287 _extract_ancestors *)
Fixpoint extract (fuel : nat) (n mx : nat) (T : rcd_tests) (l : nat) (M : anc) (h : hist) : option anc :=
  match fuel with
  | O => None
  | S f =>
      let '(M', h', ch) := fold_left (visit n T) (combs (S l) (seq 0 n)) (M, h, false) in
      if ch then extract f n mx T 1 M' h'
      else if Nat.ltb l mx then extract f n mx T (S l) M' h'
      else Some M'
  end.
Definition ancestors (fuel n mx : nat) (T : rcd_tests) : option anc := extract fuel n mx T 1 (fun _ _ => false) [].
(** 289-316 _is_parent, _extract_parents *)
Definition is_parent (n : nat) (T : rcd_tests) (M : anc) (j i : nat) : bool :=
  corr T (as_set n (fun k => M i k && M j k), j) (as_set n (fun k => M i k && negb (Nat.eqb k j)), i).
Definition parents (n : nat) (T : rcd_tests) (M : anc) : anc := fun i j => M i j && is_parent n T M j i.
(** 318-341 _extract_vars_sharing_confounders *)
Definition resid_to_parent (n : nat) (P : anc) (i : nat) : list nat * nat := (as_set n (P i), i).
Definition conf_step (n : nat) (T : rcd_tests) (P : anc) (C : anc) (p : nat * nat) : anc :=
  let '(i, j) := p in
  if P j i || P i j then C
  else if corr T (resid_to_parent n P i) (resid_to_parent n P j) then add_anc (add_anc C i [j]) j [i] else C.
Definition confounded (n : nat) (T : rcd_tests) (P : anc) : anc := fold_left (conf_step n T P) (pairs (seq 0 n)) (fun _ _ => false).
(** 343-384 _estimate_adjacency_matrix: zeros, then the rows of the coefficients, then NaN for the confounded pairs. *)
Definition omat := nat -> nat -> option Z.
Definition oset (B : omat) (i j : nat) (v : option Z) : omat := fun a b => if Nat.eqb a i && Nat.eqb b j then v else B a b.
Definition coef_row (n : nat) (T : rcd_tests) (P : anc) (B : omat) (i : nat) : omat :=
  let ps := as_set n (P i) in fold_left (fun B p => oset B i (fst p) (Some (snd p))) (combine ps (ols T ps i)) B.
Definition nan_row (n : nat) (C : anc) (B : omat) (i : nat) : omat := fold_left (fun B j => oset B i j None) (as_set n (C i)) B.
Definition adjacency (n : nat) (T : rcd_tests) (P C : anc) : omat :=
  fold_left (nan_row n C) (seq 0 n) (fold_left (coef_row n T P) (seq 0 n) (fun _ _ => Some 0%Z)).
(** 79-104 fit: ancestors_list_ and adjacency_matrix_ *)
Definition rcd_fit (fuel n mx : nat) (T : rcd_tests) : option (anc * omat) :=
  match ancestors fuel n mx T with
  | None => None
  | Some M => let P := parents n T M in Some (M, adjacency n T P (confounded n T P))
  end.
(** 386-412 estimate_total_effect: None for NaN, otherwise the predictors of the regression (the first coefficient is returned). *)
Definition isnan (o : option Z) : bool := match o with None => true | _ => false end.
Definition nonzero_entry (o : option Z) : bool := match o with Some z => negb (Z.eqb z 0) | None => false end.
Definition effect_predictors (n : nat) (B : omat) (from : nat) : option (list nat) :=
  if existsb (fun j => isnan (B from j)) (seq 0 n) then None else Some (from :: as_set n (fun j => nonzero_entry (B from j))).
(** 414-449 get_error_independence_p_values: [None] is NaN; [hsic i j] is the p-value for the errors of i and j. *)
Definition nan_cols (n : nat) (B : omat) : list nat :=
  flat_map (fun i => flat_map (fun j => if isnan (B i j) then [i; j] else []) (seq 0 n)) (seq 0 n).
Definition p_step (cols : list nat) (hsic : nat -> nat -> Z) (A : omat) (p : nat * nat) : omat :=
  let '(i, j) := p in let v := if memb i cols || memb j cols then None else Some (hsic i j) in oset (oset A i j v) j i v.
Definition error_p_values (n : nat) (B : omat) (hsic : nat -> nat -> Z) : omat := fold_left (p_step (nan_cols n B) hsic) (pairs (seq 0 n)) (fun _ _ => Some 0%Z).
