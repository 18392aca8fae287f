(** Model of causallearn/search/FCMBased/lingam/causal_effect.py over the real numbers (floating point is not modelled).
    The prediction model is an arbitrary function (effects) or a linear one (optimal intervention); means and standard deviations of the
    data are arguments. *)
From Verif Require Import Base UtilsModel BICModel.
From Coq Require Import Reals.
Local Open Scope R_scope.

Definition rmat := nat -> nat -> R.
Definition rvec := nat -> R.
Definition vset (e : rvec) (i : nat) (x : R) : rvec := fun j => if Nat.eqb j i then x else e j.
Definition rdot (n : nat) (a b : rvec) : R := rsum (fun j => a j * b j) (seq 0 n).

(** causal_effect.py:54-66: the order of an adjacency matrix; [tol] is 1e-10.  The reduced matrix B_ is read through original_index.
    [None]: ValueError (not lower triangular). *)
Definition small_row (tol : R) (B : rmat) (idx : list nat) (i : nat) : bool := if Rlt_dec (rsum (fun j => Rabs (B i j)) idx) tol then true else false.
Fixpoint matrix_order (tol : R) (B : rmat) (steps : nat) (idx order : list nat) : option (list nat) :=
  match steps with
  | O => Some order
  | S s =>
      match filter (small_row tol B idx) idx with
      | [] => None
      | t :: _ => matrix_order tol B s (filter (fun j => negb (Nat.eqb j t)) idx) (order ++ [t])
      end
  end.
Definition model_order (tol : R) (n : nat) (B : rmat) : option (list nat) := matrix_order tol B n (seq 0 n) [].

(** causal_effect.py:76-99 _get_propagated_effects; the length of the order is n. *)
Definition propagated_effects (n : nat) (B : rmat) (order : list nat) (En : rvec) (k : nat) (v : R) : rvec :=
  fold_left (fun e i => vset e i (if Nat.eqb i k then v else rdot n (B i) e + En i)) order (fun _ => 0).
(** causal_effect.py:149-150: En = Ex - B Ex. *)
Definition noise_means (n : nat) (B : rmat) (Ex : rvec) : rvec := fun i => Ex i - rdot n (B i) Ex.
(** causal_effect.py:148, 155: the values of the variables other than the target. *)
Definition without (n target : nat) (x : rvec) : list R := map x (filter (fun i => negb (Nat.eqb i target)) (seq 0 n)).
(** causal_effect.py:125-169 estimate_effects_on_prediction: row i; [predict] is pred_model. *)
Definition effects_on_prediction (n : nat) (B : rmat) (order : list nat) (Ex std : rvec) (target : nat) (predict : list R -> R) (i : nat) : R * R :=
  let En := noise_means n B Ex in
  let y := predict (without n target (propagated_effects n B order En i (Ex i))) in
  let y1 := y - predict (without n target (propagated_effects n B order En i (Ex i + std i))) in
  let y2 := y - predict (without n target (propagated_effects n B order En i (Ex i - std i))) in
  (Rabs y1, Rabs y2).

(** causal_effect.py:208-241 estimate_optimal_intervention.  root_vars: rows whose (signed) sum is zero. *)
Definition root_var (n : nat) (B : rmat) (i : nat) : bool := if Req_EM_T (rsum (B i) (seq 0 n)) 0 then true else false.
Definition nonzerob (x : R) : bool := if Rlt_dec 0 (Rabs x) then true else false.
Definition row_parents (n : nat) (B : rmat) (k : nat) : list nat := filter (fun q => nonzerob (B k q)) (seq 0 n).
(** One round of the while loop (lines 226-237) with the choice k; a choice outside [s] is impossible. *)
Record ostate := mkO { o_s : list nat; o_ex : rvec; o_alpha : rvec }.
Definition opt_round (n : nat) (B : rmat) (En : rvec) (x : nat) (st : ostate) (k : nat) : ostate :=
  if memb k (o_s st) then
    let ps := row_parents n B k in
    if forallb (fun q => negb (memb q (o_s st))) ps then
      let a := rsum (fun q => B k q * o_alpha st q) ps in
      let u := rsum (fun q => B k q * o_ex st q) (filter (fun q => negb (Nat.eqb q x)) ps) in
      mkO (filter (fun i => negb (Nat.eqb i k)) (o_s st)) (vset (o_ex st) k (u + En k)) (vset (o_alpha st) k a)
    else st
  else st.
(** Lines 208-223, then the loop along the random choices; [None] while the loop has not ended.  The result is the numerator and the
    denominator of the quotient in line 241; [coef] are the coefficients of the predictor with a zero inserted at the target (line 239). *)
Definition optimal_intervention (n : nat) (B : rmat) (Ex : rvec) (x : nat) (coef : rvec) (intercept desired : R) (choices : list nat) : option (R * R) :=
  let En := noise_means n B Ex in
  let s := filter (fun i => negb (root_var n B i)) (filter (fun i => negb (Nat.eqb i x)) (seq 0 n)) in
  let st := fold_left (opt_round n B (vset En x 0) x) choices (mkO s (vset Ex x 0) (vset (fun _ => 0) x 1)) in
  match o_s st with
  | [] => Some (desired - rdot n coef (o_ex st) - intercept, rdot n coef (o_alpha st))
  | _ => None
  end.
