(** Model of remove_effect and make_dot of causallearn/search/FCMBased/lingam/utils/__init__.py. *)
From Verif Require Import Base UtilsModel BICModel EffectModel DLModel.
From Coq Require Import Reals.
Local Open Scope R_scope.

(** LinearRegression().fit(columns, target): the intercept and the coefficients. *)
Definition regressor := nat -> list rvec -> rvec -> R * rvec.
(** reg.predict *)
Definition fitted (cols : list rvec) (c : R * rvec) : rvec := fun s => fst c + rsum (fun k => snd c k * nth k cols (fun _ => 0) s) (seq 0 (length cols)).
Definition set_column (X : nat -> rvec) (i : nat) (x : rvec) : nat -> rvec := fun j => if Nat.eqb j i then x else X j.
(** 160-167 remove_effect, one round of the loop and the whole, for p columns and n rows of floats; [keep] is what the assignment into the array makes of a number (the identity for floats, [truncate] for
    integers).  Indices below zero are not modelled, nor the exceptions of an empty list of features or an index that is too large. *)
Definition effect_step (keep : R -> R) (ols : regressor) (n : nat) (removed : list nat) (X : nat -> rvec) (f : nat) : nat -> rvec :=
  let cols := map X removed in let c := ols n cols (X f) in
  set_column X f (fun s => keep (X f s - fitted cols c s)).
Definition remove_effect (keep : R -> R) (ols : regressor) (n p : nat) (removed : list nat) (X : nat -> rvec) : nat -> rvec :=
  fold_left (effect_step keep ols n removed) (filter (fun i => negb (memb i removed)) (seq 0 p)) X.

(** 212-273 make_dot without prediction_*: the nodes are the indices; an edge is (from, to) with the coefficient of its label, or both ways for an unknown order.  Coefficients are integers (they are compared with
    the limit only), None is NaN.  Not modelled: the text of the labels, subgraph ranks, names given twice. *)
Inductive dotedge := Arrow (from to : nat) (coef : Z) | Both (a b : nat).
Definition to_num (x : option Z) : Z := match x with Some z => z | None => 0%Z end.
Definition make_dot (p : nat) (limit : Z) (A : nat -> nat -> option Z) : list dotedge :=
  flat_map (fun i => flat_map (fun j => if (limit <? Z.abs (to_num (A i j)))%Z then [Arrow j i (to_num (A i j))] else []) (seq 0 p)) (seq 0 p) ++
  flat_map (fun i => flat_map (fun j => match (if Nat.leb j i then A i j else Some 0%Z) with None => [Both j i] | _ => [] end) (seq 0 p)) (seq 0 p).
