(** Model of the residuals of RCD: causallearn/search/FCMBased/lingam/rcd.py:115-129 over the real numbers. *)
From Verif Require Import Base UtilsModel BICModel EffectModel DLModel LutilModel.
From Coq Require Import Reals.
Local Open Scope R_scope.

(** rcd.py:115-120 _get_resid_and_coef: X[:, endog] - lr.predict(X[:, exog]); always floats. *)
Definition resid (ols : regressor) (n : nat) (X : nat -> rvec) (endog : nat) (exog : list nat) : rvec :=
  let cols := map X exog in fun s => X endog s - fitted cols (ols n cols (X endog)) s.
(** rcd.py:122-129 _get_residual_matrix: np.zeros_like(X) has the type of X, so [keep] is the identity for floats and [truncate] for
    integers (check_array, rcd.py:96, leaves integers as they are). *)
Definition residual_matrix (keep : R -> R) (ols : regressor) (n : nat) (X : nat -> rvec) (U H : list nat) : nat -> rvec :=
  match H with
  | [] => X
  | _ => fold_left (fun Y xj => set_column Y xj (fun s => keep (resid ols n X xj H s))) U (fun _ _ => 0)
  end.
(** rcd.py:311-316 _get_resid_to_parent *)
Definition resid_to_parent (ols : regressor) (n : nat) (X : nat -> rvec) (i : nat) (P : list nat) : rvec :=
  match P with [] => X i | _ => resid ols n X i P end.
