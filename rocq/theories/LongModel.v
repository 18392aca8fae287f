(** Model of causallearn/search/FCMBased/lingam/longitudinal_lingam.py over the real numbers.  X t s i: variable i of sample s at time point t;
    T time points, n samples, p variables.  NaN matrices are [None]; the regressions and DirectLiNGAM are arguments. *)
From Verif Require Import Base UtilsModel BICModel EffectModel VARModel.
From Coq Require Import Reals.
Local Open Scope R_scope.

Definition panel := nat -> nat -> rvec.
Record lexternals := mkL {
  l_reg : nat -> nat -> (nat -> nat -> R) -> (nat -> R) -> rvec;      (* rows, columns, predictors, target: LinearRegression().fit().coef_ *)
  l_lingam : nat -> series -> list nat * rmat;                        (* DirectLiNGAM on the rows of N(t) *)
  l_alasso : nat -> (nat -> nat -> R) -> list nat -> nat -> list R }. (* utils predict_adaptive_lasso *)
(** Python's X_t[t - k]: a negative index counts from the end.  (Indices below -T raise; see [l_fit].) *)
Definition back (T t k : nat) : nat := if Nat.leb k t then (t - k)%nat else (T + t - k)%nat.
(** longitudinal_lingam.py:252-255: the predictors of time t; the last p columns stay zero. *)
Definition l_design (T p L : nat) (X : panel) (t : nat) : nat -> nat -> R := fun s c =>
  if Nat.ltb c (p * L) then X (back T t (Nat.div c p + 1)) s (Nat.modulo c p) else 0.
(** longitudinal_lingam.py:257-264: M(t, t - tau - 1). *)
Definition l_coef (E : lexternals) (T n p L : nat) (X : panel) (t tau : nat) : rmat := fun i j =>
  l_reg E n (p * (1 + L)) (l_design T p L X t) (fun s => X t s i) (p * tau + j)%nat.
(** longitudinal_lingam.py:266-269: N(t). *)
Definition l_resid (E : lexternals) (T n p L : nat) (X : panel) (t : nat) : series := fun s =>
  fold_left (fun (r : rvec) tau => fun i => r i - mvec p (l_coef E T n p L X t tau) (X (back T t (tau + 1)) s) i) (seq 0 L) (X t s).
(** longitudinal_lingam.py:273-290 _estimate_instantaneous_effects, _estimate_lagged_effects, for t >= 1. *)
Definition l_instant (E : lexternals) (T n p L : nat) (X : panel) (t : nat) : list nat * rmat := l_lingam E n (l_resid E T n p L X t).
Definition l_lagged (E : lexternals) (T n p L : nat) (X : panel) (t tau : nat) : rmat :=
  mmul p (eye_minus (snd (l_instant E T n p L X t))) (l_coef E T n p L X t tau).
(** The fitted object: causal_orders_, adjacency_matrices_[t, l] and residuals_[t]. *)
Record lstate := mkLS { s_orders : nat -> option (list nat); s_adj : nat -> nat -> option rmat; s_resid : nat -> option series }.
(** longitudinal_lingam.py:44-96 fit.  [None]: fewer than two time points (ValueError), or an index below -T (IndexError). *)
Definition l_fit (E : lexternals) (T n p L : nat) (X : panel) : option lstate :=
  if Nat.ltb T 2 || Nat.ltb (T + 1) L then None
  else Some (mkLS
    (fun t => if Nat.eqb t 0 then None else Some (fst (l_instant E T n p L X t)))
    (fun t l => if Nat.eqb t 0 then None
                else match l with
                     | O => Some (snd (l_instant E T n p L X t))
                     | S k => if Nat.eqb t k then None else Some (l_lagged E T n p L X t k)
                     end)
    (fun t => if Nat.eqb t 0 then None else Some (l_resid E T n p L X t))).
(** longitudinal_lingam.py:225-228: the errors tested in get_error_independence_p_values. *)
Definition l_errors (p : nat) (st : lstate) (t : nat) : option series :=
  match s_adj st t 0%nat, s_resid st t with Some B, Some r => Some (fun s => mvec p (eye_minus B) (r s)) | _, _ => None end.

(** longitudinal_lingam.py:197-215 estimate_total_effect.  Comparisons with NaN are false. *)
Definition l_joined (T p L : nat) (X : panel) (from_t to_t : nat) : nat -> nat -> R := fun s c =>
  if Nat.ltb c p then X to_t s c else X (back T from_t (Nat.div (c - p) p)) s (Nat.modulo (c - p) p).
Definition l_predictors (p L : nat) (st : lstate) (from_t from : nat) : list nat :=
  (from + p)%nat :: map (fun c => c + p)%nat (filter (fun c => match s_adj st from_t (Nat.div c p) with None => false | Some B => nonzerob (B from (Nat.modulo c p)) end) (seq 0 (p * (1 + L)))).
Definition l_total_effect (E : lexternals) (T n p L : nat) (st : lstate) (X : panel) (from_t from to_t to : nat) : R :=
  hd 0 (l_alasso E n (l_joined T p L X from_t to_t) (l_predictors p L st from_t from) to).
(** longitudinal_lingam.py:138-158: one bootstrap sample; [idx] are the drawn rows.  The total effects are estimated on X_t, the original data. *)
Definition set2 (T : nat -> nat -> R) (i j : nat) (v : R) : nat -> nat -> R := fun a b => if Nat.eqb a i && Nat.eqb b j then v else T a b.
Definition order_at (st : lstate) (t : nat) : list nat := match s_orders st t with Some o => o | None => [] end.
Definition l_effects (p T start : nat) (st : lstate) (eff : nat -> nat -> nat -> nat -> R) : nat -> nat -> R :=
  fold_left (fun M from_t =>
    fold_left (fun M cf =>
      let '(c, from) := cf in
      let M1 := fold_left (fun M to => set2 M (from_t * p + to) (from_t * p + from) (eff from_t from from_t to)) (skipn (c + 1) (order_at st from_t)) M in
      fold_left (fun M to_t => fold_left (fun M to => set2 M (to_t * p + to) (from_t * p + from) (eff from_t from to_t to)) (order_at st to_t) M) (seq (from_t + 1) (T - (from_t + 1))) M1)
      (combine (seq 0 (length (order_at st from_t))) (order_at st from_t)) M)
    (seq start (T - start)) (fun _ _ => 0).
Definition l_sample (E : lexternals) (T n p L start : nat) (X : panel) (idx : nat -> nat) : option (lstate * (nat -> nat -> R)) :=
  match l_fit E T n p L (fun t s => X t (idx s)) with
  | None => None
  | Some st => Some (st, l_effects p T start st (l_total_effect E T n p L st X))
  end.
