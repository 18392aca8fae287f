(** Model of causallearn/search/FCMBased/lingam/var_lingam.py over the real numbers (floating point is not modelled).
    A series is read as X t i: variable i at time t; p is the number of variables, N the number of samples.  The numerical libraries are
    arguments: statsmodels' VAR, the LiNGAM model fitted to the residuals, and the two regressions. *)
From Verif Require Import Base UtilsModel BICModel EffectModel.
From Coq Require Import Reals.
Local Open Scope R_scope.

Definition series := nat -> rvec.
Definition zmat : rmat := fun _ _ => 0.
(** statsmodels' result: coefs (its length is k_ar) and resid. *)
Record vresult := mkVR { vr_coefs : list rmat; vr_resid : series }.
Record externals := mkExt {
  x_var : nat -> series -> nat -> vresult;                      (* N, data, lag order *)
  x_value : nat -> series -> nat -> option R;                   (* the information criterion; None: NaN or +Inf *)
  x_lingam : nat -> series -> list nat * rmat;                  (* rows, residuals: causal_order_ and adjacency_matrix_ *)
  x_lasso : nat -> nat -> (nat -> nat -> R) -> (nat -> R) -> rvec;    (* rows, columns, design, target: lines 331-338 *)
  x_alasso : nat -> (nat -> nat -> R) -> list nat -> nat -> list R }. (* rows, table, predictors, target: utils predict_adaptive_lasso *)
Definition eye : rmat := fun i j => if Nat.eqb i j then 1 else 0.
Definition mmul (p : nat) (A B : rmat) : rmat := fun i j => rsum (fun k => A i k * B k j) (seq 0 p).
Definition mvec (p : nat) (A : rmat) (v : rvec) : rvec := fun i => rdot p (A i) v.
Definition eye_minus (A : rmat) : rmat := fun i j => eye i j - A i j.

(** var_lingam.py:251-270 _estimate_var_coefs; [None]: no criterion value is smaller than infinity (AttributeError). *)
Definition estimate_var (E : externals) (lags : nat) (crit : bool) (N : nat) (X : series) : option vresult :=
  if crit then
    option_map snd (fold_left (fun best lag =>
      match x_value E N X lag, best with
      | None, _ => best
      | Some v, None => Some (v, x_var E N X lag)
      | Some v, Some (m, _) => if Rlt_dec v m then Some (v, x_var E N X lag) else best
      end) (seq 1 lags) None)
  else Some (x_var E N X lags).
(** var_lingam.py:272-292 _calc_residuals; row r of the result is time r + lags. *)
Definition estimated (p : nat) (Ms : list rmat) (lags : nat) (X : series) (t : nat) : rvec :=
  fold_left (fun e tau => fun i => e i + mvec p (nth (tau - 1) Ms zmat) (X (t - tau)%nat) i) (seq 1 lags) (fun _ => 0).
Definition calc_residuals (p : nat) (X : series) (Ms : list rmat) (lags : nat) : series :=
  fun r i => X (r + lags)%nat i - estimated p Ms lags X (r + lags) i.
(** var_lingam.py:294-304 _calc_b. *)
Definition calc_b (p : nat) (B0 : rmat) (Ms : list rmat) : list rmat := B0 :: map (fun M => mmul p (eye_minus B0) M) Ms.

(** var_lingam.py:310-313: the reversed series and its rotations; block r holds the rows of times N-1-r, N-2-r, ... *)
Definition roll_up (N : nat) (a : series) : series := fun r => a (Nat.modulo (r + 1) N).
Fixpoint stacked (N : nat) (a : series) (L : nat) : list series := match L with O => [a] | S L' => a :: stacked N (roll_up N a) L' end.
Definition flipped (N : nat) (X : series) : series := fun r => X (N - 1 - r)%nat.
Definition block (N : nat) (X : series) (L r s : nat) : rvec := nth s (stacked N (flipped N X) L) (fun _ _ => 0) r.
(** [: -L] keeps nothing when L is zero. *)
Definition prune_rows (N L : nat) : nat := if Nat.eqb L 0 then 0 else (N - L)%nat.
Fixpoint index_of (x : nat) (l : list nat) : nat := match l with [] => O | y :: r => if Nat.eqb y x then O else S (index_of x r) end.
(** var_lingam.py:315-329: the explanatory variables of target i. *)
Definition design (p N : nat) (X : series) (L : nat) (anc : list nat) : nat -> nat -> R := fun r c =>
  let k := length anc in
  if Nat.ltb c k then block N X L r 0 (nth c anc O) else block N X L r (1 + Nat.div (c - k) p) (Nat.modulo (c - k) p).
(** var_lingam.py:340-343: writing the coefficients of target i back. *)
Definition set_entry (B : rmat) (i j : nat) (v : R) : rmat := fun a b => if Nat.eqb a i && Nat.eqb b j then v else B a b.
Definition set_row (B : rmat) (i : nat) (f : rvec) : rmat := fun a b => if Nat.eqb a i then f b else B a b.
Definition write_back (p : nat) (anc : list nat) (i : nat) (coef : rvec) (Bs : list rmat) : list rmat :=
  match Bs with
  | [] => []
  | B0 :: rest =>
      let k := length anc in
      fold_left (fun B c => set_entry B i (nth c anc O) (coef c)) (seq 0 k) B0
      :: map (fun jB => set_row (snd jB) i (fun b => coef (k + p * fst jB + b)%nat)) (combine (seq 0 (length rest)) rest)
  end.
(** var_lingam.py:306-345 _pruning; L is self._lags.  [None]: the slice of line 342 is too short. *)
Definition prune_step (E : externals) (p N : nat) (X : series) (L : nat) (order : list nat) (Bs : list rmat) (i : nat) : list rmat :=
  let anc := firstn (index_of i order) order in
  write_back p anc i (x_lasso E (prune_rows N L) (length anc + p * L) (design p N X L anc) (fun r => block N X L r 0 i)) Bs.
Definition pruning (E : externals) (p N : nat) (X : series) (L : nat) (order : list nat) (Bs : list rmat) : option (list rmat) :=
  if Nat.ltb L (length Bs - 1) then None else Some (fold_left (prune_step E p N X L order) (seq 0 p) Bs).

(** The object: lines 49-55 and what fit stores (lines 98-103). *)
Record vstate := mkV { v_lags : nat; v_crit : bool; v_prune : bool; v_coefs : option (list rmat); v_resid : series; v_order : list nat; v_adj : list rmat }.
Definition v_init (lags : nat) (crit prune : bool) (ar : option (list rmat)) : vstate := mkV lags crit prune ar (fun _ _ => 0) [] [].
(** var_lingam.py:57-105 fit. *)
Definition v_fit (E : externals) (p : nat) (st : vstate) (N : nat) (X : series) : option vstate :=
  match (match v_coefs st with
         | None => option_map (fun r => (vr_coefs r, length (vr_coefs r), vr_resid r)) (estimate_var E (v_lags st) (v_crit st) N X)
         | Some Ms => Some (Ms, length Ms, calc_residuals p X Ms (length Ms))
         end) with
  | None => None
  | Some (Ms, lags, resid) =>
      let (order, B0) := x_lingam E (N - lags) resid in
      match (if v_prune st then pruning E p N X (v_lags st) order (calc_b p B0 Ms) else Some (calc_b p B0 Ms)) with
      | None => None
      | Some Bs => Some (mkV lags (v_crit st) (v_prune st) (Some Ms) resid order Bs)
      end
  end.

(** var_lingam.py:236-238: the errors tested in get_error_independence_p_values. *)
Definition v_errors (p : nat) (st : vstate) : series := fun r => mvec p (eye_minus (nth 0 (v_adj st) zmat)) (v_resid st r).

(** var_lingam.py:207-226: the table X_joined, the predictors and the effect. *)
Definition joined (p N : nat) (X : series) : nat -> nat -> R := fun r c => X (Nat.modulo (r + (N - Nat.modulo (Nat.div c p) N)) N) (Nat.modulo c p).
Definition row_of (p : nat) (Bs : list rmat) (i : nat) : rvec := fun c => nth (Nat.div c p) Bs zmat i (Nat.modulo c p).
Definition v_predictors (p : nat) (st : vstate) (from lag : nat) : list nat :=
  map (fun c => c + p * lag)%nat (from :: filter (fun c => nonzerob (row_of p (v_adj st) from c)) (seq 0 (p * length (v_adj st)))).
Definition v_total_effect (E : externals) (p : nat) (st : vstate) (N : nat) (X : series) (from to lag : nat) : R :=
  hd 0 (x_alasso E N (joined p N X) (v_predictors p st from lag) to).

(** var_lingam.py:144-154: the resampled series; [e] are the resampled residuals.  A negative index is not modelled (the number of
    coefficient matrices is the number of lags, except when ar_coefs and lags given to the constructor disagree). *)
Definition sim_step (p lags : nat) (Ms : list rmat) (e : series) (X : series) (j : nat) : series :=
  let row := if Nat.ltb j lags then e j
             else fun i => fold_left (fun s t => s + mvec p (nth t Ms zmat) (X (j - t - 1)%nat) i) (seq 0 (length Ms)) 0 + e j i in
  fun t => if Nat.eqb t j then row else X t.
Definition simulate (p N lags : nat) (Ms : list rmat) (e : series) : series := fold_left (sim_step p lags Ms e) (seq 0 N) (fun _ _ => 0).
(** var_lingam.py:160-171: the total effects of one sample. *)
Definition set_effect (T : nat -> nat -> R) (i j : nat) (v : R) : nat -> nat -> R := fun a b => if Nat.eqb a i && Nat.eqb b j then v else T a b.
Definition sample_effects (p lags : nat) (order : list nat) (eff : nat -> nat -> nat -> R) : nat -> nat -> R :=
  fold_left (fun T cto =>
      let '(c, to) := cto in
      let T1 := fold_left (fun T from => set_effect T to from (eff from to 0%nat)) (firstn (p - (c + 1)) order) T in
      fold_left (fun T lag => fold_left (fun T from => set_effect T to (from + p) (eff from to (lag + 1)%nat)) (seq 0 p) T) (seq 0 lags) T1)
    (combine (seq 0 (length order)) (rev order)) (fun _ _ => 0).
(** var_lingam.py:107-175 bootstrap; [draws] are the row choices of sklearn's resample, one function per sample. *)
Fixpoint v_samples (E : externals) (p N lags : nat) (Ms : list rmat) (resid : series) (st : vstate) (draws : list (nat -> nat)) : option (list (list rmat * (nat -> nat -> R)) * vstate) :=
  match draws with
  | [] => Some ([], st)
  | d :: ds =>
      let X := simulate p N lags Ms (fun j => resid (d j)) in
      match v_fit E p st N X with
      | None => None
      | Some st1 =>
          match v_samples E p N lags Ms resid st1 ds with
          | None => None
          | Some (out, st2) => Some ((v_adj st1, sample_effects p (v_lags st1) (v_order st1) (v_total_effect E p st1 N X)) :: out, st2)
          end
      end
  end.
Definition set_crit (b : bool) (st : vstate) : vstate := mkV (v_lags st) b (v_prune st) (v_coefs st) (v_resid st) (v_order st) (v_adj st).
Definition v_bootstrap (E : externals) (p : nat) (st : vstate) (N : nat) (X : series) (draws : list (nat -> nat)) : option (list (list rmat * (nat -> nat -> R)) * vstate) :=
  match v_fit E p (set_crit false st) N X with
  | None => None
  | Some st1 =>
      match v_coefs st1 with
      | None => None
      | Some Ms => option_map (fun o => (fst o, set_crit (v_crit st) (snd o))) (v_samples E p N (v_lags st) Ms (v_resid st1) st1 draws)
      end
  end.
