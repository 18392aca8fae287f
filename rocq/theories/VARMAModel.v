(** Model of causallearn/search/FCMBased/lingam/varma_lingam.py over the real numbers; conventions as in VARModel.  n is the number of
    variables, (p, q) the order of the process. *)
From Verif Require Import Base UtilsModel BICModel EffectModel VARModel.
From Coq Require Import Reals.
Local Open Scope R_scope.

(** statsmodels' VARMAX result: coefficient_matrices_var, coefficient_matrices_vma, resid (one row per sample).  statsmodels leaves the
    coefficient matrices None when their order is zero. *)
Record mresult := mkMR { mr_ar : option (list rmat); mr_ma : option (list rmat); mr_resid : series }.
Record mexternals := mkMExt {
  y_varmax : nat -> series -> nat * nat -> mresult;
  y_value : nat -> series -> nat * nat -> option R;
  y_lingam : nat -> series -> list nat * rmat;
  y_noise : series;                                                   (* np.random.normal in line 325 *)
  y_lasso : nat -> (nat -> nat -> R) -> list nat -> nat -> rvec;      (* rows, table, predictors, target: lines 378-386 *)
  y_alasso : nat -> (nat -> nat -> R) -> list nat -> nat -> list R }. (* utils predict_adaptive_lasso *)

(** varma_lingam.py:291-313 _estimate_varma_coefs: coefficients, order and residuals.  [None]: no criterion value below infinity. *)
Definition all_orders (o : nat * nat) : list (nat * nat) :=
  filter (fun pq => negb (Nat.eqb (fst pq) 0 && Nat.eqb (snd pq) 0)) (flat_map (fun p => map (fun q => (p, q)) (seq 0 (snd o + 1))) (seq 0 (fst o + 1))).
Definition estimate_varma (E : mexternals) (o : nat * nat) (crit : bool) (N : nat) (X : series) : option (mresult * (nat * nat)) :=
  if crit then
    option_map snd (fold_left (fun best c =>
      match y_value E N X c, best with
      | None, _ => best
      | Some v, None => Some (v, (y_varmax E N X c, c))
      | Some v, Some (m, _) => if Rlt_dec v m then Some (v, (y_varmax E N X c, c)) else best
      end) (all_orders o) None)
  else Some (y_varmax E N X o, o).
(** varma_lingam.py:315-340 _calc_residuals: epsilon, filled in time order, and its rows from max(p, q) on. *)
Definition eps_step (n : nat) (X noise : series) (ar ma : list rmat) (e : series) (t : nat) : series :=
  let start := Nat.max (length ar) (length ma) in
  let row := if Nat.ltb t start then noise t
             else fun i => X t i - (rsum (fun k => mvec n (nth k ar zmat) (X (t - k - 1)%nat) i) (seq 0 (length ar))
                                    + rsum (fun k => mvec n (nth k ma zmat) (e (t - k - 1)%nat) i) (seq 0 (length ma))) in
  fun u => if Nat.eqb u t then row else e u.
Definition epsilon (n N : nat) (X noise : series) (ar ma : list rmat) : series := fold_left (eps_step n X noise ar ma) (seq 0 N) (fun _ _ => 0).
Definition m_residuals (n N : nat) (X noise : series) (ar ma : list rmat) : series := fun r => epsilon n N X noise ar ma (r + Nat.max (length ar) (length ma))%nat.
(** varma_lingam.py:342-354 _calc_psi_and_omega.  The third argument of numpy.dot is the output array: the inverse of line 351 is
    overwritten, it is no factor.  [None]: fewer matrices than the order says (IndexError). *)
Definition opt_list (l : option (list rmat)) : list rmat := match l with Some l => l | None => [] end.
Definition psi_and_omega (n : nat) (psi0 : rmat) (phis thetas : list rmat) (o : nat * nat) : option (list rmat * list rmat) :=
  if Nat.ltb (length phis) (fst o) || Nat.ltb (length thetas) (snd o) then None
  else Some (psi0 :: map (fun k => mmul n (eye_minus psi0) (nth k phis zmat)) (seq 0 (fst o)),
             map (fun k => mmul n (eye_minus psi0) (nth k thetas zmat)) (seq 0 (snd o))).

(** np.roll by s rows of a table with N rows. *)
Definition rolled (N : nat) (a : series) (s : nat) : series := fun r => a (Nat.modulo (r + (N - Nat.modulo s N)) N).
(** varma_lingam.py:237-249 and 360-370: the lagged values, the lagged errors, zeros in the columns left over. *)
Definition m_table (n N : nat) (X ee : series) (o : nat * nat) : nat -> nat -> R := fun r c =>
  let s := Nat.div c n in
  if Nat.leb s (fst o) then rolled N X s r (Nat.modulo c n)
  else if Nat.leb s (fst o + snd o) then rolled N ee (s - fst o) r (Nat.modulo c n)
  else 0.
(** varma_lingam.py:356-399 _pruning.  [rows] is the number of rows of ee; [None]: line 369 cannot put them into a column of N rows. *)
Definition m_prune_step (E : mexternals) (n N : nat) (X ee : series) (o : nat * nat) (order : list nat) (P : rmat) (it : nat * nat) : rmat :=
  let '(i, target) := it in
  let predictors := filter (fun j => negb (memb j (skipn i order))) (seq 0 (n * (1 + fst o + snd o))) in
  let coef := y_lasso E N (m_table n N X ee o) predictors target in
  fold_left (fun P c => set_entry P target (nth c predictors O) (coef c)) (seq 0 (length predictors)) P.
Definition m_pruning (E : mexternals) (n N : nat) (X ee : series) (rows : nat) (o : nat * nat) (order : list nat) : option (list rmat * list rmat) :=
  if negb (Nat.eqb (snd o) 0) && negb (Nat.eqb rows N || Nat.eqb rows 1) then None
  else
    let P := fold_left (m_prune_step E n N X ee o order) (combine (seq 0 (length order)) order) zmat in
    Some (map (fun k => fun a b => P a (n * k + b)%nat) (seq 0 (1 + fst o)), map (fun k => fun a b => P a (n * (1 + fst o) + n * k + b)%nat) (seq 0 (snd o))).

Record mstate := mkM { m_order : nat * nat; m_crit : bool; m_prune : bool; m_ar : option (list rmat); m_ma : option (list rmat);
                       m_resid : series; m_causal : list nat; m_adj : list rmat * list rmat }.
Definition m_init (o : nat * nat) (crit prune : bool) (ar ma : option (list rmat)) : mstate := mkM o crit prune ar ma (fun _ _ => 0) [] ([], []).
(** varma_lingam.py:66-122 fit. *)
Definition m_fit (E : mexternals) (n : nat) (st : mstate) (N : nat) (X : series) : option mstate :=
  match (match m_ar st, m_ma st with
         | Some ar, Some ma => Some (Some ar, Some ma, m_order st, (N - Nat.max (length ar) (length ma))%nat, m_residuals n N X (y_noise E) ar ma)
         | _, _ => option_map (fun ro => (mr_ar (fst ro), mr_ma (fst ro), snd ro, N, mr_resid (fst ro))) (estimate_varma E (m_order st) (m_crit st) N X)
         end) with
  | None => None
  | Some (phis, thetas, o, rows, resid) =>
      let (causal, psi0) := y_lingam E rows resid in
      match psi_and_omega n psi0 (opt_list phis) (opt_list thetas) o with
      | None => None
      | Some po =>
          match (if m_prune st then m_pruning E n N X (fun r => mvec n (eye_minus psi0) (resid r)) rows o causal else Some po) with
          | None => None
          | Some adj => Some (mkM o (m_crit st) (m_prune st) phis thetas resid causal adj)
          end
      end
  end.

(** varma_lingam.py:251-266: the predictors (the shift is n for every positive lag) and the total effect. *)
Definition m_predictors (n : nat) (st : mstate) (from lag : nat) : list nat :=
  let am := fst (m_adj st) ++ snd (m_adj st) in
  let shift := if Nat.eqb lag 0 then O else n in
  map (fun c => c + shift)%nat (from :: filter (fun c => nonzerob (row_of n am from c)) (seq 0 (n * length am))).
Definition m_total_effect (E : mexternals) (n : nat) (st : mstate) (N : nat) (X ee : series) (from to lag : nat) : R :=
  hd 0 (y_alasso E N (m_table n N X ee (m_order st)) (m_predictors n st from lag) to).

(** varma_lingam.py:161-175: the resampled series. *)
Definition m_sim_step (n start : nat) (ar ma : list rmat) (e : series) (X : series) (j : nat) : series :=
  let row := if Nat.ltb j start then e j
             else fun i => rsum (fun t => mvec n (nth t ar zmat) (X (j - t - 1)%nat) i) (seq 0 (length ar)) + e j i
                           + rsum (fun t => mvec n (nth t ma zmat) (e (j - t - 1)%nat) i) (seq 0 (length ma)) in
  fun t => if Nat.eqb t j then row else X t.
Definition m_simulate (n N start : nat) (ar ma : list rmat) (e : series) : series := fold_left (m_sim_step n start ar ma e) (seq 0 N) (fun _ _ => 0).
(** varma_lingam.py:124-202 bootstrap: adjacency matrices (psi and omega in a row) and total effects.  Lines 168 and 172 raise
    when there are no coefficient matrices (TypeError). *)
Fixpoint m_samples (E : mexternals) (n N : nat) (o : nat * nat) (ar ma : list rmat) (resid : series) (st : mstate) (draws : list (nat -> nat)) : option (list (list rmat * (nat -> nat -> R)) * mstate) :=
  match draws with
  | [] => Some ([], st)
  | d :: ds =>
      let e := fun j => resid (d j) in
      let X := m_simulate n N (Nat.max (fst o) (snd o)) ar ma e in
      match m_fit E n st N X with
      | None => None
      | Some st1 =>
          let ee := fun r => mvec n (eye_minus (nth 0 (fst (m_adj st1)) zmat)) (e r) in
          match m_samples E n N o ar ma resid st1 ds with
          | None => None
          | Some (out, st2) => Some ((fst (m_adj st1) ++ snd (m_adj st1), sample_effects n (fst o) (m_causal st1) (m_total_effect E n st1 N X ee)) :: out, st2)
          end
      end
  end.
Definition m_set_crit (b : bool) (st : mstate) : mstate := mkM (m_order st) b (m_prune st) (m_ar st) (m_ma st) (m_resid st) (m_causal st) (m_adj st).
Definition m_bootstrap (E : mexternals) (n : nat) (st : mstate) (N : nat) (X : series) (draws : list (nat -> nat)) : option (list (list rmat * (nat -> nat -> R)) * mstate) :=
  match m_fit E n (m_set_crit false st) N X with
  | None => None
  | Some st1 =>
      match m_ar st1, m_ma st1 with
      | Some ar, Some ma => option_map (fun o => (fst o, m_set_crit (m_crit st) (snd o))) (m_samples E n N (m_order st) ar ma (m_resid st1) st1 draws)
      | _, _ => match draws with [] => Some ([], m_set_crit (m_crit st) st1) | _ :: _ => None end
      end
  end.
