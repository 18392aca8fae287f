(** Model of the Fisher-z tests of causallearn/utils/cit.py (FisherZ, MV_FisherZ, MC_FisherZ) and the missing-data helpers of
    causallearn/utils/PCUtils/Helper.py, over the real numbers (floating point is not modelled).  Data: D s v is the value of column v in sample s. *)
From Verif Require Import Base UtilsModel BICModel EffectModel VARModel CacheModel.
From Coq Require Import Reals.
Local Open Scope R_scope.

(** A p-value, NaN, or an exception (ValueError or a failed assertion). *)
Inductive presult := PV (p : R) | PNaN | PError.

(** np.corrcoef of the samples [rows]: the normalisation of the covariance (n - 1) cancels. *)
Definition rmean (rows : list nat) (x : nat -> R) : R := rsum x rows / INR (length rows).
Definition dev (rows : list nat) (x : nat -> R) : nat -> R := fun s => x s - rmean rows x.
Definition cross (rows : list nat) (x y : nat -> R) : R := rsum (fun s => dev rows x s * dev rows y s) rows.
Definition corr (rows : list nat) (x y : nat -> R) : R := cross rows x y / (sqrt (cross rows x x) * sqrt (cross rows y y)).

(** cit.py:211-224 (and 471-484, 498-511): the p-value from the inverse of the correlations of var = [X; Y] + S.  [minv] is np.linalg.inv (None: LinAlgError,
    raised as ValueError); [Phi] is norm.cdf.  A constant column has NaN correlations, and NaN passes through the inverse to the p-value;
    the square root of a negative number raises ValueError. *)
Definition machine_eps : R := / 2 ^ 52.
Definition clip (r : R) : R := if Rle_dec 1 (Rabs r) then (1 - machine_eps) * (if Rlt_dec r 0 then -1 else if Rlt_dec 0 r then 1 else 0) else r.
Definition atanh (r : R) : R := 1 / 2 * ln ((1 + r) / (1 - r)).
Definition fisher (minv : nat -> rmat -> option rmat) (Phi : R -> R) (rows : list nat) (D : nat -> nat -> R) (X Y : nat) (S : list nat) : presult :=
  let var := X :: Y :: S in
  let col v := fun s => D s v in
  if Nat.ltb (length rows) (length S + 3) then PError else
  if existsb (fun v => if Req_EM_T (cross rows (col v) (col v)) 0 then true else false) var then PNaN else
  match minv (length var) (fun i j => corr rows (col (nth i var 0%nat)) (col (nth j var 0%nat))) with
  | None => PError
  | Some B =>
      let r := clip (- B 0%nat 1%nat / sqrt (Rabs (B 0%nat 0%nat * B 1%nat 1%nat))) in
      PV (2 * (1 - Phi (Rabs (sqrt (INR (length rows - length S - 3)) * Rabs (atanh r)))))
  end.
(** cit.py:133-178: the arguments are put in order, the conditioning set sorted without repetition; overlap is an error. *)
Definition with_args (test : nat -> nat -> list nat -> presult) (X Y : nat) (S : list nat) : presult :=
  let C := sort_set S in
  if memb X C || memb Y C then PError else test (Nat.min X Y) (Nat.max X Y) C.
(** cit.py:192-225 FisherZ (the cache is that of C33).  n is the number of samples. *)
Definition fisherz minv Phi (n : nat) (D : nat -> nat -> R) (X Y : nat) (S : list nat) : presult := with_args (fisher minv Phi (seq 0 n) D) X Y S.

(** Data with missing values: None is NaN. *)
Definition mdata := nat -> nat -> option R.
(** cit.py:450-457 _get_index_no_mv_rows; Helper.py:708-727 get_index_complete_rows *)
Definition complete_rows (n : nat) (M : mdata) (var : list nat) : list nat :=
  filter (fun s => forallb (fun v => match M s v with Some _ => true | None => false end) var) (seq 0 n).
Definition present (M : mdata) : nat -> nat -> R := fun s v => match M s v with Some x => x | None => 0 end.
(** cit.py:459-488 MV_FisherZ.__call__ *)
Definition mv_fisher minv Phi (n : nat) (M : mdata) (X Y : nat) (S : list nat) : presult :=
  match complete_rows n M (X :: Y :: S) with
  | [] => PError
  | rows => fisher minv Phi rows (present M) X Y S
  end.
Definition mv_fisherz minv Phi (n : nat) (M : mdata) (X Y : nat) (S : list nat) : presult := with_args (mv_fisher minv Phi n M) X Y S.

(** prt_m: the missingness indicators that need correction, each with its parents. *)
Definition prtm := list (nat * list nat).
(** Helper.py:613-633 get_prt_mvars, get_prt_of_mi *)
Fixpoint prt_of (vi : nat) (pm : prtm) : list nat := match pm with [] => [] | (m, ps) :: r => if Nat.eqb m vi then ps else prt_of vi r end.
Definition has_m (pm : prtm) (v : nat) : bool := memb v (map fst pm).
Definition get_prt_mvars (var : list nat) (pm : prtm) : list nat := sort_set (flat_map (fun vi => if has_m pm vi then prt_of vi pm else []) var).
(** Helper.py:636-653 get_prt_mw: the loop, with fuel. *)
Fixpoint get_prt_mw (fuel : nat) (W : list nat) (pm : prtm) : outcome (list nat) :=
  match fuel with
  | O => Running
  | Datatypes.S f =>
      let prt := get_prt_mvars W pm in
      if forallb (fun v => memb v W) prt then Ret (sort_set W) else get_prt_mw f (sort_set (W ++ prt)) pm
  end.
(** Helper.py:556-610 cond_perm_c, contain_crrn_m, contain_common_neighbors_prt_mvar; [adj] is the adjacency matrix of the skeleton, with p columns. *)
Definition cond_perm_c (p : nat) (adj : nat -> nat -> bool) (X Y : nat) (S : list nat) (pm : prtm) : bool :=
  let var := X :: Y :: S in
  existsb (has_m pm) var && existsb (fun v => adj X v && adj Y v && memb v (get_prt_mvars var pm)) (seq 0 p).
(** cit.py:519-573 MC_FisherZ.__call__; [fuel] bounds get_prt_mw, [shuffled] is np.random.shuffle of the row numbers, [ols rows D y ws] the intercept and
    coefficients of LinearRegression.  The order of the list W (list of a set) is taken to be ascending. *)
Definition mc_fisherz minv Phi (ols : list nat -> (nat -> nat -> R) -> nat -> list nat -> R * (nat -> R)) (shuffled : list nat -> list nat) (p fuel n : nat)
  (M : mdata) (adj : nat -> nat -> bool) (pm : prtm) (X Y : nat) (S : list nat) : outcome presult :=
  let var := X :: Y :: S in
  if negb (cond_perm_c p adj X Y S pm) then Ret (mv_fisherz minv Phi n M X Y S) else
  match get_prt_mvars var pm with
  | [] => Ret (mv_fisherz minv Phi n M X Y S)
  | W0 =>
      match get_prt_mw fuel W0 pm with
      | Ret W1 =>
          match filter (fun w => negb (memb w var)) W1 with
          | [] => Ret (mv_fisherz minv Phi n M X Y S)
          | W =>
              let rows := complete_rows n M (var ++ W) in
              let D := present M in
              let predict y s := let '(c, b) := ols rows D y W in c + rsum (fun w => b w * D s w) W in
              let wrows := firstn (length rows) (shuffled (complete_rows n M W)) in
              (* row i of the virtual data: the prediction at the i-th shuffled row of W plus the residual of the i-th complete row *)
              let V i k := let y := nth k var 0%nat in predict y (nth i wrows 0%nat) + (D (nth i rows 0%nat) y - predict y (nth i rows 0%nat)) in
              Ret (mv_fisherz minv Phi (length rows) (fun i k => Some (V i k)) 0%nat 1%nat (seq 2 (length S)))
          end
      | Running => Running
      | Failed => Failed
      end
  end.
