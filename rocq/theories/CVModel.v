(** Model of causallearn/score/LocalScoreFunction.py:175-434 local_score_cv_general and of the parts of causallearn/utils/ScoreUtils.py it uses
    (kernel 10-19, dist2 22-50), over the real numbers (floating point is not modelled).  The data set is an ndarray: D s c is sample s of variable c.
    pdinv (ScoreUtils.py:53-66) and the Cholesky factor are arguments: [pd n M] is pdinv of the n x n matrix M, and [lg n M] is
    sum(log(diag(cholesky(M)))), None when numpy raises LinAlgError. *)
From Verif Require Import Base UtilsModel BICModel EffectModel VARModel KCIModel HSICModel.
From Coq Require Import Reals.
Local Open Scope R_scope.

(** A number, a NaN or a LinAlgError, or a ZeroDivisionError of Python. *)
Inductive cvres := Score (r : R) | NoNumber | ZeroDivision.

(** ScoreUtils.py:22-50 dist2 for one column (x * c.T broadcasts to the outer product): negative entries are set to 0. *)
Definition dist2 (x : rvec) : rmat := fun i j => let d := x i * x i + x j * x j - 2 * (x i * x j) in if Rlt_dec d 0 then 0 else d.
(** ScoreUtils.py:10-19 kernel(x, x, (theta, 1)) for theta <> 0 *)
Definition kernel (theta : R) (x : rvec) : rmat := fun i j => 1 * exp (- dist2 x i j * (theta / 2)).
(** LocalScoreFunction.py:212-226, 240-256 and 355-368: the width is twice sqrt(median / 2) of the positive entries above the diagonal; the median of nothing is NaN. *)
Definition variable (D : data) (c : nat) : rvec := fun s => D s c.
Definition column_kernel (T : nat) (D : data) (c : nat) : option rmat :=
  match width_of T 1 (col (variable D c)) with
  | Some w => let width := w * 2 in Some (kernel (1 / width ^ 2) (variable D c))
  | None => None
  end.
(** lines 227-230, 258-261, 369-372: H0 * K * H0 with the elementwise product of ndarrays *)
Definition h0 (T : nat) : rmat := fun i j => eye i j - 1 / INR T.
Definition h0k (T : nat) (K : rmat) : rmat := fun i j => h0 T i j * K i j * h0 T i j.
(** lines 238-256: the product of the kernels of the parents *)
Definition parents_kernel (T : nat) (D : data) (pa : list nat) : option rmat :=
  fold_left (fun acc c => match acc, column_kernel T D c with Some K, Some K' => Some (fun i j => K i j * K' i j) | _, _ => None end) pa (Some (fun _ _ => 1)).

(** numpy.arange(a, b), and the rows a:b of an array with at least b rows *)
Definition arange (a b : nat) : list nat := seq a (b - a).
(** lines 263-315 and 379-412: the training rows, the validation rows, and nv; the last branch raises ValueError. *)
Definition cv_fold (T k kk : nat) : option (list nat * list nat * nat) :=
  let n0 := Nat.div T k in
  if Nat.eqb kk 0 then Some (arange n0 T, arange 0 n0, n0)
  else if Nat.eqb kk (k - 1) then Some (arange 0 (kk * n0), arange (kk * n0) T, (T - kk * n0)%nat)
  else if Nat.ltb kk (k - 1) && Nat.ltb 0 kk then Some (arange 0 (kk * n0) ++ arange ((kk + 1) * n0) T, arange (kk * n0) ((kk + 1) * n0), n0)
  else None.
Definition sub (K : rmat) (r c : list nat) : rmat := fun i j => K (nth i r 0%nat) (nth j c 0%nat).
Definition transpose (M : rmat) : rmat := fun i j => M j i.
Definition gamma_cv : R := 1 / 100.

(** lines 317-352: one fold with parents *)
Definition ridge (lam : R) (n1 : nat) (Kpa_tr : rmat) : rmat := fun i j => Kpa_tr i j + INR n1 * lam * eye i j.
Definition tmp2_of (n1 : nat) (tmp1 Kx_tr : rmat) : rmat := mmul n1 (mmul n1 tmp1 Kx_tr) tmp1.
Definition b_parents (lam : R) (n1 : nat) (tmp2 : rmat) : rmat := fun i j => INR n1 * lam ^ 2 / gamma_cv * tmp2 i j + eye i j.
Definition a_parents (lam : R) (n1 : nat) (tmp1 tmp2 tmp3 Kx_te Kx_tr Kx_tr_te Kpa_tr_te : rmat) : rmat :=
  let c := INR n1 * lam ^ 2 / gamma_cv in
  let cmul (s : R) (M : rmat) : rmat := fun i j => s * M i j in
  let m := mmul n1 in
  fun i j => (Kx_te i j
    + m (m (transpose Kpa_tr_te) tmp2) Kpa_tr_te i j
    - m (m (cmul 2 (transpose Kx_tr_te)) tmp1) Kpa_tr_te i j
    - m (m (cmul c (transpose Kx_tr_te)) tmp3) Kx_tr_te i j
    - m (m (m (m (m (m (cmul c (transpose Kpa_tr_te)) tmp1) Kx_tr) tmp3) Kx_tr) tmp1) Kpa_tr_te i j
    + m (m (m (m (cmul (2 * c) (transpose Kx_tr_te)) tmp3) Kx_tr) tmp1) Kpa_tr_te i j) / gamma_cv.
Definition fold_value (nv : nat) (C : R) (A : rmat) : R := (INR nv * INR nv * ln (2 * PI) + INR nv * C + mtrace nv A) / 2.
Definition fold_parents (pd : nat -> rmat -> rmat) (lg : nat -> rmat -> option R) (lam : R) (nv n1 : nat) (Kx_te Kx_tr Kx_tr_te Kpa_tr Kpa_tr_te : rmat) : cvres :=
  let tmp1 := pd n1 (ridge lam n1 Kpa_tr) in
  let tmp2 := tmp2_of n1 tmp1 Kx_tr in
  let tmp3 := mmul n1 (mmul n1 tmp1 (pd n1 (fun i j => eye i j + INR n1 * lam ^ 2 / gamma_cv * tmp2 i j))) tmp1 in
  let A := a_parents lam n1 tmp1 tmp2 tmp3 Kx_te Kx_tr Kx_tr_te Kpa_tr_te in
  match lg n1 (b_parents lam n1 tmp2) with
  | Some C => Score (fold_value nv C A)
  | None => NoNumber
  end.
(** lines 414-429: one fold without parents; 1 / (gamma * n1) is a division of Python numbers. *)
Definition b_alone (n1 : nat) (Kx_tr : rmat) : rmat := fun i j => 1 / (gamma_cv * INR n1) * Kx_tr i j + eye i j.
Definition a_alone (n1 : nat) (P Kx_te Kx_tr_te : rmat) : rmat := fun i j =>
  (Kx_te i j - mmul n1 (mmul n1 (fun i j => 1 / (gamma_cv * INR n1) * Kx_tr_te j i) P) Kx_tr_te i j) / gamma_cv.
Definition fold_alone (pd : nat -> rmat -> rmat) (lg : nat -> rmat -> option R) (nv n1 : nat) (Kx_te Kx_tr Kx_tr_te : rmat) : cvres :=
  if Nat.eqb n1 0 then ZeroDivision else
  let A := a_alone n1 (pd n1 (fun i j => eye i j + 1 / (gamma_cv * INR n1) * Kx_tr i j)) Kx_te Kx_tr_te in
  match lg n1 (b_alone n1 Kx_tr) with
  | Some C => Score (fold_value nv C A)
  | None => NoNumber
  end.
(** lines 263, 316-354 and 378, 413-431: the folds in turn; CV / k at the end *)
Definition cv_loop (T k : nat) (one : list nat -> list nat -> nat -> nat -> cvres) : cvres :=
  match fold_left (fun acc kk => match acc with
      | Score cv => match cv_fold T k kk with
                    | Some (tr, te, nv) => match one tr te nv (T - nv)%nat with Score v => Score (cv + v) | r => r end
                    | None => NoNumber
                    end
      | r => r
      end) (seq 0 k) (Score 0) with
  | Score cv => Score (cv / INR k)
  | r => r
  end.
(** lines 175-434.  T / k with k = 0 raises ZeroDivisionError (line 203). *)
Definition score_cv_general (pd : nat -> rmat -> rmat) (lg : nat -> rmat -> option R) (lam : R) (k T : nat) (D : data) (x : nat) (pa : list nat) : cvres :=
  if Nat.eqb k 0 then ZeroDivision else
  match column_kernel T D x with
  | None => NoNumber
  | Some K0 =>
    let Kx := h0k T K0 in
    match pa with
    | [] => cv_loop T k (fun tr te nv n1 => fold_alone pd lg nv n1 (sub Kx te te) (sub Kx tr tr) (sub Kx tr te))
    | _ => match parents_kernel T D pa with
           | None => NoNumber
           | Some K1 => let Kpa := h0k T K1 in
             cv_loop T k (fun tr te nv n1 => fold_parents pd lg lam nv n1 (sub Kx te te) (sub Kx tr tr) (sub Kx tr te) (sub Kpa tr tr) (sub Kpa tr te))
           end
    end
  end.
