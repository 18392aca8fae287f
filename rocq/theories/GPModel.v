(** Model of causallearn/utils/ScoreUtils.py:115-337 minimize (with a negative length, as local_score_marginal_general and local_score_marginal_multi call it)
    and of ScoreUtils.py:435-527 gpr_multi_new, over the real numbers; floating point is not modelled, but NaN and infinite steps are. *)
From Verif Require Import Base UtilsModel BICModel EffectModel VARModel KCIModel HSICModel.
From Coq Require Import Reals.
Local Open Scope R_scope.

(** The function to minimize: value and gradient; None is an exception, or a value or gradient that is not finite. *)
Definition objective := rvec -> option (R * rvec).
Definition along (X : rvec) (t : R) (s : rvec) : rvec := fun j => X j + t * s j.
(** ScoreUtils.py:149-155 *)
Definition INT : R := 1 / 10.
Definition EXT : R := 3.
Definition MAXE : nat := 20.
Definition RATIO : R := 10.
Definition SIG : R := 1 / 10.
Definition RHO : R := SIG / 2.
(** lines 196, 239, 299, 313, 317, 330: (a.T * b)[0, 0] of two columns is the product of their first entries *)
Definition corner (a b : rvec) : R := a 0%nat * b 0%nat.
Definition gtb (a b : R) : bool := if Rlt_dec b a then true else false.

(** lines 218-234: evaluate at X + x3 s until the evaluation works; x2 is 0 here.  [tr] collects the points of evaluation, last first. *)
Fixpoint try_eval (f : objective) (X s : rvec) (M : nat) (x3 : R) (dflt : R * rvec) (i : nat) (tr : list rvec) : R * (R * rvec) * nat * nat * list rvec :=
  match M with
  | O => (x3, dflt, O, i, tr)
  | S M' => match f (along X x3 s) with
            | Some r => (x3, r, M', S i, along X x3 s :: tr)
            | None => try_eval f X s M' ((0 + x3) / 2) dflt (S i) (along X x3 s :: tr)
            end
  end.
(** lines 244-262: the next step after x2 = the current step and x1 = 0; None: not a number, or infinite *)
Definition cubic_step (f1 d1 f2 d2 x1 x2 : R) : option R :=
  let A := 6 * (f1 - f2) + 3 * (d2 + d1) * (x2 - x1) in
  let B := 3 * (f2 - f1) - (2 * d1 + d2) * (x2 - x1) in
  let disc := B * B - A * d1 * (x2 - x1) in
  if Rlt_dec disc 0 then None else
  let den := B + sqrt disc in
  if Req_EM_T den 0 then None else Some (x1 - d1 * (x2 - x1) ^ 2 / den).
Definition next_step (f1 d1 f2 d2 x1 x2 : R) : R :=
  match cubic_step f1 d1 f2 d2 x1 x2 with
  | None => x2 * EXT
  | Some x3 => if Rlt_dec x3 0 then x2 * EXT else if Rlt_dec (x2 * EXT) x3 then x2 * EXT else if Rlt_dec x3 (x2 + INT * (x2 - x1)) then x2 + INT * (x2 - x1) else x3
  end.
(** a point of the search: the argument, the value, the gradient *)
Definition point := (rvec * R * rvec)%type.
Definition pval (p : point) : R := snd (fst p).
Definition keep_best (best : point) (X s : rvec) (x3 f3 : R) (df3 : rvec) : point := if Rlt_dec f3 (pval best) then (along X x3 s, f3, df3) else best.
(** lines 211-262: extrapolation.  [fuel] bounds the number of rounds, each of which uses at least one of the M evaluations. *)
Record lsearch := mkL { l_x3 : R; l_f3 : R; l_df3 : rvec; l_d3 : R; l_M : nat; l_best : point; l_i : nat; l_tr : list rvec }.
Fixpoint extrapolate (fuel : nat) (f : objective) (X : rvec) (f0 : R) (df0 s : rvec) (d0 x3 : R) (M : nat) (best : point) (i : nat) (tr : list rvec) : lsearch :=
  let '(x3, (f3, df3), M, i, tr) := try_eval f X s M x3 (f0, df0) i tr in
  let best := keep_best best X s x3 f3 df3 in
  let d3 := corner df3 s in
  if gtb d3 (SIG * d0) || gtb f3 (f0 + x3 * RHO * d0) || Nat.eqb M 0 then mkL x3 f3 df3 d3 M best i tr
  else match fuel with
       | O => mkL x3 f3 df3 d3 M best i tr
       | S fuel => extrapolate fuel f X f0 df0 s d0 (next_step f0 d0 f3 d3 0 x3) M best i tr
       end.
(** lines 276-294: the interpolated step *)
Definition inter_step (f0 x2 f2 d2 x4 f4 d4 : R) : R :=
  let raw := if gtb f4 f0 then
      let den := f4 - f2 - d2 * (x4 - x2) in if Req_EM_T den 0 then None else Some (x2 - (1 / 2 * d2 * (x4 - x2) ^ 2) / den)
    else if Req_EM_T (x4 - x2) 0 then None else
      let A := 6 * (f2 - f4) / (x4 - x2) + 3 * (d4 + d2) in
      let B := 3 * (f4 - f2) - (2 * d2 + d4) * (x4 - x2) in
      let disc := B * B - A * d2 * (x4 - x2) ^ 2 in
      if Req_EM_T A 0 then None else if Rlt_dec disc 0 then None else Some (x2 + (sqrt disc - B) / A) in
  let x3 := match raw with Some x => x | None => (x2 + x4) / 2 end in
  Rmax (Rmin x3 (x4 - INT * (x4 - x2))) (x2 + INT * (x4 - x2)).
(** lines 265-309: interpolation.  None in [p4]: x4, f4, d4 have not been assigned in this line search. *)
Inductive inter_result := IDone (l : lsearch) | IRaised (tr : list rvec) | IUnset.
Definition wolfe (f0 d0 : R) (l : lsearch) : bool := gtb (Rabs (l_d3 l)) (- SIG * d0) || gtb (l_f3 l) (f0 + l_x3 l * RHO * d0).
Fixpoint interpolate (M : nat) (f : objective) (X : rvec) (f0 : R) (s : rvec) (d0 x2 f2 d2 : R) (p4 : option (R * R * R)) (l : lsearch) : inter_result :=
  match M with
  | O => IDone l
  | S M' =>
    if wolfe f0 d0 l then
      let left := gtb (l_d3 l) 0 || gtb (l_f3 l) (f0 + l_x3 l * RHO * d0) in
      let p4 := if left then Some (l_x3 l, l_f3 l, l_d3 l) else p4 in
      let '(x2, f2, d2) := if left then (x2, f2, d2) else (l_x3 l, l_f3 l, l_d3 l) in
      match p4 with
      | None => IUnset
      | Some (x4, f4, d4) =>
        let x3 := inter_step f0 x2 f2 d2 x4 f4 d4 in
        let tr := along X x3 s :: l_tr l in
        match f (along X x3 s) with
        | None => IRaised tr
        | Some (f3, df3) => interpolate M' f X f0 s d0 x2 f2 d2 (Some (x4, f4, d4)) (mkL x3 f3 df3 (corner df3 s) M' (keep_best (l_best l) X s x3 f3 df3) (S (l_i l)) tr)
        end
      end
    else IDone l
  end.
(** The outcome: the result and the evaluations; an exception of the function; an unassigned variable; or a direction that has become a square matrix (line 312
    broadcasts a row with a column), which happens after a line search that succeeds with two or more parameters and is not followed further. *)
Inductive mresult := MDone (p : point) (i : nat) (tr : list rvec) | MRaised | MUnset | MMatrix.
(** lines 311-335, and the loop of lines 199-335.  [tiny] is sys.float_info.min. *)
Fixpoint min_loop (fuel : nat) (tiny : R) (f : objective) (dim N : nat) (cur : point) (s : rvec) (d0 x3 : R) (i : nat) (failed : bool) (tr : list rvec) : mresult :=
  if negb (Nat.ltb i N) then MDone cur i tr else
  match fuel with
  | O => MDone cur i tr
  | S fuel =>
    let '(X, f0, df0) := cur in
    let M := Nat.min MAXE (N - i) in
    let l := extrapolate M f X f0 df0 s d0 x3 M cur i tr in
    match interpolate (l_M l) f X f0 s d0 0 f0 d0 None l with
    | IRaised _ => MRaised
    | IUnset => MUnset
    | IDone l =>
      let f3 := l_f3 l in let df3 := l_df3 l in
      if gtb (- SIG * d0) (Rabs (l_d3 l)) && gtb (f0 + l_x3 l * RHO * d0) f3 then
        if Nat.eqb dim 1 then
          let s' := fun j => (corner df3 df3 - df0 j * df3 0%nat) / corner df0 df0 * s j - df3 j in
          let d0' := corner df3 s' in
          let '(s', d0') := if gtb d0' 0 then ((fun j => - df3 j) : rvec, - corner df3 df3) else (s', d0') in
          min_loop fuel tiny f dim N (along X (l_x3 l) s, f3, df3) s' d0' (l_x3 l * Rmin RATIO (d0 / (d0' - tiny))) (l_i l) false (l_tr l)
        else MMatrix
      else
        let cur := l_best l in let df0 := snd cur in
        if failed || Nat.ltb N (l_i l) then MDone cur (l_i l) (l_tr l)
        else let s' : rvec := fun j => - df0 j in let d0' := - corner s' s' in min_loop fuel tiny f dim N cur s' d0' (1 / (1 - d0')) (l_i l) true (l_tr l)
    end
  end.
(** lines 115-200, 337 for minimize(X, f, -N): the number of evaluations is bounded by N. *)
Definition minimize (tiny : R) (f : objective) (dim N : nat) (X : rvec) : mresult :=
  match f X with
  | None => MRaised
  | Some (f0, df0) => let s : rvec := fun j => - df0 j in let d0 := - corner s s in min_loop N tiny f dim N (X, f0, df0) s d0 (1 / (1 - d0)) 1 false [X]
  end.

(** ScoreUtils.py:435-527 gpr_multi_new without test inputs, for the covariance function of local_score_marginal_general: n samples, m targets y, L the Cholesky
    factor of the covariance matrix K and Li its inverse; s2 = exp(2 log noise).  solve_chol (530-551) is inv(L.T) @ (inv(L) @ y). *)
Definition alpha_of (n : nat) (Li y : rmat) : rmat := mmul n (fun i j => Li j i) (mmul n Li y).
Definition nlml_of (n m : nat) (L Li y : rmat) : R :=
  1 / 2 * mtrace m (mmul n (fun i j => y j i) (alpha_of n Li y)) + INR m * rsum (fun i => ln (L i i)) (seq 0 n) + 1 / 2 * INR m * INR n * ln (2 * PI).
(** lines 497-506: the products in W are elementwise, and only the last component of the gradient is computed, from the derivative 2 s2 I of covNoise (ScoreUtils.py:584). *)
Definition w_of (n m : nat) (Li y : rmat) : rmat := fun i j =>
  INR m * (Li j i * (Li i j * eye i j)) - mmul m (alpha_of n Li y) (fun a b => alpha_of n Li y b a) i j.
Definition dnlml_of (n m np : nat) (s2 : R) (Li y : rmat) : rvec := fun k =>
  if Nat.eqb k (np - 1) then msum n (fun i j => w_of n m Li y i j * (2 * s2 * eye i j)) / 2 else 0.
(** ScoreUtils.py:592-641 cov_seard and 556-589 cov_noise for one input: theta = (log ell, log sf, log sn); None: the Cholesky factorisation fails.
    [chol n K] returns the factor and its inverse. *)
Definition cov_one (x : rvec) (th : rvec) : rmat := fun i j =>
  exp (2 * th 1%nat) * exp (- ((1 / exp (th 0%nat) * x j - 1 / exp (th 0%nat) * x i) * (1 / exp (th 0%nat) * x j - 1 / exp (th 0%nat) * x i)) / 2) + exp (2 * th 2%nat) * eye i j.
Definition gpr_one (chol : nat -> rmat -> option (rmat * rmat)) (n m : nat) (x : rvec) (y : rmat) : objective := fun th =>
  match chol n (cov_one x th) with
  | None => None
  | Some (L, Li) => Some (nlml_of n m L Li y, dnlml_of n m 3 (exp (2 * th 2%nat)) Li y)
  end.

(** Shapes of arrays with two axes, and the broadcasting of numpy's elementwise operations; None is ValueError. *)
Definition shape := (nat * nat)%type.
Definition axis (a b : nat) : option nat := if Nat.eqb a b then Some a else if Nat.eqb a 1 then Some b else if Nat.eqb b 1 then Some a else None.
Definition bcast (s t : shape) : option shape := match axis (fst s) (fst t), axis (snd s) (snd t) with Some a, Some b => Some (a, b) | _, _ => None end.
Definition bind_shape (s : option shape) (f : shape -> option shape) : option shape := match s with Some t => f t | None => None end.
(** ScoreUtils.py:624 and 671-685: sq_dist(np.diag(1 / ell) * x.T) for x with n rows and D columns; cov_sum adds it to an n x n matrix (ScoreUtils.py:733, 740). *)
Definition seard_shape (D n : nat) : option shape := bind_shape (bcast (D, D) (D, n)) (fun t => bcast (n, n) (snd t, snd t)).
(** LocalScoreFunction.py:460, 470-474 (and 812-820, 838-843): Data[:, cols].reshape(-1, 1) for d columns of T samples, the tiled sums, 2 * X * X.T, and reshape to T^2 entries *)
Definition multi_shape (T d : nat) : option shape :=
  let X := (T * d, 1)%nat in
  bind_shape (bcast (fst X, T) (T, fst X)) (fun s => bind_shape (bind_shape (bcast X (1%nat, fst X)) (fun o => bcast s o))
    (fun t => if Nat.eqb (fst t * snd t) (T * T) then Some (T * T, 1)%nat else None)).
(** LocalScoreFunction.py:661-669: Kx_te - c * Kx_tr_te.T * pdinv(...) * Kx_tr_te with nv validation and n1 training samples *)
Definition multi_alone_shape (nv n1 : nat) : option shape :=
  bind_shape (bcast (nv, n1) (n1, n1)) (fun s => bind_shape (bcast s (n1, nv)) (fun t => bcast (nv, nv) t)).
