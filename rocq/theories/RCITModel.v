(** Model of causallearn/utils/RCIT/RCIT.py over the real numbers (floating point is not modelled).  A data set is X s c: sample s, column c.  Random numbers
    are arguments: w k c the normal draws, b k the offsets (2 pi times a uniform draw), perms the random permutations.  The approximations of the null distribution
    (momentchi2.sw, hbe, lpb4; lpb4 gives None for an exception or NaN), chi2.cdf, eigh, pinv and the inverse by Cholesky are arguments.  [None]: a column or a
    feature is constant, where the code divides by zero (NaN, or an exception from the linear algebra), or the name of the approximation is unknown. *)
From Verif Require Import Base UtilsModel BICModel EffectModel VARModel KCIModel HSICModel.
From Coq Require Import Reals.
Local Open Scope R_scope.

Inductive approximation := Lpd4 | Hbe | Gamma | Chi2 | Perm | Unknown.
Section RCIT.
Variables sw hbe : list R -> R -> R.
Variable lpb4 : list R -> R -> option R.
Variable chi2cdf : R -> nat -> R.
Variable eig : nat -> rmat -> list R.
Variable pinv cinv : nat -> rmat -> rmat.

(** Division by the standard deviation: 64-66, 82-84, 271-272, 284-285 use the same expression as zscore where no column is constant. *)
Definition varying (n d : nat) (X : data) : bool := forallb (fun c => if Req_EM_T (cvar n X c) 0 then false else true) (seq 0 d).
(** 71-76, 274-279: the median of the non-zero distances between the first 500 samples; 187-188, 367-368: 1 if it is 0. *)
Definition bandwidth (n d : nat) (X : data) : R :=
  let s := rmedian (pos_dists (if Nat.ltb 500 n then 500 else n) d X) in if Req_EM_T s 0 then 1 else s.
(** 159-196, 339-376 random_fourier_features, with w and b drawn inside. *)
Definition fourier (d : nat) (sigma : R) (w : rmat) (b : rvec) (X : data) : data :=
  fun s k => sqrt 2 * cos (rsum (fun c => 1 / sigma * w k c * X s c) (seq 0 d) + b k).
(** 78-84, 281-285: the standardised features of a standardised data set. *)
Definition raw_features (n d : nat) (w : rmat) (b : rvec) (X : data) : data := fourier d (bandwidth n d X) w b X.
Definition features (n d : nat) (w : rmat) (b : rvec) (X : data) : data := zscore n (raw_features n d w b X).
(** 198-223, 378-403 matrix_cov; 86, 94, 95: the product without centring; 126-129, 306-309: all products of a column of the one and a column of the other. *)
Definition mcov (n : nat) (A B : data) : rmat := fun k l => rsum (fun s => (A s k - cmean n A k) * (B s l - cmean n B l)) (seq 0 n) / INR (n - 1).
Definition xprod (n : nat) (A B : data) : rmat := fun k l => rsum (fun s => A s k * B s l) (seq 0 n) / INR (n - 1).
Definition column_products (f : nat) (A B : data) : data := fun s q => A s (q / f)%nat * B s (q mod f)%nat.
Definition second_moments (n : nat) (P : data) : rmat := fun k l => 1 / INR n * rsum (fun s => P s k * P s l) (seq 0 n).
Definition sumsq (f : nat) (C : rmat) : R := rsum (fun k => rsum (fun l => C k l ^ 2) (seq 0 f)) (seq 0 f).
Definition flatten (f : nat) (C : rmat) : rvec := fun q => C (q / f)%nat (q mod f)%nat.
(** 120, 300: the fraction of the permutations whose statistic is larger. *)
Definition perm_p (sta : R) (stas : list R) : R := 1 - INR (length (filter (fun x => if Rle_dec x sta then true else false) stas)) / INR (length stas).
(** 107-156, 290-336: the p-value and the statistic, from the covariance C of which sta is the squared norm, and the residuals. *)
Definition at_least_0 (p : R) : R := if Rlt_dec p 0 then 0 else p.
Definition p_value (n f : nat) (approx : approximation) (perms : list (nat -> nat)) (C : rmat) (rx ry : data) (perm_cov : rmat) : option (R * R) :=
  let sta := INR n * sumsq f C in
  let Cov := second_moments n (column_products f rx ry) in
  let eigs := filter (fun e => if Rlt_dec 0 e then true else false) (eig (f * f) Cov) in
  match approx with
  | Perm => let sta := INR n * sumsq f perm_cov in
            let stas := map (fun perm => INR n * sumsq f (mcov n (fun s => rx (perm s)) ry)) perms in
            Some (at_least_0 (perm_p sta stas), sta)
  | Chi2 => let sta := INR n * rdot (f * f) (flatten f C) (mvec (f * f) (pinv (f * f) Cov) (flatten f C)) in Some (at_least_0 (1 - chi2cdf sta (f * f)), sta)
  | Gamma => Some (at_least_0 (1 - sw eigs sta), sta)
  | Hbe => Some (at_least_0 (1 - hbe eigs sta), sta)
  | Lpd4 => Some (at_least_0 (match lpb4 eigs sta with Some v => 1 - v | None => 1 - hbe eigs sta end), sta)
  | Unknown => None
  end.
(** 253-337 RIT.compute_pvalue: 5 features each.  The p-value and the statistic. *)
Definition rit (approx : approximation) (perms : list (nat -> nat)) (n dx dy : nat) (wx : rmat) (bx : rvec) (wy : rmat) (by_ : rvec) (X Y : data) : option (R * R) :=
  let X := zscore n X in let Y := zscore n Y in
  let fx := features n dx wx bx X in let fy := features n dy wy by_ Y in
  let C := mcov n fx fy in
  let rx := fun s k => fx s k - cmean n fx k in let ry := fun s k => fy s k - cmean n fy k in
  match approx with
  | Perm => let sta := INR n * sumsq 5 C in
            Some (at_least_0 (perm_p sta (map (fun perm => INR n * sumsq 5 (mcov n (fun s => fx (perm s)) fy)) perms)), sta)
  | _ => p_value n 5 approx perms C rx ry C
  end.
(** When the computation above makes sense. *)
Definition rit_defined (n dx dy : nat) (wx : rmat) (bx : rvec) (wy : rmat) (by_ : rvec) (X Y : data) : bool :=
  varying n dx X && varying n dy Y && varying n 5 (raw_features n dx wx bx (zscore n X)) && varying n 5 (raw_features n dy wy by_ (zscore n Y)).
Definition rit_p (approx : approximation) (perms : list (nat -> nat)) (n dx dy : nat) (wx : rmat) (bx : rvec) (wy : rmat) (by_ : rvec) (X Y : data) : option (R * R) :=
  if rit_defined n dx dy wx bx wy by_ X Y then rit approx perms n dx dy wx bx wy by_ X Y else None.

(** 68-69: the columns of z after those of y. *)
Definition beside (dy : nat) (Y Z : data) : data := fun s c => if Nat.ltb c dy then Y s c else Z s (c - dy)%nat.
(** 88-102: the regression of the features on those of z; 90: 1e-10 on the diagonal. *)
Definition ridge : R := / 10 ^ 10.
Definition inv_Czz (n num_f : nat) (fz : data) : rmat := cinv num_f (fun a b => mcov n fz fz a b + ridge * eye a b).
Definition residual_x (n num_f : nat) (fx fz : data) : data := fun s k => fx s k - rsum (fun a => rsum (fun b => fz s b * inv_Czz n num_f fz b a) (seq 0 num_f) * xprod n fx fz k a) (seq 0 num_f).
Definition residual_y (n num_f : nat) (fy fz : data) : data := fun s l => fy s l - rsum (fun a => rsum (fun b => fz s b * inv_Czz n num_f fz b a) (seq 0 num_f) * xprod n fz fy a l) (seq 0 num_f).
(** 123: Cxy - Cxz Czz^-1 Czy. *)
Definition partial_cov (n num_f : nat) (fx fy fz : data) : rmat :=
  fun k l => xprod n fx fy k l - rsum (fun a => mmul num_f (xprod n fx fz) (inv_Czz n num_f fz) k a * xprod n fz fy a l) (seq 0 num_f).
(** 45-157 RCIT.compute_pvalue; 104-105: with a single feature the approximation is always hbe. *)
Definition rcit (approx : approximation) (num_f num_f2 : nat) (with_z : bool) (perms : list (nat -> nat)) (n dx dy dz : nat)
    (wx : rmat) (bx : rvec) (wy : rmat) (by_ : rvec) (wz : rmat) (bz : rvec) (X Y Z : data) : option (R * R) :=
  let X := zscore n X in let Z := zscore n Z in
  let Y := if with_z then beside dy (zscore n Y) Z else zscore n Y in
  let dy := if with_z then (dy + dz)%nat else dy in
  let fz := features n dz wz bz Z in let fx := features n dx wx bx X in let fy := features n dy wy by_ Y in
  let rx := residual_x n num_f fx fz in let ry := residual_y n num_f fy fz in
  p_value n num_f2 (if Nat.eqb num_f2 1 then Hbe else approx) perms (partial_cov n num_f fx fy fz) rx ry (mcov n rx ry).
Definition rcit_defined (num_f num_f2 : nat) (with_z : bool) (n dx dy dz : nat) (wx : rmat) (bx : rvec) (wy : rmat) (by_ : rvec) (wz : rmat) (bz : rvec) (X Y Z : data) : bool :=
  varying n dx X && varying n dy Y && varying n dz Z && varying n num_f2 (raw_features n dx wx bx (zscore n X)) && varying n num_f (raw_features n dz wz bz (zscore n Z)) &&
  varying n num_f2 (if with_z then raw_features n (dy + dz) wy by_ (beside dy (zscore n Y) (zscore n Z)) else raw_features n dy wy by_ (zscore n Y)).
Definition rcit_p (approx : approximation) (num_f num_f2 : nat) (with_z : bool) (perms : list (nat -> nat)) (n dx dy dz : nat)
    (wx : rmat) (bx : rvec) (wy : rmat) (by_ : rvec) (wz : rmat) (bz : rvec) (X Y Z : data) : option (R * R) :=
  if rcit_defined num_f num_f2 with_z n dx dy dz wx bx wy by_ wz bz X Y Z then rcit approx num_f num_f2 with_z perms n dx dy dz wx bx wy by_ wz bz X Y Z else None.
End RCIT.
