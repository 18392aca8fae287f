(** Model of causallearn/utils/KCI (Kernel.py, GaussianKernel.py, LinearKernel.py, PolynomialKernel.py, KCI.py), causallearn/search/FCMBased/ANM/ANM.py,
    causallearn/search/FCMBased/PNL/PNL.py over the real numbers (floating point is not modelled).  A data set is X s c: sample s, column c; a NaN is [None]. *)
From Verif Require Import Base UtilsModel BICModel EffectModel VARModel.
From Coq Require Import Reals.
Local Open Scope R_scope.

Definition data := nat -> nat -> R.
(** scipy.stats.zscore(ddof=1) by columns, with NaN (a constant column) replaced by 0: KCI.py:143-146, 314-321. *)
Definition cmean (n : nat) (X : data) (c : nat) : R := rsum (fun s => X s c) (seq 0 n) / INR n.
Definition cvar (n : nat) (X : data) (c : nat) : R := rsum (fun s => (X s c - cmean n X c) * (X s c - cmean n X c)) (seq 0 n) / INR (n - 1).
Definition zscore (n : nat) (X : data) : data := fun s c =>
  if Req_EM_T (cvar n X c) 0 then 0 else (X s c - cmean n X c) / sqrt (cvar n X c).
(** GaussianKernel.py:15-25 with Y None; LinearKernel.py:12-18; PolynomialKernel.py:14-20 (const = 1). *)
Definition sqdist (d : nat) (X : data) (a b : nat) : R := rsum (fun c => (X a c - X b c) * (X a c - X b c)) (seq 0 d).
Definition gaussian (theta : R) (d : nat) (X : data) : rmat := fun a b => exp (- (1 / 2) * sqdist d X a b * theta).
Definition linear_k (d : nat) (X : data) : rmat := fun a b => rdot d (X a) (X b).
Definition polynomial_k (degree d : nat) (X : data) : rmat := fun a b => (1 + rdot d (X a) (X b)) ^ degree.
(** GaussianKernel.py:27-60: theta, from a given width, the median of the positive distances, or the sample size.  [median] is numpy.median
    (samples above 1000 are drawn at random first: not modelled). *)
Inductive width := Manual (w : R) | Median | Empirical.
Inductive kernel := Gaussian (w : width) | Linear | Polynomial (degree : nat).
Definition pos_dists (n d : nat) (X : data) : list R :=
  filter (fun r => if Rlt_dec 0 r then true else false) (flat_map (fun a => map (fun b => sqrt (sqdist d X a b)) (seq 0 n)) (seq 0 n)).
Definition theta_median (median : list R -> R) (n d : nat) (X : data) : R := 1 / (sqrt 2 * median (pos_dists n d X)) ^ 2.
Definition theta_hsic (n d : nat) : R := (1 / (if Nat.ltb n 200 then 8 / 10 else if Nat.ltb n 1200 then 1 / 2 else 3 / 10) ^ 2) * INR d.
Definition theta_kci (n dz : nat) : R := (1 / (if Nat.ltb n 200 then 12 / 10 else if Nat.ltb n 1200 then 7 / 10 else 4 / 10) ^ 2) / INR dz.
(** KCI.py:103-149 KCI_UInd.kernel_matrix, for one of the two: the width is found on the data as given, the kernel is evaluated on the z-scores. *)
Definition kernel_of (median : list R -> R) (n d : nat) (k : kernel) (X : data) : rmat :=
  match k with
  | Gaussian (Manual w) => gaussian (1 / w ^ 2) d (zscore n X)
  | Gaussian Median => gaussian (theta_median median n d X) d (zscore n X)
  | Gaussian Empirical => gaussian (theta_hsic n d) d (zscore n X)
  | Linear => linear_k d (zscore n X)
  | Polynomial g => polynomial_k g d (zscore n X)
  end.
(** Kernel.py:24-39 center_kernel_matrix *)
Definition colsum (n : nat) (K : rmat) (j : nat) : R := rsum (fun i => K i j) (seq 0 n).
Definition center (n : nat) (K : rmat) : rmat := fun i j =>
  K i j - (colsum n K j + colsum n K i) / INR n + rsum (colsum n K) (seq 0 n) / (INR n) ^ 2.
(** KCI.py:151-170 HSIC_V_statistic *)
Definition msum (n : nat) (K : rmat) : R := rsum (fun i => rsum (fun j => K i j) (seq 0 n)) (seq 0 n).
Definition v_statistic (n : nat) (A B : rmat) : R := msum n (fun i j => A i j * B i j).
(** KCI.py:207-236 get_kappa: mean and variance; k = mean^2 / var and theta = var / mean are NaN if both are 0. *)
Definition mtrace (n : nat) (K : rmat) : R := rsum (fun i => K i i) (seq 0 n).
Definition mean_appr (n : nat) (A B : rmat) : R := mtrace n A * mtrace n B / INR n.
Definition var_appr (n : nat) (A B : rmat) : R := 2 * msum n (fun i j => A i j ^ 2) * msum n (fun i j => B i j ^ 2) / INR n / INR n.
Definition kappa (n : nat) (A B : rmat) : option (R * R) :=
  let m := mean_appr n A B in let v := var_appr n A B in
  if Req_EM_T v 0 then None else if Req_EM_T m 0 then None else Some (m ^ 2 / v, v / m).
(** KCI.py:63-101 KCI_UInd.compute_pvalue with approx; [gsf] is 1 - stats.gamma.cdf(stat, k, 0, theta), which is NaN for NaN parameters.
    dx, dy are the numbers of columns.  The p-value and the statistic. *)
Definition kci_u (median : list R -> R) (gsf : R -> R -> R -> R) (n : nat) (kx ky : kernel) (dx dy : nat) (X Y : data) : option R * R :=
  let Kxc := center n (kernel_of median n dx kx X) in
  let Kyc := center n (kernel_of median n dy ky Y) in
  let stat := v_statistic n Kxc Kyc in
  (match kappa n Kxc Kyc with Some (k, theta) => Some (gsf stat k theta) | None => None end, stat).
(** KCI.py:91-94 without approx: [null] are the simulated statistics. *)
Definition spectral_p (nullss : nat) (null : list R) (stat : R) : R := INR (length (filter (fun x => if Rlt_dec stat x then true else false) null)) / INR nullss.

(** KCI_CInd, without Gaussian processes.  KCI.py:314-325: the data are z-scored, and half of z is appended to x only. *)
Definition with_z (dx : nat) (X Z : data) : data := fun s c => if Nat.ltb c dx then X s c else 1 / 2 * Z s (c - dx)%nat.
(** KCI.py:326-371 and 378-393, 436-445: kernels; the median is that of the given (extended, z-scored) data, the empirical width depends on z. *)
Definition kernel_c (median : list R -> R) (n dz d : nat) (k : kernel) (X : data) : rmat :=
  match k with
  | Gaussian (Manual w) => gaussian (1 / w ^ 2) d X
  | Gaussian Median => gaussian (theta_median median n d X) d X
  | Gaussian Empirical => gaussian (theta_kci n dz) d X
  | Linear => linear_k d X
  | Polynomial g => polynomial_k g d X
  end.
(** Kernel.py:41-47 center_kernel_matrix_regression; [pinv] is numpy.linalg.pinv. *)
Definition regressor (pinv : nat -> rmat -> rmat) (n : nat) (eps : R) (Kz : rmat) : rmat := fun i j => eps * pinv n (fun i j => Kz i j + eps * eye i j) i j.
Definition sandwich (n : nat) (Rz K : rmat) : rmat := mmul n Rz (mmul n K Rz).
(** KCI.py:474-511 KCI_V_statistic, with both epsilons 1e-3: the statistic and the two matrices. *)
Definition kci_c (median : list R -> R) (pinv : nat -> rmat -> rmat) (n : nat) (kx ky kz : kernel) (dx dy dz : nat) (X Y Z : data) : R * rmat * rmat :=
  let zx := zscore n X in let zy := zscore n Y in let zz := zscore n Z in
  let Kx := center n (kernel_c median n dz (dx + dz) kx (with_z dx zx zz)) in
  let Ky := center n (kernel_c median n dz dy ky zy) in
  let Kz := center n (kernel_c median n dz dz kz zz) in
  let Rz := regressor pinv n (1 / 1000) Kz in
  let KxR := sandwich n Rz Kx in
  let KyR := sandwich n Rz Ky in
  (v_statistic n KxR KyR, KxR, KyR).

(** ANM.py:47-77 cause_or_effect; [gp x y] is the prediction of fit_gp (samples, one column each). *)
Definition column (x : nat -> R) : data := fun s _ => x s.
Definition anm (median : list R -> R) (gsf : R -> R -> R -> R) (n : nat) (kx ky : kernel) (gp : (nat -> R) -> (nat -> R) -> nat -> R) (x y : nat -> R) : option R * option R :=
  let res_y := fun s => y s - gp x y s in
  let forward := fst (kci_u median gsf n kx ky 1 1 (column x) (column res_y)) in
  let res_x := fun s => x s - gp y x s in
  let backward := fst (kci_u median gsf n kx ky 1 1 (column y) (column res_x)) in
  (forward, backward).

(** scipy.stats.ttest_ind (equal variances): 0 / 0 gives NaN ([None]), an infinite statistic the p-value 0.  [tsf] is the survival function of Student's t. *)
Definition lmean (l : list R) : R := rsum (fun x => x) l / INR (length l).
Definition lvar (l : list R) : R := rsum (fun x => (x - lmean l) * (x - lmean l)) l / (INR (length l) - 1).
Definition t_denom (a b : list R) : R :=
  let n1 := INR (length a) in let n2 := INR (length b) in
  sqrt (((n1 - 1) * lvar a + (n2 - 1) * lvar b) / (n1 + n2 - 2) * (1 / n1 + 1 / n2)).
Definition ttest (tsf : R -> R -> R) (a b : list R) : option R :=
  if Req_EM_T (t_denom a b) 0 then (if Req_EM_T (lmean a) (lmean b) then None else Some 0)
  else Some (2 * tsf (Rabs ((lmean a - lmean b) / t_denom a b)) (INR (length a) + INR (length b) - 2)).
(** PNL.py:131-172 cause_or_effect: [learn] trains the two networks from a state of the random numbers and returns the noise and the next state;
    [seed] is the state after torch.manual_seed(0), set once; [round3] is np.round(., 3). *)
Definition pnl {rng} (tsf : R -> R -> R) (round3 : R -> R) (learn : rng -> list (R * R) -> list R * rng) (seed : rng) (x y : list R) : option R * option R :=
  let '(e1, r1) := learn seed (combine x y) in
  let forward := ttest tsf x e1 in
  let '(e2, _) := learn r1 (combine y x) in
  let backward := ttest tsf y e2 in
  (option_map round3 forward, option_map round3 backward).
