(** Model of the null distributions of causallearn/utils/KCI/KCI.py and of causallearn/utils/FastKCI/FastKCI.py (without Gaussian processes for the kernels) over the
    real numbers (floating point is not modelled).  numpy.linalg.eigh (pairs of an eigenvalue and an eigenvector), eigvalsh, pinv, the order given by argsort to
    equal keys, the likelihoods of the Gaussian processes, the draws of chi-square variables and of the partitions, and rounding to 6 digits are arguments.
    [None]: the code raises (numpy's maximum of an empty array). *)
From Verif Require Import Base UtilsModel BICModel EffectModel VARModel KCIModel HSICModel.
From Coq Require Import Reals.
Local Open Scope R_scope.

Definition lmax (l : list R) : option R := match l with [] => None | x :: l => Some (fold_left Rmax l x) end.
Definition above (m x : R) : bool := if Rlt_dec m x then true else false.
(** eig[eig > max * thresh] *)
Definition keep_big (thresh : R) (l : list R) : option (list R) := match lmax l with Some m => Some (filter (above (m * thresh)) l) | None => None end.
Definition descending (l : list R) : list R := rev (rsort l).
(** KCI.py:178-205: T samples; above 1000 only half of the eigenvalues. *)
Definition num_eig (T : nat) : nat := if Nat.ltb 1000 T then Nat.div T 2 else T.
Definition weights_u (thresh : R) (T : nat) (lx ly : list R) : option (list R) :=
  let lx := firstn (num_eig T) (descending lx) in let ly := firstn (num_eig T) (descending ly) in
  keep_big thresh (flat_map (fun a => map (fun b => a * b) ly) lx).
(** The simulated statistics from chi-square variables chi i r (r-th simulation): KCI.py:206-207, 577-578. *)
Definition simulate (nullss : nat) (w : list R) (chi : nat -> nat -> R) : list R :=
  map (fun r => rsum (fun i => nth i w 0 * chi i r) (seq 0 (length w))) (seq 0 nullss).
Section Null.
Variable eigh : nat -> rmat -> list (R * rvec).
Variable order : list (R * rvec) -> list (R * rvec).
Variable eigv : nat -> rmat -> list R.
(** KCI.py:80-91 with approx = False: the weights are divided by T at the end. *)
Definition null_u (thresh : R) (nullss n : nat) (Kxc Kyc : rmat) (chi : nat -> nat -> R) : option (list R) :=
  match weights_u thresh n (eigv n Kxc) (eigv n Kyc) with Some w => Some (map (fun x => x / INR n) (simulate nullss w chi)) | None => None end.

(** KCI.py:513-556, FastKCI.py get_uuprod: the eigenvectors with large eigenvalues, scaled, and their products; [limit] is the number above which the
    n x n product is formed instead of the product of size_u x size_u. *)
Definition symm (A : rmat) : rmat := fun i j => 1 / 2 * (A i j + A j i).
Definition big_pairs (thresh : R) (n : nat) (A : rmat) : option (list (R * rvec)) :=
  let l := order (eigh n A) in
  match lmax (map fst l) with Some m => Some (filter (fun p => above (m * thresh) (fst p)) l) | None => None end.
Definition scaled (l : list (R * rvec)) : list rvec := map (fun p => fun s => snd p s * sqrt (fst p)) l.
Definition products (vx vy : list rvec) : list rvec := flat_map (fun a => map (fun b => fun s => a s * b s) vy) vx.
Definition gram (uu : list rvec) : rmat := fun s t => rsum (fun u => u s * u t) uu.
Definition inner (n : nat) (uu : list rvec) : rmat := fun p q => rsum (fun s => nth p uu (fun _ => 0) s * nth q uu (fun _ => 0) s) (seq 0 n).
(** The number of rows of the product, the product, size_u. *)
Definition uuprod (thresh : R) (limit n : nat) (A B : rmat) : option (nat * rmat * nat) :=
  match big_pairs thresh n A, big_pairs thresh n B with
  | Some lx, Some ly => let uu := products (scaled lx) (scaled ly) in
    Some (if Nat.ltb limit (length uu) then (n, gram uu, length uu) else (length uu, inner n uu, length uu))
  | _, _ => None
  end.
(** KCI.py:582-600 get_kappa; NaN if 0 / 0. *)
Definition kappa_c (d : nat) (M : rmat) : option (R * R) :=
  let m := mtrace d M in let v := 2 * mtrace d (mmul d M M) in
  if Req_EM_T v 0 then None else if Req_EM_T m 0 then None else Some (m ^ 2 / v, v / m).
(** KCI.py:558-579 *)
Definition null_c (thresh : R) (nullss T d : nat) (M : rmat) (size_u : nat) (chi : nat -> nat -> R) : option (list R) :=
  match keep_big thresh (firstn (Nat.min T size_u) (descending (eigv d M))) with Some w => Some (simulate nullss w chi) | None => None end.
(** KCI.py:288-311 KCI_CInd.compute_pvalue: the p-value (None: NaN) and the statistic.  285: the threshold. *)
Definition kci_p_gamma (median : list R -> R) (pinv : nat -> rmat -> rmat) (gsf : R -> R -> R -> R) (n : nat) (kx ky kz : kernel) (dx dy dz : nat) (X Y Z : data) : option (option R * R) :=
  let '(stat, A, B) := kci_c median pinv n kx ky kz dx dy dz X Y Z in
  match uuprod (1 / 100000) n n (symm A) (symm B) with
  | Some (d, M, _) => Some (match kappa_c d M with Some (k, theta) => Some (gsf stat k theta) | None => None end, stat)
  | None => None
  end.
Definition kci_p_spectral (median : list R -> R) (pinv : nat -> rmat -> rmat) (nullss n : nat) (chi : nat -> nat -> R) (kx ky kz : kernel) (dx dy dz : nat) (X Y Z : data) : option (R * R) :=
  let '(stat, A, B) := kci_c median pinv n kx ky kz dx dy dz X Y Z in
  match uuprod (1 / 100000) n n (symm A) (symm B) with
  | Some (d, M, size_u) => match null_c (1 / 100000) nullss n d M size_u chi with Some null => Some (spectral_p nullss null stat, stat) | None => None end
  | None => None
  end.

(** FastKCI.  A partition gives each sample its block; np.unique sorts the blocks. *)
Definition unique (n : nat) (lab : nat -> nat) : list nat := filter (fun k => existsb (fun s => Nat.eqb (lab s) k) (seq 0 n)) (seq 0 (1 + list_max (map lab (seq 0 n)))).
Definition members (n : nat) (lab : nat -> nat) (k : nat) : list nat := filter (fun s => Nat.eqb (lab s) k) (seq 0 n).
Definition sub (idx : list nat) (X : data) : data := fun s => X (nth s idx 0%nat).
(** einsum 'ij,ji->' *)
Definition trace_product (n : nat) (A B : rmat) : R := msum n (fun i j => A i j * B j i).
(** pvalue_onblocks of FastKCI_CInd: one block; eig_thresh 1e-6, epsilon 1e-3, widths of set_width_empirical_kci of the block of z. *)
Definition block_c (median : list R -> R) (pinv : nat -> rmat -> rmat) (nullss total : nat) (dx dy dz : nat) (X Y Z : data) (idx : list nat) (chi : nat -> nat -> R) : option (R * list R) :=
  let m := length idx in
  let '(_, A, B) := kci_c median pinv m (Gaussian Empirical) (Gaussian Empirical) (Gaussian Empirical) dx dy dz (sub idx X) (sub idx Y) (sub idx Z) in
  match uuprod (1 / 1000000) total m A B with
  | Some (d, M, size_u) => match null_c (1 / 1000000) nullss m d M size_u chi with Some null => Some (trace_product m A B, null) | None => None end
  | None => None
  end.
Definition vadd (a b : list R) : list R := map (fun p => fst p + snd p) (combine a b).
(** The statistic, the simulated statistics and the likelihood of a partition; blocks of less than 6 samples are skipped. *)
Definition on_blocks (block : list nat -> (nat -> nat -> R) -> option (R * list R)) (lik : list nat -> R) (least nullss n : nat) (lab : nat -> nat) (chi : nat -> nat -> nat -> R) : option (R * list R * R) :=
  fold_left (fun acc k => match acc with
    | None => None
    | Some (stat, null, ll) =>
      let idx := members n lab k in
      if Nat.ltb (length idx) least then acc
      else match block idx (chi k) with Some (v, nl) => Some (stat + v, vadd null nl, ll + lik idx) | None => None end
    end) (unique n lab) (Some (0, repeat 0 nullss, 0)).
(** pvalue_onblocks of FastKCI_UInd: one block; eig_thresh 1e-5, no block is skipped. *)
Definition block_u (median : list R -> R) (nullss : nat) (dx dy : nat) (X Y : data) (idx : list nat) (chi : nat -> nat -> R) : option (R * list R) :=
  let m := length idx in
  let A := center m (kernel_of median m dx (Gaussian Empirical) (sub idx X)) in
  let B := center m (kernel_of median m dy (Gaussian Empirical) (sub idx Y)) in
  match null_u (1 / 100000) nullss m A B chi with Some null => Some (v_statistic m A B, null) | None => None end.
End Null.
(** compute_pvalue: the results of the partitions are averaged with the rounded weights exp(l - logsumexp l); numpy's average raises if the weights sum to 0. *)
Definition logsumexp (l : list R) : R := ln (rsum exp l).
Definition prob_weights (round6 : R -> R) (l : list R) : list R := map (fun x => round6 (exp (x - logsumexp l))) l.
Definition average (w x : list R) : option R :=
  let t := rsum (fun v => v) w in if Req_EM_T t 0 then None else Some (rsum (fun p => fst p * snd p) (combine w x) / t).
Fixpoint all_some {A} (l : list (option A)) : option (list A) :=
  match l with [] => Some [] | Some x :: l => match all_some l with Some r => Some (x :: r) | None => None end | None :: _ => None end.
Definition fast_p (round6 : R -> R) (nullss : nat) (runs : list (option (R * list R * R))) : option (R * R) :=
  match all_some runs with
  | None => None
  | Some rs =>
    let w := prob_weights round6 (map snd rs) in
    match average w (map (fun r => fst (fst r)) rs), all_some (map (fun i => average w (map (fun r => nth i (snd (fst r)) 0) rs)) (seq 0 nullss)) with
    | Some stat, Some null => Some (spectral_p nullss null stat, stat)
    | _, _ => None
    end
  end.
(** FastKCI_CInd.compute_pvalue and FastKCI_UInd.compute_pvalue: labs are the partitions of the J runs, chis their draws. *)
Definition fast_c eigh order eigv median pinv round6 (lik : list nat -> R) (nullss n dx dy dz : nat) (X Y Z : data) (runs : list ((nat -> nat) * (nat -> nat -> nat -> R))) : option (R * R) :=
  fast_p round6 nullss (map (fun r => on_blocks (block_c eigh order eigv median pinv nullss n dx dy dz X Y Z) lik 6 nullss n (fst r) (snd r)) runs).
Definition fast_u eigv median round6 (lik : list nat -> R) (nullss n dx dy : nat) (X Y : data) (runs : list ((nat -> nat) * (nat -> nat -> nat -> R))) : option (R * R) :=
  fast_p round6 nullss (map (fun r => on_blocks (block_u eigv median nullss dx dy X Y) lik 0 nullss n (fst r) (snd r)) runs).
