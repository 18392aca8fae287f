(** The two measures of DirectLiNGAM over the real numbers: direct_lingam.py 62-99, 135-151, 195-263.  (LingamModel models the search for an arbitrary measure.)
    A column is a function of the sample, or None when numpy has put NaN into it (division by a zero variance).  Floating point is not modelled. *)
From Verif Require Import Base UtilsModel BICModel EffectModel LingamModel.
From Coq Require Import Reals.
Local Open Scope R_scope.

(** np.mean, np.var, and np.cov(x, y)[0, 1], which divides by n - 1. *)
Definition mean (n : nat) (x : rvec) : R := rsum x (seq 0 n) / INR n.
Definition var (n : nat) (x : rvec) : R := mean n (fun s => (x s - mean n x) ^ 2).
Definition cov1 (n : nat) (x y : rvec) : R := rsum (fun s => (x s - mean n x) * (y s - mean n y)) (seq 0 n) / (INR n - 1).
Definition column := option rvec.
(** 135-137 _residual *)
Definition residual (n : nat) (xi xj : column) : column :=
  match xi, xj with
  | Some x, Some y => if Req_EM_T (var n y) 0 then None else Some (fun s => x s - cov1 n x y / var n y * y s)
  | _, _ => None
  end.
(** 206-207: (x - mean) / std *)
Definition standardize (n : nat) (x : column) : column :=
  match x with Some x => if Req_EM_T (var n x) 0 then None else Some (fun s => (x s - mean n x) / sqrt (var n x)) | None => None end.
(** 150-151: r / std(r).  A constant other than 0 gives infinity, of which _entropy makes NaN (inf * exp(-inf)): None as well. *)
Definition over_std (n : nat) (r : column) : column :=
  match r with Some x => if Req_EM_T (var n x) 0 then None else Some (fun s => x s / sqrt (var n x)) | None => None end.
(** 139-146 _entropy *)
Definition k1 : R := 79047 / 1000.
Definition k2 : R := 74129 / 10000.
Definition gamma : R := 37457 / 100000.
Definition entropy_of (n : nat) (u : rvec) : R :=
  (1 + ln (2 * PI)) / 2 - k1 * (mean n (fun s => ln (cosh (u s))) - gamma) ^ 2 - k2 * (mean n (fun s => u s * exp (- (u s) ^ 2 / 2))) ^ 2.
Definition entropy (n : nat) (u : column) : option R := option_map (entropy_of n) u.
(** 148-151 _diff_mutual_info *)
Definition diff_mutual_info (n : nat) (xi_std xj_std ri_j rj_i : column) : option R :=
  match entropy n xj_std, entropy n (over_std n ri_j), entropy n xi_std, entropy n (over_std n rj_i) with
  | Some a, Some b, Some c, Some d => Some ((a + b) - (c + d))
  | _, _, _, _ => None
  end.
(** Sums in which a NaN stays. *)
Definition osum (l : list (option R)) : option R := fold_left (fun s x => match s, x with Some a, Some b => Some (a + b) | _, _ => None end) l (Some 0).
(** 202-214: the entry of M_list for candidate i. *)
Definition pw_term (n : nat) (X : nat -> column) (Uc Vj : list nat) (i j : nat) : option R :=
  let xi_std := standardize n (X i) in
  let xj_std := standardize n (X j) in
  let ri_j := if memb i Vj && memb j Uc then xi_std else residual n xi_std xj_std in
  let rj_i := if memb j Vj && memb i Uc then xj_std else residual n xj_std xi_std in
  option_map (fun d => (Rmin 0 d) ^ 2) (diff_mutual_info n xi_std xj_std ri_j rj_i).
Definition pw_score (n : nat) (X : nat -> column) (U Uc Vj : list nat) (i : nat) : option R :=
  option_map (fun M => -1 * M) (osum (map (pw_term n X Uc Vj i) (others U i))).
(** 217-239 _mutual_information; [lsv] gives np.sum(np.log(np.linalg.svd(M, compute_uv=False))) for a matrix of the given size. *)
Section Kernel.
Variable lsv : nat -> rmat -> R.
Definition rbf (sigma : R) (x : rvec) : rmat := fun s t => exp (-1 / (2 * sigma ^ 2) * (x t ^ 2 + x s ^ 2 - 2 * x t * x s)).
Definition mm (n : nat) (A B : rmat) : rmat := fun i j => rsum (fun k => A i k * B k j) (seq 0 n).
Definition ridged (n : nat) (kappa : R) (K : rmat) : rmat := fun i j => K i j + (if Nat.eqb i j then INR n * kappa / 2 else 0).
Definition block (n : nat) (A B C D : rmat) : rmat := fun i j =>
  if Nat.ltb i n then (if Nat.ltb j n then A i j else B i (j - n)%nat) else (if Nat.ltb j n then C (i - n)%nat j else D (i - n)%nat (j - n)%nat).
Definition mutual_information (n : nat) (kappa sigma : R) (x1 x2 : rvec) : R :=
  let K1 := rbf sigma x1 in let K2 := rbf sigma x2 in
  let t1 := ridged n kappa K1 in let t2 := ridged n kappa K2 in
  -1 / 2 * (lsv (2 * n) (block n (mm n t1 t1) (mm n K1 K2) (mm n K2 K1) (mm n t2 t2)) - lsv (2 * n) (block n (mm n t1 t1) (fun _ _ => 0) (fun _ _ => 0) (mm n t2 t2))).
(** 246-263: the negated entry of Tkernels for candidate j (argmin is argmax of the negation). *)
Definition kernel_term (n : nat) (X : nat -> column) (Uc Vj : list nat) (j i : nat) : option R :=
  let '(kappa, sigma) := if Nat.ltb 1000 n then (2 / 1000, 5 / 10) else (2 / 100, 1) in
  let ri_j := if memb j Vj && memb i Uc then X i else residual n (X i) (X j) in
  match X j, ri_j with Some xj, Some r => Some (mutual_information n kappa sigma xj r) | _, _ => None end.
Definition kernel_score (n : nat) (X : nat -> column) (U Uc Vj : list nat) (j : nat) : option R :=
  option_map (fun T => - T) (osum (map (kernel_term n X Uc Vj j) (others U j))).
End Kernel.
(** sklearn.preprocessing.scale, 82-83: constant columns are only centered. *)
Definition scale (n : nat) (x : column) : column :=
  match x with Some x => Some (fun s => (x s - mean n x) / (if Req_EM_T (var n x) 0 then 1 else sqrt (var n x))) | None => None end.
(** np.argmax: the first NaN, else the first greatest. *)
Definition rbeats (x y : option R) : bool := match y, x with None, _ => false | Some _, None => true | Some b, Some a => if Rlt_dec b a then true else false end.
Fixpoint rargmax_from (best : option R) (bi i : nat) (l : list (option R)) : nat :=
  match l with [] => bi | x :: r => if rbeats x best then rargmax_from x i (S i) r else rargmax_from best bi (S i) r end.
Definition rargmax (l : list (option R)) : nat := match l with [] => 0%nat | x :: r => rargmax_from x 0 1 r end.
(** 195-215, 241-263 *)
Definition measure := (nat -> column) -> list nat -> list nat -> list nat -> nat -> option R.
Definition search_order (m : measure) (d : dlingam) (X : nat -> column) (U : list nat) : option nat :=
  let (Uc, Vj) := search_candidate d U in
  match Uc with
  | [] => None
  | [i] => Some i
  | _ => Some (nth (rargmax (map (m X U Uc Vj) Uc)) Uc 0%nat)
  end.
(** 91-93 *)
Definition regress_out (n : nat) (X : nat -> column) (U : list nat) (m : nat) : nat -> column := fun i => if memb i U && negb (Nat.eqb i m) then residual n (X i) (X m) else X i.
(** 85-99 *)
Fixpoint fit_loop (steps n : nat) (ms : measure) (d : dlingam) (X : nat -> column) (K U : list nat) : option (list nat * dlingam) :=
  match steps with
  | O => Some (K, d)
  | S s =>
      match search_order ms d X U with
      | None => None
      | Some m => fit_loop s n ms (drop_orders d m) (regress_out n X U m) (K ++ [m]) (others U m)
      end
  end.
(** 76-99: the causal order found for p variables. *)
Inductive measure_kind := Pwling | KernelMeasure.
Definition fit_order (lsv : nat -> rmat -> R) (kind : measure_kind) (n p : nat) (d : dlingam) (X : nat -> rvec) : option (list nat * dlingam) :=
  let X_ := fun i => Some (X i) in
  match kind with
  | Pwling => fit_loop p n (pw_score n) d X_ [] (seq 0 p)
  | KernelMeasure => fit_loop p n (kernel_score lsv n) d (fun i => scale n (X_ i)) [] (seq 0 p)
  end.
(** 76-93 when X holds integers: check_array keeps the type, so the assignment into X_ cuts the residual off towards zero.  (NaN stays NaN here; numpy makes some integer of it and warns.  The kernel measure
    works on the floats that scale returns, so only the pairwise one is concerned.) *)
Definition truncate (r : R) : R := if Rle_dec 0 r then IZR (Int_part r) else - IZR (Int_part (- r)).
Definition regress_out_int (n : nat) (X : nat -> column) (U : list nat) (m : nat) : nat -> column := fun i =>
  if memb i U && negb (Nat.eqb i m) then option_map (fun x s => truncate (x s)) (residual n (X i) (X m)) else X i.
