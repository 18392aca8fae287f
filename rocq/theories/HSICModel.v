(** Model of causallearn/search/FCMBased/lingam/hsic.py and hsic2.py (CAMUV.py:211-366 is a copy of hsic2.py), and of the objective of
    causallearn/search/FCMBased/lingam/rcd.py:157-186, over the real numbers (floating point is not modelled).
    A data set is X s c: sample s, column c (KCIModel.data); NaN is [None]. *)
From Verif Require Import Base UtilsModel BICModel EffectModel VARModel KCIModel.
From Coq Require Import Reals.
Local Open Scope R_scope.

(** numpy.median of a non-empty array: the middle element of the sorted values, or the mean of the two middle ones. *)
Fixpoint rins (x : R) (l : list R) : list R := match l with [] => [x] | y :: r => if Rle_dec x y then x :: l else y :: rins x r end.
Definition rsort (l : list R) : list R := fold_right rins [] l.
Definition rmedian (l : list R) : R :=
  let s := rsort l in let m := Nat.div2 (length l) in
  if Nat.even (length l) then (nth (m - 1) s 0 + nth m s 0) / 2 else nth m s 0.
(** G + G.T - 2 X X.T: hsic.py:38-39, 65-66; hsic2.py:12-16, 67-73. *)
Definition dists (d : nat) (X : data) : rmat := fun a b => rdot d (X a) (X a) + rdot d (X b) (X b) - 2 * rdot d (X a) (X b).
(** hsic.py:40-43 and hsic2.py:17-20, on m samples: the lower triangle is subtracted from the distances and the positive entries are kept;
    numpy.median of no entry is NaN. *)
Definition upper_dists (m d : nat) (X : data) : list R :=
  filter (fun r => if Rlt_dec 0 r then true else false)
         (flat_map (fun a => map (fun b => dists d X a b - (if Nat.leb b a then dists d X a b else 0)) (seq 0 m)) (seq 0 m)).
Definition width_of (m d : nat) (X : data) : option R :=
  match upper_dists m d X with [] => None | l => Some (sqrt (1 / 2 * rmedian l)) end.
(** hsic.py:15-43 get_kernel_width: only the first 100 samples.  hsic2.py:7-22 get_width: all samples. *)
Definition get_kernel_width (n d : nat) (X : data) : option R := width_of (if Nat.ltb 100 n then 100 else n) d X.
Definition get_width (n d : nat) (X : data) : option R := width_of n d X.
(** hsic2.py:30-45 get_mean_width (used by nothing) *)
Definition get_mean_width (n d : nat) (X : data) : option R :=
  match upper_dists n d X with [] => None | l => Some (sqrt (1 / 2 * (rsum (fun x => x) l / INR (length l)))) end.
(** hsic.py:63-67 _rbf_dot_XX; hsic2.py:62-77 rbf_dot.  With the width 0 the entries of the diagonal are 0 / 0: NaN. *)
Definition rbf (d : nat) (X : data) (w : R) : rmat := fun a b => exp (- dists d X a b / 2 / w ^ 2).
(** hsic.py:88-96 get_gram_matrix: the centered matrix. *)
Definition rowsum (n : nat) (K : rmat) (i : nat) : R := rsum (fun j => K i j) (seq 0 n).
Definition hcenter (n : nat) (K : rmat) : rmat := fun i j => K i j - (colsum n K j + rowsum n K i) / INR n + msum n K / INR n ^ 2.
(** hsic.py:99-116 hsic_teststat *)
Definition hsic_teststat (n : nat) (Kc Lc : rmat) : R := 1 / INR n * msum n (fun i j => Kc j i * Lc i j).
(** hsic.py:162-166: the variance under the null hypothesis *)
Definition hsic_var (n : nat) (Kc Lc : rmat) : R :=
  let v := fun i j => (1 / 6 * Kc i j * Lc i j) ^ 2 in
  let v1 := 1 / INR n / (INR n - 1) * (msum n v - mtrace n v) in
  72 * (INR n - 4) * (INR n - 5) / INR n / (INR n - 1) / (INR n - 2) / (INR n - 3) * v1.
(** hsic.py:168-173: the mean under the null hypothesis, from the matrices with a zero diagonal *)
Definition zero_diag (K : rmat) : rmat := fun i j => if Nat.eqb i j then 0 else K i j.
Definition hsic_mu (n : nat) (K : rmat) : R := 1 / INR n / (INR n - 1) * msum n (zero_diag K).
Definition hsic_mean (n : nat) (K L : rmat) : R := 1 / INR n * (1 + hsic_mu n K * hsic_mu n L - hsic_mu n K - hsic_mu n L).
(** 1 - scipy.stats.gamma.cdf(stat, alpha, scale=beta): NaN unless both parameters are numbers and positive; a 0 denominator gives an infinity or a NaN,
    and with them one of the parameters is 0 or NaN.  [cdf stat alpha beta] is the distribution function. *)
Definition gamma_sf (cdf : R -> R -> R -> R) (n : nat) (stat mean var : R) : option R :=
  if Req_EM_T var 0 then None else if Req_EM_T mean 0 then None else
  let alpha := mean ^ 2 / var in let beta := var * INR n / mean in
  if Rlt_dec 0 alpha then if Rlt_dec 0 beta then Some (1 - cdf stat alpha beta) else None else None.
(** hsic.py:119-178 hsic_test_gamma.  [Bw f]: bw_method 'scott' or 'silverman', with the function of statsmodels; [Mdbs]: any other value.
    The outer None is the ZeroDivisionError of lines 164-166 for fewer than 4 samples (Python numbers); otherwise the statistic and the p-value. *)
Inductive bandwidth := Mdbs | Bw (f : data -> R).
Definition width_by (bw : bandwidth) (n d : nat) (X : data) : option R := match bw with Mdbs => get_kernel_width n d X | Bw f => Some (f X) end.
Definition usable (w : option R) : option R := match w with Some x => if Req_EM_T x 0 then None else Some x | None => None end.
Definition hsic_test_gamma (cdf : R -> R -> R -> R) (bw : bandwidth) (n dx dy : nat) (X Y : data) : option (option R * option R) :=
  if Nat.ltb n 4 then None else
  match usable (width_by bw n dx X), usable (width_by bw n dy Y) with
  | Some wx, Some wy =>
    let K := rbf dx X wx in let Kc := hcenter n K in
    let L := rbf dy Y wy in let Lc := hcenter n L in
    let stat := hsic_teststat n Kc Lc in
    let var := hsic_var n Kc Lc in
    let mean := hsic_mean n K L in
    Some (Some stat, gamma_sf cdf n stat mean var)
  | _, _ => Some (None, None)
  end.

(** hsic2.py:80-89 get_K: the centered matrix is H K H. *)
Definition hmat (n : nat) : rmat := fun i j => eye i j - 1 / INR n.
Definition hkh (n : nat) (K : rmat) : rmat := mmul n (mmul n (hmat n) K) (hmat n).
(** hsic2.py:92-155 hsic_gam.  [kwdth]: KBw f is 'scott' or 'silverman', KFloat a float, KOther anything else.  A kernel and its centered matrix may be given.
    [ppf q alpha beta] is scipy.stats.gamma.ppf.  numpy numbers are divided, so no ZeroDivisionError: the p-value for fewer than 6 samples is NaN. *)
Inductive kwidth := KOther | KFloat (w : R) | KBw (f : data -> R).
Inductive hmode := MStat | MPvalue | MMinusThres | MDecision.
Inductive hanswer := Number (r : option R) | Decision (b : bool).
(** lines 96-110: the width, if one is needed *)
Definition gam_width (kw : kwidth) (w : option R) (KKc : option (rmat * rmat)) (n d : nat) (X : data) : option R :=
  match kw with
  | KBw f => Some (f X)
  | KFloat r => Some r
  | KOther => match w, KKc with None, None => get_width n d X | _, _ => w end
  end.
(** lines 115-121: the kernel and the centered kernel; NaN if the width is *)
Definition gam_kernel (kw : kwidth) (w : option R) (KKc : option (rmat * rmat)) (n d : nat) (X : data) : option (rmat * rmat) :=
  match KKc with
  | Some p => Some p
  | None => match usable (gam_width kw w KKc n d X) with Some v => Some (rbf d X v, hkh n (rbf d X v)) | None => None end
  end.
(** lines 123-153 *)
Definition gam_stat (n : nat) (Kc Lc : rmat) : R := msum n (fun i j => Kc j i * Lc i j) / INR n.
Definition gam_var (n : nat) (Kc Lc : rmat) : R :=
  let v := fun i j => (Kc i j * Lc i j / 6) ^ 2 in
  (msum n v - mtrace n v) / INR n / (INR n - 1) * 72 * (INR n - 4) * (INR n - 5) / INR n / (INR n - 1) / (INR n - 2) / (INR n - 3).
Definition gam_mu (n : nat) (K : rmat) : R := msum n (fun i j => K i j - (if Nat.eqb i j then K i j else 0)) / INR n / (INR n - 1).
Definition gam_mean (n : nat) (K L : rmat) : R := (1 + gam_mu n K * gam_mu n L - gam_mu n K - gam_mu n L) / INR n.
Definition gamma_ppf (ppf : R -> R -> R -> R) (n : nat) (q mean var : R) : option R :=
  if Req_EM_T var 0 then None else if Req_EM_T mean 0 then None else
  let alpha := mean ^ 2 / var in let beta := var * INR n / mean in
  if Rlt_dec 0 alpha then if Rlt_dec 0 beta then Some (ppf q alpha beta) else None else None.
Definition hsic_gam (cdf ppf : R -> R -> R -> R) (n dx dy : nat) (X Y : data) (alph : R) (wx wy : option R) (KKc LLc : option (rmat * rmat)) (mode : hmode) (kw : kwidth) : hanswer :=
  match gam_kernel kw wx KKc n dx X, gam_kernel kw wy LLc n dy Y with
  | Some (K, Kc), Some (L, Lc) =>
    let stat := gam_stat n Kc Lc in
    let small := Nat.ltb n 4 in
    let var := gam_var n Kc Lc in
    let mean := gam_mean n K L in
    match mode with
    | MStat => Number (Some stat)
    | MPvalue => Number (if small then None else gamma_sf cdf n stat mean var)
    | MMinusThres => Number (if small then None else option_map (fun t => stat - t) (gamma_ppf ppf n (1 - alph) mean var))
    | MDecision => Decision (if small then false else match gamma_ppf ppf n (1 - alph) mean var with Some t => if Rlt_dec stat t then true else false | None => false end)
    end
  | _, _ => match mode with MDecision => Decision false | _ => Number None end
  end.

(** rcd.py:172-186: the function minimised by _get_resid_and_coef_by_MLHSICR, for the residual of [yi] on the columns [ys] with the widths [ws]. *)
Definition col (y : rvec) : data := fun s _ => y s.
Definition mlhsicr (n : nat) (yi : rvec) (wi : R) (ys : list (rvec * R)) (coef : nat -> R) : R :=
  let resid := fun s => fold_left (fun r jy => r - coef (fst jy) * fst (snd jy) s) (combine (seq 0 (length ys)) ys) (yi s) in
  let width := fold_left (fun w jy => w - coef (fst jy) * snd (snd jy)) (combine (seq 0 (length ys)) ys) wi in
  let Kc := hcenter n (rbf 1 (col resid) width) in
  fold_left (fun o yw => o + hsic_teststat n Kc (hcenter n (rbf 1 (col (fst yw)) (snd yw)))) ys 0.
