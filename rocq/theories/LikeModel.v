(** The objective of CALM: causallearn/search/ScoreBased/CALM.py:178-210 over the real numbers (floating point is not modelled). *)
From Verif Require Import Base GraphModel BICModel EffectModel VARModel DLModel CALMModel.
From Coq Require Import Reals.
Local Open Scope R_scope.

(** torch.linalg.slogdet(A)[1] is ln |det A|; the determinant is defined here as the sum over all permutations of 0..d-1
    (as lists of images) of the sign (the parity of the number of inversions) times the product. *)
Fixpoint insertions (x : nat) (l : list nat) : list (list nat) :=
  match l with [] => [[x]] | y :: r => (x :: l) :: map (cons y) (insertions x r) end.
Fixpoint perms (l : list nat) : list (list nat) := match l with [] => [[]] | x :: r => flat_map (insertions x) (perms r) end.
Fixpoint inversions (l : list nat) : nat := match l with [] => 0%nat | x :: r => (length (filter (fun y => Nat.ltb y x) r) + inversions r)%nat end.
Definition rprod {A} (f : A -> R) (l : list A) : R := fold_right (fun x a => f x * a) 1 l.
Definition det (d : nat) (M : rmat) : R :=
  rsum (fun p => (-1) ^ inversions p * rprod (fun i => M i (nth i p 0%nat)) (seq 0 d)) (perms (seq 0 d)).

(** CALM.py:69 np.cov(X.T, bias=True), n rows; [X s i] is row s of column i. *)
Definition cov_bias (n : nat) (X : rmat) : rmat :=
  fun i k => mean n (fun s => (X s i - mean n (fun s => X s i)) * (X s k - mean n (fun s => X s k))).
(** CALM.py:178-185 compute_likelihood: the diagonal of (I - B)^T cov (I - B), its logarithms, and slogdet. *)
Definition residuals (d : nat) (B cov : rmat) (j : nat) : R :=
  rsum (fun k => rsum (fun i => eye_minus B i j * cov i k) (seq 0 d) * eye_minus B k j) (seq 0 d).
Definition likelihood (d : nat) (B cov : rmat) : R :=
  1 / 2 * rsum (fun j => ln (residuals d B cov j)) (seq 0 d) - ln (Rabs (det d (eye_minus B))).
(** CALM.py:187-191 compute_sparsity; 200-210 compute_loss, given the sampled mask. *)
Definition sparsity (d : nat) (M : rmat) : R := rsum (fun i => rsum (M i) (seq 0 d)) (seq 0 d).
Definition loss (d : nat) (lambda1 rho : R) (cov M P : rmat) : R :=
  likelihood d (fun i j => M i j * P i j) cov + lambda1 * sparsity d M + 1 / 2 * rho * compute_h d M ^ 2.
(** CALM.py:61-66: with standardize, X is centred and divided by its standard deviation (np.std, no correction), else only centred. *)
Definition prepared (standardize : bool) (n : nat) (X : rmat) : rmat :=
  fun s i => let c := X s i - mean n (fun s => X s i) in if standardize then c / sqrt (var n (fun s => X s i)) else c.
