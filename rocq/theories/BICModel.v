(** LocalScoreFunction.py: the Gaussian BIC score computed from a covariance matrix, over the real numbers. *)
From Verif Require Import Base.
From Coq Require Import Reals.
Local Open Scope R_scope.

Definition rsum {A} (f : A -> R) (l : list A) : R := fold_right Rplus 0 (map f l).

(** np.linalg.inv by contract: [M] inverts the submatrix of [cov] with the rows and columns [P].  Simplification: the entries
    of the inverse are addressed by the nodes of [P] instead of their positions in [P] (the nodes of [P] are distinct). *)
Definition inverts (cov : nat -> nat -> R) (P : list nat) (M : nat -> nat -> R) : Prop :=
  forall a c, In a P -> In c P -> rsum (fun b => cov a b * M b c) P = if Nat.eqb a c then 1 else 0.

(** LocalScoreFunction.py:47-74 local_score_BIC_from_cov (and 9-44 local_score_BIC, which computes [cov] first); [inv] stands
    for np.linalg.inv, [n] is the number of instances. *)
Definition residual (cov : nat -> nat -> R) (inv : list nat -> nat -> nat -> R) (i : nat) (PAi : list nat) : R :=
  cov i i - rsum (fun a => rsum (fun b => cov i a * inv PAi a b * cov i b) PAi) PAi.
Definition local_score_BIC (cov : nat -> nat -> R) (inv : list nat -> nat -> nat -> R) (n lambda : R) (i : nat) (PAi : list nat) : R :=
  match PAi with
  | [] => n * ln (cov i i)
  | _ => n * ln (residual cov inv i PAi) + ln n * INR (length PAi) * lambda
  end.
