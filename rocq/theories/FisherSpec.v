(** What the Fisher-z tests should compute, independently of the model: least-squares residuals and partial correlations. *)
From Verif Require Import Base UtilsModel BICModel.
From Coq Require Import Reals.
Local Open Scope R_scope.

(** Inner product over the samples. *)
Definition ip (rows : list nat) (f g : nat -> R) : R := rsum (fun s => f s * g s) rows.
(** e is the residual of the least-squares regression (with intercept) of column x on the columns S: an affine combination with residual orthogonal to all. *)
Definition is_residual (rows : list nat) (D : nat -> nat -> R) (S : list nat) (x : nat) (e : nat -> R) : Prop :=
  (exists b c, forall s, In s rows -> e s = D s x - c - rsum (fun k => b k * D s k) S) /\
  rsum e rows = 0 /\ forall k, In k S -> ip rows e (fun s => D s k) = 0.
(** The correlation of two residuals: the partial correlation. *)
Definition pcorr (rows : list nat) (ex ey : nat -> R) : R := ip rows ex ey / sqrt (ip rows ex ex * ip rows ey ey).
Definition constant_in (rows : list nat) (D : nat -> nat -> R) (v : nat) : Prop := exists c, forall s, In s rows -> D s v = c.
(** Some nontrivial linear combination of the columns is constant. *)
Definition collinear (rows : list nat) (D : nat -> nat -> R) (var : list nat) : Prop :=
  exists u c, (exists v, In v var /\ u v <> 0) /\ forall s, In s rows -> rsum (fun v => u v * D s v) var = c.
(** Fisher's transformation and the two-sided p-value for m samples and k conditioning variables. *)
Definition fisher_p (Phi : R -> R) (m k : nat) (rho : R) : R := 2 * (1 - Phi (sqrt (INR (m - k - 3)) * Rabs (1 / 2 * ln ((1 + rho) / (1 - rho))))).
(** The standard normal distribution function, as far as needed. *)
Definition normal_cdf (Phi : R -> R) : Prop := Phi 0 = 1 / 2 /\ (forall s t, s < t -> Phi s < Phi t) /\ forall t, 0 <= Phi t <= 1.
