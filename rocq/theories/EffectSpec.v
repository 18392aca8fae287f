(** Specification vocabulary for interventions in a linear model x = B x + noise. *)
From Verif Require Import Base BICModel EffectModel LingamSpec BootSpec.
From Coq Require Import Permutation Reals.
Local Open Scope R_scope.

(** An order of the n variables in which causes come first. *)
Definition follows (n : nat) (B : rmat) (order : list nat) : Prop :=
  Permutation order (seq 0 n) /\ forall i j, (i < n)%nat -> (j < n)%nat -> B i j <> 0 -> before order j i.
(** The matrix can be brought into strictly lower triangular form. *)
Definition triangular (n : nat) (B : rmat) : Prop := exists r : nat -> nat, forall i j, (i < n)%nat -> (j < n)%nat -> B i j <> 0 -> (r j < r i)%nat.
(** Every coefficient is zero or not smaller than the tolerance. *)
Definition sharp (tol : R) (n : nat) (B : rmat) : Prop := 0 < tol /\ forall i j, (i < n)%nat -> (j < n)%nat -> B i j = 0 \/ tol <= Rabs (B i j).
(** e are the expectations when variable k is set to v: every other variable obeys its equation. *)
Definition intervened (n : nat) (B : rmat) (En : rvec) (k : nat) (v : R) (e : rvec) : Prop :=
  forall i, (i < n)%nat -> e i = if Nat.eqb i k then v else rsum (fun j => B i j * e j) (seq 0 n) + En i.
(** a has a direct effect on b. *)
Definition causes (n : nat) (B : rmat) (a b : nat) : Prop := (a < n)%nat /\ (b < n)%nat /\ B b a <> 0.
Fixpoint path_weight (B : rmat) (p : list nat) : R := match p with a :: (b :: _) as q => B b a * path_weight B q | _ => 1 end.
(** The total effect: the sum over all directed paths of the products of their coefficients. *)
Definition total_effect (n : nat) (B : rmat) (a b : nat) (t : R) : Prop :=
  exists ps, NoDup ps /\ (forall p, In p ps <-> path_from (causes n B) a b p) /\ t = rsum (path_weight B) ps.
