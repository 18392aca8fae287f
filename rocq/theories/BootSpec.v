(** Specification vocabulary for the bootstrap results. *)
From Verif Require Import Base GraphSpec.
From Coq Require Import Permutation Sorted.
Local Open Scope Z_scope.

(** There is an arrow a --> b of absolute value above the threshold between two of the n variables. *)
Definition strong (n : nat) (B : mat) (thr : Z) (a b : nat) : Prop := (a < n)%nat /\ (b < n)%nat /\ thr < Z.abs (B b a).
(** A directed path from a to b. *)
Inductive path_from (R : nat -> nat -> Prop) : nat -> nat -> list nat -> Prop :=
| path_end : forall a, path_from R a a [a]
| path_step : forall a b c p, R a b -> path_from R b c p -> path_from R a c (a :: p).
(** The product of the coefficients along it. *)
Fixpoint product_along (B : mat) (p : list nat) : Z := match p with a :: (b :: _) as q => B b a * product_along B q | _ => 1 end.
(** What numpy.argsort promises. *)
Definition sorts (argsort : list Z -> list nat) : Prop := forall l, Permutation (argsort l) (seq 0 (length l)) /\ StronglySorted (fun a b => nth a l 0 <= nth b l 0) (argsort l).
(** In how many samples something holds. *)
Definition holds_in {A} (P : A -> bool) (samples : list A) : nat := length (filter P samples).
(** A list of pairs (thing, number): every thing once, in decreasing order of the number, which is [number]; the things left out are no more frequent. *)
Definition ranking {A} (number : A -> nat) (top : option nat) (l : list (A * nat)) : Prop :=
  NoDup (map fst l) /\ (forall k c, In (k, c) l -> c = number k /\ (0 < c)%nat) /\ StronglySorted (fun x y => snd y <= snd x)%nat l /\
  (forall k, (0 < number k)%nat -> ~ In k (map fst l) -> (exists t, top = Some t /\ length l = t) /\ forall x, In x l -> (number k <= snd x)%nat) /\
  (forall t, top = Some t -> (length l <= t)%nat).
