(** What exact search should return, independently of how it searches. *)
From Verif Require Import Base GraphSpec.
From Coq Require Import Permutation.
Local Open Scope Z_scope.

Section Spec.
(** [bic i P]: the local score (lower is better) of variable i with parents P; [d] variables; [sup p i]: p may be a parent of i;
    [inc p i]: p must be a parent of i; at most [maxp] parents. *)
Variable bic : nat -> list nat -> Z.
Variable d maxp : nat.
Variable sup inc : nat -> nat -> bool.

Definition allowed (i : nat) (P : list nat) : Prop :=
  NoDup P /\ (forall p, In p P -> (p < d)%nat /\ sup p i = true) /\
  (forall p, (p < d)%nat -> inc p i = true -> In p P) /\ (length P <= maxp)%nat.
(** A DAG, given by the parents of every variable, that satisfies the constraints. *)
Definition network (pa : nat -> list nat) : Prop :=
  acyclic (fun p i => (i < d)%nat /\ In p (pa i)) /\ forall i, (i < d)%nat -> allowed i (pa i).
Definition total (pa : nat -> list nat) : Z := fold_right Z.add 0 (map (fun i => bic i (pa i)) (seq 0 d)).
Definition optimal (pa : nat -> list nat) : Prop := network pa /\ forall pa', network pa' -> total pa <= total pa'.
(** The adjacency matrix of a network: entry [p][i] is 1 if p is a parent of i, else 0. *)
Definition matrix_of (pa : nat -> list nat) (m : nat -> nat -> Z) : Prop :=
  forall p i, (i < d)%nat -> m p i = 1 /\ In p (pa i) \/ m p i = 0 /\ ~ In p (pa i).
End Spec.

(** The score of a parent set does not depend on the order in which the parents are listed. *)
Definition set_score (bic : nat -> list nat -> Z) : Prop := forall i P P', Permutation P P' -> bic i P = bic i P'.
