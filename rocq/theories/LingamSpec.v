(** Specification vocabulary for LiNGAM. *)
From Verif Require Import Base GraphSpec.
Local Open Scope Z_scope.

(** a stands before b in the list. *)
Definition before (l : list nat) (a b : nat) : Prop := exists l1 l2 l3, l = l1 ++ a :: l2 ++ b :: l3.
(** B[i, j] is the coefficient of x_j in the equation of x_i: a non-zero one is the arrow j --> i. *)
Definition arrow (B : mat) (j i : nat) : Prop := B i j <> 0.
(** What a prior-knowledge matrix says about the order (pk[i, j] is about paths from x_j to x_i): "a path from j to i", or "no path from j
    to i" while the opposite is not excluded as well. *)
Definition asks_before (pk : mat) (a b : nat) : Prop := pk b a = 1 \/ (pk a b = 0 /\ pk b a <> 0).
(** Some numbering of the variables is compatible with everything the knowledge says about the order. *)
Definition orderable (n : nat) (pk : mat) : Prop := exists r : nat -> nat, forall a b, (a < n)%nat -> (b < n)%nat -> asks_before pk a b -> (r a < r b)%nat.
