(** Specification vocabulary for the rest of the bootstrap. *)
From Verif Require Import Base BootSpec.
From Coq Require Import Permutation Sorted.
Local Open Scope Z_scope.

(** Twice the median of a non-empty list: the two middle values (the same one twice for an odd length) of the values in increasing order. *)
Definition twice_median (l : list Z) (m : Z) : Prop :=
  exists s, Permutation s l /\ StronglySorted Z.le s /\
    ((exists a x b, s = a ++ x :: b /\ length a = length b /\ m = x + x) \/ (exists a x y b, s = a ++ x :: y :: b /\ length a = length b /\ m = x + y)).
(** [a] comes before [b] in a list. *)
Definition before (l : list nat) (a b : nat) : Prop := exists l1 l2 l3, l = l1 ++ a :: l2 ++ b :: l3.
