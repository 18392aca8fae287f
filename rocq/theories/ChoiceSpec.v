(** What a sequence of combinations is. *)
From Verif Require Import Base.
From Coq Require Import Sorted.
Local Open Scope Z_scope.

(** A b-element subset of {0,...,a-1}, written in increasing order. *)
Definition combination (a b : nat) (c : list Z) : Prop :=
  length c = b /\ StronglySorted Z.lt c /\ forall x, In x c -> 0 <= x < Z.of_nat a.

(** Lexicographic order. *)
Fixpoint lexlt (c d : list Z) : Prop :=
  match c, d with
  | x :: c', y :: d' => x < y \/ (x = y /\ lexlt c' d')
  | _, _ => False
  end.

(** Shorter first, then lexicographic. *)
Definition shortlex (c d : list Z) : Prop := (length c < length d)%nat \/ (length c = length d /\ lexlt c d).
