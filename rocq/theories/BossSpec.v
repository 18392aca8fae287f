(** What permutation search promises, independently of how it searches. *)
From Verif Require Import Base.
From Coq Require Import Permutation.
Local Open Scope Z_scope.

(** x stands before y in the order. *)
Definition precedes (order : list nat) (x y : nat) : Prop := exists l1 l2 l3, order = l1 ++ x :: l2 ++ y :: l3.
(** random.shuffle, whatever it draws. *)
Definition shuffling (sh : nat -> list nat -> list nat) : Prop := forall k l, Permutation (sh k l) l.
(** The sum of the local scores [sc v P] (higher is better) of an order when [ch v before] are the parents given to v. *)
Definition order_total (sc : nat -> list nat -> Z) (ch : nat -> list nat -> list nat) (order : list nat) : Z :=
  fold_right Z.add 0 (map (fun k => sc (nth k order 0%nat) (ch (nth k order 0%nat) (firstn k order))) (seq 0 (length order))).
(** The ancestors of a variable when [pa] gives the parents, itself included. *)
Inductive ancestor (pa : nat -> list nat) : nat -> nat -> Prop :=
| anc_self : forall y, ancestor pa y y
| anc_parent : forall x z y, In x (pa z) -> ancestor pa z y -> ancestor pa x y.
