(** Model of causallearn/utils/MarkovNetwork/iamb.py (IAMB Markov blanket search and Markov network).
    p-values are represented by integers: the code only compares them with each other and with alpha.
    [pv t x S] is [cond_indep_test(t, x, S)], a function of its arguments. *)
From Verif Require Import Base UtilsModel.
From Coq Require Import List ZArith Bool Arith.
Import ListNotations.

Section Iamb.
Variable pv : nat -> nat -> list nat -> Z.
Variable alpha : Z.
(** the number of variables, iamb.py:24 [d] *)
Variable d : nat.

(** iamb.py:35: [i for i in range(d) if i != target and i not in markov_blanket] *)
Definition candidates (t : nat) (mb : list nat) : list nat :=
  filter (fun i => negb (Nat.eqb i t) && negb (memb i mb)) (seq 0 d).

(** iamb.py:36-43, one pass of the for loop.  The pair (min_pval, y) starts as (inf, None): modelled as [None]. *)
Definition best_step (t : nat) (mb : list nat) (best : option (Z * nat)) (x : nat) : option (Z * nat) :=
  let p := pv t x mb in
  if (p <=? alpha)%Z then
    match best with
    | None => Some (p, x)
    | Some (m, y) => if (p <? m)%Z then Some (p, x) else Some (m, y)
    end
  else best.

(** iamb.py:33-43: the variable [y] selected in one round *)
Definition best_candidate (t : nat) (mb : list nat) : option nat :=
  match fold_left (best_step t mb) (candidates t mb) None with
  | None => None
  | Some (_, y) => Some y
  end.

(** iamb.py:29-48, the forward while loop, with the count of tests made (num_ci) *)
Fixpoint forward (fuel : nat) (t : nat) (mb : list nat) (num : nat) : outcome (list nat * nat) :=
  match fuel with
  | O => Running
  | S k =>
      let num' := num + length (candidates t mb) in
      match best_candidate t mb with
      | None => Ret (mb, num')
      | Some y => forward k t (mb ++ [y]) num'
      end
  end.

(** Python's list.remove: drops the first occurrence *)
Fixpoint list_remove (x : nat) (l : list nat) : list nat :=
  match l with
  | [] => []
  | y :: r => if Nat.eqb y x then r else y :: list_remove x r
  end.

(** iamb.py:53-58: the body of the backward loop *)
Definition backward_step (t : nat) (mb : list nat) (x : nat) : list nat :=
  let cond := filter (fun i => negb (Nat.eqb i x)) mb in
  if (pv t x cond >? alpha)%Z then list_remove x mb else mb.

(** iamb.py:51-58, the backward loop over a copy of the list *)
Definition backward (t : nat) (mb : list nat) : list nat := fold_left (backward_step t) mb mb.

(** iamb.py:24-60 iamb.  The returned list(set(..)) has an arbitrary order and is modelled by the list before that conversion;
    its only use (iamb.py:14-15) is as a set of indices. *)
Definition iamb (fuel : nat) (t : nat) : outcome (list nat * nat) :=
  match forward fuel t [] 0 with
  | Ret (mb, num) => Ret (backward t mb, num + length mb)
  | Running => Running
  | Failed => Failed
  end.

(** iamb.py:13-15: a variable's blanket written into its row and its column of markov_network_raw *)
Definition write_blanket (m : nat -> nat -> bool) (i : nat) (mb : list nat) : nat -> nat -> bool :=
  fun a b => m a b || (Nat.eqb a i && memb b mb) || (Nat.eqb b i && memb a mb).

(** iamb.py:10-15: the loop over all variables *)
Fixpoint network_raw (fuel : nat) (ts : list nat) (m : nat -> nat -> bool) (num : nat) : outcome ((nat -> nat -> bool) * nat) :=
  match ts with
  | [] => Ret (m, num)
  | i :: r =>
      match iamb fuel i with
      | Ret (mb, k) => network_raw fuel r (write_blanket m i mb) (num + k)
      | Running => Running
      | Failed => Failed
      end
  end.

(** iamb.py:4-21 iamb_markov_network, the test being an argument instead of CIT(X, 'fisherz') *)
Definition iamb_markov_network (fuel : nat) : outcome ((nat -> nat -> bool) * nat) :=
  match network_raw fuel (seq 0 d) (fun _ _ => false) 0 with
  | Ret (m, num) => Ret (fun a b => m a b && m b a, num)
  | Running => Running
  | Failed => Failed
  end.
End Iamb.
