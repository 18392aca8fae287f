(** LocalScoreFunction.py: the BDeu score of discrete data. *)
From Verif Require Import Base.
Local Open Scope Z_scope.

(** The values of a row of the data in the given columns (the key of a pandas group). *)
Definition config (P : list nat) (row : list nat) : list nat := map (fun c => nth c row 0%nat) P.
Definition cfg_dec : forall x y : list nat, {x = y} + {x <> y} := list_eq_dec Nat.eq_dec.
Definition cfg_eqb (x y : list nat) : bool := if cfg_dec x y then true else false.
(** LocalScoreFunction.py:99-101: r_i_map of the default parameters: the number of distinct values of a column. *)
Definition distinct_values (rows : list (list nat)) (i : nat) : nat := length (nodup Nat.eq_dec (map (fun row => nth i row 0%nat) rows)).
(** LocalScoreFunction.py:107-110: q_i *)
Definition q_of (r : nat -> nat) (P : list nat) : nat := fold_left (fun q p => q * r p)%nat P 1%nat.
(** LocalScoreFunction.py:112-149: the groups ij, here the list of their keys; no parents give one group of all rows.
    Simplification: pandas sorts the keys; here they are in order of last occurrence. *)
Definition group_keys (rows : list (list nat)) (P : list nat) : list (list nat) :=
  match P with [] => [[]] | _ => nodup cfg_dec (map (config P) rows) end.
Definition group (rows : list (list nat)) (P : list nat) (ij : list nat) : list (list nat) :=
  filter (fun row => cfg_eqb (config P row) ij) rows.
(** LocalScoreFunction.py:160-177.  [lg m q] stands for math.lgamma(m + sample_prior / q); it is an arbitrary function here. *)
Definition bdeu_group (lg : nat -> nat -> Z) (ri q i : nat) (g : list (list nat)) : Z :=
  let first_term := lg 0%nat q - lg (length g) q in
  let second_term := fold_left (fun s k =>
      s + (lg (length (filter (fun row => Nat.eqb (nth i row 0%nat) k) g)) (ri * q)%nat - lg 0%nat (ri * q)%nat))
    (nodup Nat.eq_dec (map (fun row => nth i row 0%nat) g)) 0 in
  first_term + second_term.
(** LocalScoreFunction.py:77-179 local_score_BDeu.  [la] and [lb] stand for log(structure_prior / vm) and
    log(1 - structure_prior / vm).  Exact integers instead of floats. *)
Definition local_score_BDeu (lg : nat -> nat -> Z) (la lb : Z) (r : nat -> nat) (rows : list (list nat)) (i : nat) (PAi : list nat) : Z :=
  let q := q_of r PAi in
  let vm := Z.of_nat (length rows) - 1 in
  let len := Z.of_nat (length PAi) in
  let score0 := len * la + (vm - len) * lb in
  - fold_left (fun s ij => s + bdeu_group lg (r i) q i (group rows PAi ij)) (group_keys rows PAi) score0.
