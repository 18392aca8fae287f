(** utils/cit.py: the chi-square and G-square tests (class Chisq_or_Gsq).  Counts are natural numbers, the statistic is a real
    number.  The 64-bit overflow of np.prod / np.dot and floating point rounding are not modelled. *)
From Verif Require Import Base BICModel.
From Coq Require Import Reals.

(** np.unique(l): the distinct values of [l] in increasing order ([ltb]: the order of the values). *)
Fixpoint uinsert {A} (ltb : A -> A -> bool) (x : A) (l : list A) : list A :=
  match l with [] => [x] | y :: r => if ltb x y then x :: l else if ltb y x then y :: uinsert ltb x r else l end.
Definition np_unique {A} (ltb : A -> A -> bool) (l : list A) : list A := fold_right (uinsert ltb) [] l.
(** np.unique(.., return_inverse=True)[1], for one value: its position in the list of distinct values. *)
Fixpoint position {A} (eqb : A -> A -> bool) (x : A) (l : list A) : nat :=
  match l with [] => 0 | y :: r => if eqb x y then 0 else S (position eqb x r) end.

(** cit.py:295-303 __init__: every column is replaced by the positions of its values; [rows] are the rows of the data set. *)
Definition column (k : nat) (rows : list (list Z)) : list Z := map (fun r => nth k r 0%Z) rows.
Definition recode (rows : list (list Z)) (k : nat) (r : list Z) : nat := position Z.eqb (nth k r 0%Z) (np_unique Z.ltb (column k rows)).
(** np.max(self.data, axis=0) + 1 *)
Definition cardinality (rows : list (list Z)) (k : nat) : nat := S (list_max (map (recode rows k) rows)).

(** np.bincount(l, minlength=m) *)
Definition bincount (l : list nat) (m : nat) : list nat :=
  map (count_occ Nat.eq_dec l) (seq 0 (Nat.max m (match l with [] => 0 | _ => S (list_max l) end))).
Definition prod (l : list nat) : nat := fold_right Nat.mul 1 l.
(** One layer of a count table: row i, column j. *)
Definition layer := nat -> nat -> nat.
(** [.reshape((k, m, n))]: ValueError unless the length fits. *)
Definition reshape (k m n : nat) (l : list nat) : res (list layer) :=
  if Nat.eqb (length l) (k * m * n) then Ok (map (fun w i j => nth (w * (m * n) + i * n + j) l 0) (seq 0 k)) else Raise.
Definition nsum (f : nat -> nat) (n : nat) : nat := fold_right Nat.add 0 (map f (seq 0 n)).
(** A layer with its marginal counts: joint, total, by row, by column. *)
Record table := { t_joint : layer; t_total : nat; t_row : nat -> nat; t_col : nat -> nat }.

(** A sample is (values of S, value of x, value of y). *)
Definition sample := (list nat * nat * nat)%type.
(** cit.py:333-339 _Fill2DCountTable; the total is dataSXY.shape[1] (cit.py:429). *)
Definition fill2D (d : list sample) (m n : nat) : res (list table) :=
  match reshape 1 m n (bincount (map (fun s : sample => snd (fst s) * n + snd s) d) (m * n)) with
  | Ok ls => Ok (map (fun l => {| t_joint := l; t_total := length d; t_row := fun i => nsum (l i) n; t_col := fun j => nsum (fun i => l i j) m |}) ls)
  | Raise => Raise
  end.
(** cardCumProd[i] = the product of the cardinalities after i; np.dot(cardCumProd, values). *)
Fixpoint radix (cards vals : list nat) : nat :=
  match cards, vals with _ :: cs, v :: vs => v * prod cs + radix cs vs | _, _ => 0 end.
(** cit.py:341-357 _Fill3DCountTableByBincount *)
Definition fill3D_bincount (d : list sample) (cs : list nat) (m n : nat) : res (list table) :=
  match reshape (prod cs) m n (bincount (map (fun s : sample => radix (cs ++ [m; n]) (fst (fst s) ++ [snd (fst s); snd s])) d) (prod cs * m * n)) with
  | Ok ls =>
      Ok (map (fun l => {| t_joint := l; t_total := nsum (fun i => nsum (l i) n) m; t_row := fun i => nsum (l i) n; t_col := fun j => nsum (fun i => l i j) m |})
           (filter (fun l => negb (Nat.eqb (nsum (fun i => nsum (l i) n) m) 0)) ls))
  | Raise => Raise
  end.
(** cit.py:359-386 _Fill3DCountTableByUnique *)
Definition fill3D_unique (d : list sample) (cs : list nat) (m n : nat) : res (list table) :=
  let sidx := map (fun s : sample => radix cs (fst (fst s))) d in
  let uniq := np_unique Nat.ltb sidx in
  match reshape (length uniq) m n
          (bincount (map (fun s : sample => position Nat.eqb (radix cs (fst (fst s))) uniq * m * n + snd (fst s) * n + snd s) d) (length uniq * m * n)) with
  | Ok ls =>
      Ok (map (fun lt => {| t_joint := fst lt; t_total := snd lt; t_row := fun i => nsum (fst lt i) n; t_col := fun j => nsum (fun i => fst lt i j) m |})
           (combine ls (map (count_occ Nat.eq_dec sidx) uniq)))
  | Raise => Raise
  end.

(** cit.py:394-426 _CalculatePValue.  An expected count row * col / total is zero exactly when row * col is, as totals are
    positive; [sf] stands for chi2.sf. *)
Definition ezero (t : table) (i j : nat) : bool := Nat.eqb (t_row t i * t_col t j) 0.
Definition expected (t : table) (i j : nat) : R := (INR (t_row t i) * INR (t_col t j) / INR (t_total t))%R.
Definition cell (gsq : bool) (t : table) (i j : nat) : R :=
  let c := INR (t_joint t i j) in
  let e1 := if ezero t i j then 1%R else expected t i j in
  if gsq then
    (* div = c / e1; div[div == 0] = 1; the factor 2 is outside the sum *)
    let div := if Nat.eqb (t_joint t i j) 0 then 1%R else (c / e1)%R in (2 * (c * ln div))%R
  else ((c - expected t i j) * (c - expected t i j) / e1)%R.
Definition statistic (gsq : bool) (m n : nat) (ts : list table) : R :=
  rsum (fun t => rsum (fun i => rsum (fun j => cell gsq t i j) (seq 0 n)) (seq 0 m)) ts.
Definition zero_rows (m n : nat) (t : table) : nat := length (filter (fun i => forallb (fun j => ezero t i j) (seq 0 n)) (seq 0 m)).
Definition zero_cols (m n : nat) (t : table) : nat := length (filter (fun j => forallb (fun i => ezero t i j) (seq 0 m)) (seq 0 n)).
Definition degrees (m n : nat) (ts : list table) : Z :=
  fold_right Z.add 0%Z (map (fun t => ((Z.of_nat m - 1 - Z.of_nat (zero_rows m n t)) * (Z.of_nat n - 1 - Z.of_nat (zero_cols m n t)))%Z) ts).
Definition p_value (sf : R -> Z -> R) (gsq : bool) (m n : nat) (ts : list table) : R :=
  if Z.eqb (degrees m n ts) 0 then 1%R else sf (statistic gsq m n ts) (degrees m n ts).

(** cit.py:388-392 _Fill3DCountTable and 428-436; [threshold] is CONST_BINCOUNT_UNIQUE_THRESHOLD. *)
Definition chisq_or_gsq_test (sf : R -> Z -> R) (threshold : nat) (gsq : bool) (d : list sample) (cs : list nat) (m n : nat) : res R :=
  let p := fun r => match r with Ok ts => Ok (p_value sf gsq m n ts) | Raise => Raise end in
  match cs with
  | [] => p (fill2D d m n)
  | _ => if Nat.ltb 0 (prod (cs ++ [m; n])) && Nat.ltb (prod (cs ++ [m; n])) threshold then p (fill3D_bincount d cs m n) else p (fill3D_unique d cs m n)
  end.
(** cit.py:438-445 __call__ without the cache: x, y and the conditioning set [S] are column indices. *)
Definition chisq_call (sf : R -> Z -> R) (threshold : nat) (gsq : bool) (rows : list (list Z)) (x y : nat) (S : list nat) : res R :=
  chisq_or_gsq_test sf threshold gsq (map (fun r => (map (fun k => recode rows k r) S, recode rows x r, recode rows y r)) rows)
    (map (cardinality rows) S) (cardinality rows x) (cardinality rows y).
