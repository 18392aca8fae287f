(** Model of causallearn/search/Granger/Granger.py.  p-values and the significance level are exact multiples of 10^-6 ([Z]); data values are of any
    type; statsmodels' test and the lasso are arguments. *)
From Verif Require Import Base.
Local Open Scope Z_scope.

(** round(p, 4): to the nearest multiple of 10^-4, ties to the even one (Granger.py:51). *)
Definition round4 (z : Z) : Z :=
  let q := z / 100 in let r := z mod 100 in
  100 * (if (r <? 50) || ((r =? 50) && Z.even q) then q else q + 1).

Section Granger.
Variable value : Type.
(** grangercausalitytests(data[:, [r, c]])[lag][0][test][1]: the p-value of "the second series does not cause the first" with the lags 1 .. lag. *)
Variable gtest : (nat -> value) -> (nat -> value) -> nat -> Z.
Definition table := nat -> nat -> Z.
Definition tset (P : table) (i j : nat) (v : Z) : table := fun a b => if (Nat.eqb a i && Nat.eqb b j)%bool then v else P a b.
(** Granger.py:27-53 granger_test_2d: the p-values (a matrix with dim rows and dim * maxlag columns) and the adjacencies.  [data t j] is row t, column j. *)
Definition granger_p (maxlag : nat) (data : nat -> nat -> value) : table :=
  fold_left (fun P c => fold_left (fun P r =>
      if Nat.eqb r c then P
      else fold_left (fun P i => tset P r (c + 2 * i)%nat (round4 (gtest (fun t => data t r) (fun t => data t c) (i + 1)%nat))) (seq 0 maxlag) P)
    (seq 0 2) P) (seq 0 2) (fun _ _ => 0).
Definition granger_adj (maxlag : nat) (level : Z) (data : nat -> nat -> value) : table :=
  fun r k => if granger_p maxlag data r k <? level then 1 else 0.

(** Granger.py:55-78 granger_lasso; the data are a list of rows, [None]: np.hstack of an empty list, or blocks of different heights (ValueError).
    The lasso gets the rows of X and the targets. *)
(** data[a : -k] for k > 0 *)
Definition pyslice (a k : nat) (data : list (list value)) : list (list value) := skipn a (firstn (length data - k) data).
Fixpoint hstack2 (A B : list (list value)) : list (list value) := match A, B with a :: A', b :: B' => (a ++ b) :: hstack2 A' B' | _, _ => [] end.
Definition hstack (blocks : list (list (list value))) : option (list (list value)) :=
  match blocks with
  | [] => None
  | B :: r => if forallb (fun C => Nat.eqb (length C) (length B)) r then Some (fold_left hstack2 r B) else None
  end.
Definition lagged (maxlag : nat) (data : list (list value)) : list (list (list value)) := map (fun k => pyslice (maxlag - k) k data) (seq 1 maxlag).
Definition granger_lasso (lasso : list (list value) -> list value -> list Z) (dflt : value) (maxlag dim : nat) (data : list (list value)) : option (list (list Z)) :=
  match hstack (lagged maxlag data) with
  | None => None
  | Some X => let Y := skipn maxlag data in Some (map (fun i => lasso X (map (fun row => nth i row dflt) Y)) (seq 0 dim))
  end.
End Granger.
