(** The chi-square and G-square statistics as a textbook defines them, on the raw rows of a data set. *)
From Verif Require Import Base BICModel.
From Coq Require Import Reals.
Local Open Scope R_scope.

Definition value (r : list Z) (k : nat) : Z := nth k r 0%Z.
(** The configurations of the variables [S] that occur in the data, each once. *)
Definition config (S : list nat) (r : list Z) : list Z := map (value r) S.
Definition configs (S : list nat) (rows : list (list Z)) : list (list Z) := nodup (list_eq_dec Z.eq_dec) (map (config S) rows).
(** The rows with configuration [w]. *)
Definition stratum (S : list nat) (w : list Z) (rows : list (list Z)) : list (list Z) :=
  filter (fun r => if list_eq_dec Z.eq_dec (config S r) w then true else false) rows.
(** The values of variable [k] that occur in [rows], each once; how often [v] occurs. *)
Definition values (k : nat) (rows : list (list Z)) : list Z := nodup Z.eq_dec (map (fun r => value r k) rows).
Definition occurs (k : nat) (v : Z) (rows : list (list Z)) : R := INR (length (filter (fun r => Z.eqb (value r k) v) rows)).
Definition occur2 (k : nat) (v : Z) (l : nat) (u : Z) (rows : list (list Z)) : R :=
  INR (length (filter (fun r => Z.eqb (value r k) v && Z.eqb (value r l) u) rows)).

(** Expected count under independence within the rows, and the contribution of one cell: (O - E)^2 / E, or 2 O log(O / E). *)
Definition expect (rows : list (list Z)) (x : nat) (u : Z) (y : nat) (v : Z) : R := occurs x u rows * occurs y v rows / INR (length rows).
Definition contribution (gsq : bool) (rows : list (list Z)) (x : nat) (u : Z) (y : nat) (v : Z) : R :=
  let o := occur2 x u y v rows in let e := expect rows x u y v in
  if gsq then (if Req_EM_T o 0 then 0 else 2 * (o * ln (o / e))) else (o - e) * (o - e) / e.
Definition stat_spec (gsq : bool) (rows : list (list Z)) (x y : nat) (S : list nat) : R :=
  rsum (fun w => let st := stratum S w rows in rsum (fun u => rsum (fun v => contribution gsq st x u y v) (values y st)) (values x st)) (configs S rows).
Definition df_spec (rows : list (list Z)) (x y : nat) (S : list nat) : Z :=
  fold_right Z.add 0%Z (map (fun w => let st := stratum S w rows in
    ((Z.of_nat (length (values x st)) - 1) * (Z.of_nat (length (values y st)) - 1))%Z) (configs S rows)).
Definition p_spec (sf : R -> Z -> R) (gsq : bool) (rows : list (list Z)) (x y : nat) (S : list nat) : R :=
  if Z.eqb (df_spec rows x y S) 0 then 1 else sf (stat_spec gsq rows x y S) (df_spec rows x y S).
