(** Model of plot_time_series (utils/TimeseriesVisualization.py) and of eigdec (utils/ScoreUtils.py). *)
From Verif Require Import Base.
From Coq Require Import Reals.
Local Open Scope R_scope.

(** TimeseriesVisualization.py:53-55: the links of a matrix of coefficients. *)
Definition links_of (alpha : R) (coef : nat -> nat -> nat -> R) : nat -> nat -> nat -> bool := fun i j tau => if Rle_dec alpha (Rabs (coef i j tau)) then true else false.
Definition flat (L row col : nat) : nat := row * L + col.
(** 80-83: np.where lists the triples of a link; from each, a cell of tsg is set for every time t from the lag on.  d variables, lags 0 .. L - 1. *)
Definition link_list (d L : nat) (link : nat -> nat -> nat -> bool) : list (nat * nat * nat) :=
  flat_map (fun i => flat_map (fun j => flat_map (fun tau => if link i j tau then [(i, j, tau)] else []) (seq 0 L)) (seq 0 d)) (seq 0 d).
Definition set_cell (m : nat -> nat -> bool) (a b : nat) : nat -> nat -> bool := fun x y => if Nat.eqb x a && Nat.eqb y b then true else m x y.
Definition set_link (L : nat) (m : nat -> nat -> bool) (e : nat * nat * nat) : nat -> nat -> bool :=
  let '(i, j, tau) := e in fold_left (fun m t => if Nat.leb tau t then set_cell m (flat L i (t - tau)) (flat L j t) else m) (seq 0 L) m.
Definition tsg (d L : nat) (link : nat -> nat -> nat -> bool) : nat -> nat -> bool := fold_left (set_link L) (link_list d L link) (fun _ _ => false).
(** 87-104 the place of a node before scaling: column (time) and row counted from the bottom; pos_tmp of 105: pos[flat(n, tau)] = pos_tmp[(dim - order[n] - 1) * max_lag + tau].  Scaling to [0, 1] keeps the order and is left out. *)
Definition place (L a : nat) : nat * nat := (a mod L, a / L)%nat.
Definition node_place (d L : nat) (order : nat -> nat) (n tau : nat) : nat * nat := place L ((d - order n - 1) * L + tau)%nat.
(** 107-117: the i-th label names the variable order[i] and stands at the height of its first node. *)
Definition label (d L : nat) (order : nat -> nat) (i : nat) : nat * nat := (order i, snd (node_place d L order (order i) 0)).

(** ScoreUtils.py:69-112 eigdec with the vectors.  The eigenvalues that np.linalg.eig (or eigs) found are v 0 .. v (m - 1), vector k belongs to v k; perm: what argsort of -v gives.
    The first result is the list of values, the second the list of the numbers of the vectors chosen.  Complex numbers are not modelled. *)
Definition eig_values (v : nat -> R) (perm : nat -> nat) (N : nat) : list R := map (fun i => v (perm i)) (seq 0 N).
Definition in_order (v : nat -> R) (perm : nat -> nat) (N : nat) : bool := forallb (fun i => if Req_EM_T (v (perm i)) (v i) then true else false) (seq 0 N).
Definition eig_vectors (v : nat -> R) (perm : nat -> nat) (N : nat) : list nat := if in_order v perm N then seq 0 N else map perm (seq 0 N).
(** 86-93: with all eigenvalues of x in v (m of them), np.linalg.eig finds all of them; when N is at most 1/25 of m, scipy.sparse.linalg.eigs(k=N, which="LM") finds N of them whose absolute value is largest: found. *)
Definition eigs_found (v : nat -> R) (m N : nat) (found : list nat) : Prop :=
  length found = N /\ NoDup found /\ (forall k, In k found -> (k < m)%nat) /\ forall k q, (k < m)%nat -> ~ In k found -> In q found -> Rabs (v k) <= Rabs (v q).
Definition of_found (v : nat -> R) (found : list nat) : nat -> R := fun i => v (nth i found 0%nat).
