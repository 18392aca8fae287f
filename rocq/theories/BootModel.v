(** Model of lingam/utils/__init__.py find_all_paths and of BootstrapResult in lingam/bootstrap.py.
    Simplifications: coefficients are integers, NaN entries (nan_to_num) are zero; shapes are square. *)
From Verif Require Import Base UtilsModel.
Local Open Scope Z_scope.

(** utils/__init__.py:321-331: the edges by start point. *)
Definition over (thr : Z) (B : mat) (i j : nat) : bool := thr <? Z.abs (B i j).
Definition to_indices (n : nat) (B : mat) (thr : Z) (i : nat) : list nat := filter (fun t => over thr B t i) (seq 0 n).
(** utils/__init__.py:333-356: the DFS.  The stack (top first) pairs each index with its remaining successors.  The list of the bottom entry is
    to_indices[from_index] itself, not a copy: popping from it is seen by later copies of to_indices[from_index]. *)
Fixpoint dfs (fuel n : nat) (ch : nat -> list nat) (from to : nat) (stack : list (nat * list nat)) (paths : list (list nat)) : outcome (list (list nat)) :=
  match fuel with
  | O => Running
  | S f =>
      match stack with
      | [] => Ret paths
      | (c, rem) :: below =>
          if Nat.ltb n (length stack) then Failed
          else if Nat.eqb c to then dfs f n ch from to below (paths ++ [rev (map fst stack)])
          else match rem with
               | x :: rem' => let stack' := (c, rem') :: below in
                   dfs f n ch from to ((x, if Nat.eqb x from then snd (last stack' (0%nat, [])) else ch x) :: stack') paths
               | [] => dfs f n ch from to below paths
               end
      end
  end.
(** utils/__init__.py:358-363: the product of the coefficients along a path; numpy.cumprod([])[-1] raises for a path of one vertex. *)
Fixpoint coefs (B : mat) (p : list nat) : list Z := match p with a :: (b :: _) as q => B b a :: coefs B q | _ => [] end.
Definition effect (B : mat) (p : list nat) : option Z := match coefs B p with [] => None | l => Some (fold_left Z.mul l 1) end.
Fixpoint effects (B : mat) (ps : list (list nat)) : option (list Z) :=
  match ps with
  | [] => Some []
  | p :: r => match effect B p, effects B r with Some e, Some l => Some (e :: l) | _, _ => None end
  end.
(** utils/__init__.py:297-365 find_all_paths. *)
Definition find_all_paths (fuel n : nat) (B : mat) (from to : nat) (thr : Z) : outcome (list (list nat) * list Z) :=
  match dfs fuel n (to_indices n B thr) from to [(from, to_indices n B thr from)] [] with
  | Ret ps => match effects B ps with Some es => Ret (ps, es) | None => Failed end
  | Running => Running
  | Failed => Failed
  end.

(** numpy.unique(..., return_counts=True), argsort(-counts), the first [top]: bootstrap.py:146-152, 222-226, 383-389.  [argsort] is any sorting
    function: numpy's default is not stable.  The order of the unique rows only matters for ties, which [argsort] leaves open: rows are
    taken in order of first occurrence from the right ([nodup]). *)
Section Tally.
Context {A : Type} (dec : forall a b : A, {a = b} + {a <> b}) (argsort : list Z -> list nat).
Definition tally (keys : list A) (top : option nat) : list (A * nat) :=
  let u := nodup dec keys in
  let order := argsort (map (fun k => - Z.of_nat (count_occ dec keys k)) u) in
  let order := match top with Some t => firstn t order | None => order end in
  flat_map (fun q => match nth_error u q with Some k => [(k, count_occ dec keys k)] | None => [] end) order.
End Tally.
(** bootstrap.py:133-142: the directions of one sample, (to, from, sign); the sign is 0 when the counts are not split. *)
Definition dir_keys (n : nat) (thr : Z) (split : bool) (B : mat) : list (nat * nat * Z) :=
  flat_map (fun i => flat_map (fun j => if over thr B i j then [(i, j, if split then Z.sgn (B i j) else 0)] else []) (seq 0 n)) (seq 0 n).
Definition dir_dec (a b : nat * nat * Z) : {a = b} + {a <> b}.
Proof. repeat decide equality. Defined.
(** bootstrap.py:111-131: [None]: ValueError for a threshold or a number of directions that is not positive. *)
Definition threshold (m : option Z) : option Z := match m with None => Some 0 | Some z => if 0 <? z then Some z else None end.
Definition check_top (t : option Z) : option (option nat) := match t with None => Some None | Some z => if 0 <? z then Some (Some (Z.to_nat z)) else None end.
(** bootstrap.py:88-164 get_causal_direction_counts. *)
Definition causal_direction_counts (argsort : list Z -> list nat) (n : nat) (samples : list mat) (top m : option Z) (split : bool) : option (list (nat * nat * Z * nat)) :=
  match check_top top, threshold m with
  | Some t, Some thr => Some (tally dir_dec argsort (flat_map (dir_keys n thr split) samples) t)
  | _, _ => None
  end.
(** bootstrap.py:208-220: the graph of one sample, as the flattened matrix of signs or booleans. *)
Definition dag_key (n : nat) (thr : Z) (split : bool) (B : mat) : list Z :=
  flat_map (fun i => map (fun j => if over thr B i j then (if split then Z.sgn (B i j) else 1) else 0) (seq 0 n)) (seq 0 n).
Definition zlist_dec (a b : list Z) : {a = b} + {a <> b}.
Proof. repeat decide equality. Defined.
(** bootstrap.py:166-243 get_directed_acyclic_graph_counts (the graphs as flattened matrices instead of lists of from and to). *)
Definition dag_counts (argsort : list Z -> list nat) (n : nat) (samples : list mat) (top m : option Z) (split : bool) : option (list (list Z * nat)) :=
  match check_top top, threshold m with
  | Some t, Some thr => Some (tally zlist_dec argsort (map (dag_key n thr split) samples) t)
  | _, _ => None
  end.
(** bootstrap.py:245-281 get_probabilities: numerator and denominator. *)
Definition probabilities (samples : list mat) (m : option Z) : option (nat -> nat -> Z * Z) :=
  match threshold m with
  | Some thr => Some (fun i j => (fold_left (fun s B => s + (if over thr B i j then 1 else 0)) samples 0, Z.of_nat (length samples)))
  | None => None
  end.
(** bootstrap.py:344-403 get_paths: min_causal_effect is not passed on.  Paths are compared as lists (the code compares '_'-joined strings);
    probabilities are counts over the number of samples; the medians of the effects are in BootMoreModel. *)
Definition nlist_dec (a b : list nat) : {a = b} + {a <> b}.
Proof. repeat decide equality. Defined.
Fixpoint collect_paths (fuel n : nat) (from to : nat) (samples : list mat) : outcome (list (list nat)) :=
  match samples with
  | [] => Ret []
  | B :: r => match find_all_paths fuel n B from to 0 with
              | Ret (ps, _) => match collect_paths fuel n from to r with Ret q => Ret (ps ++ q) | o => o end
              | Running => Running
              | Failed => Failed
              end
  end.
Definition get_paths (fuel : nat) (argsort : list Z -> list nat) (n : nat) (samples : list mat) (from to : nat) (min_causal_effect : Z) : outcome (list (list nat * nat)) :=
  match collect_paths fuel n from to samples with
  | Ret ps => Ret (tally nlist_dec argsort ps None)
  | Running => Running
  | Failed => Failed
  end.
