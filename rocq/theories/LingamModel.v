(** Model of causallearn/search/FCMBased/lingam: base.py, direct_lingam.py, ica_lingam.py and make_prior_knowledge of utils/__init__.py.
    Not modelled: the numerical parts (ICA, linear_sum_assignment, entropies, kernels, the residuals of the data and the adaptive lasso). They
    appear as arbitrary functions of everything they may depend on: [score] and [lasso]. Coefficients and scores are integers: they are only
    compared and tested for zero. *)
From Verif Require Import Base UtilsModel.
Local Open Scope Z_scope.

(** [l[:-1]..] helpers: rows and columns of an n x n array in row-major order, as numpy.where and numpy.unique enumerate them. *)
Definition all_pairs (n : nat) : list (nat * nat) := flat_map (fun i => map (fun j => (i, j)) (seq 0 n)) (seq 0 n).
Definition pair_eqb (p q : nat * nat) : bool := Nat.eqb (fst p) (fst q) && Nat.eqb (snd p) (snd q).
Definition swap (p : nat * nat) : nat * nat := (snd p, fst p).
Definition occurrences (l : list (nat * nat)) (p : nat * nat) : nat := length (filter (pair_eqb p) l).
(** numpy.unique(l, axis=0, return_counts=True) restricted to the counts that satisfy [c]: the rows are sorted lexicographically. *)
Definition unique_counts (n : nat) (c : nat -> bool) (l : list (nat * nat)) : list (nat * nat) :=
  filter (fun p => negb (Nat.eqb (occurrences l p) 0) && c (occurrences l p)) (all_pairs n).

(** lingam/utils/__init__.py:68-106 make_prior_knowledge.  Negative indices and out-of-range indices are not modelled (numpy wraps or raises). *)
Definition set_col (n : nat) (m : mat) (v : nat) : mat := fun a b => if Nat.ltb a n && Nat.eqb b v then 0 else m a b.
Definition set_row (n : nat) (m : mat) (v : nat) : mat := fun a b => if Nat.eqb a v && Nat.ltb b n then 0 else m a b.
Definition fill_diagonal (m : mat) (x : Z) : mat := fun a b => if Nat.eqb a b then x else m a b.
Definition make_prior_knowledge (n : nat) (exogenous sinks : list nat) (paths no_paths : list (nat * nat)) : mat :=
  let m0 : mat := fun _ _ => -1 in
  let m1 := fold_left (fun m p => upd m (snd p) (fst p) 0) no_paths m0 in
  let m2 := fold_left (fun m p => upd m (snd p) (fst p) 1) paths m1 in
  let m3 := fold_left (set_col n) sinks m2 in
  let m4 := fold_left (set_row n) exogenous m3 in
  fill_diagonal m4 (-1).

(** direct_lingam.py:52-53: entries below zero become NaN ([None]). *)
Definition knw := nat -> nat -> option Z.
Definition to_knw (pk : mat) : knw := fun i j => if pk i j <? 0 then None else Some (pk i j).
Definition is_val (v : Z) (x : option Z) : bool := match x with Some z => z =? v | None => false end.

(** direct_lingam.py:103-134 _extract_partial_orders: ValueError, "discard the knowledge", or the pairs (from, to). *)
Inductive extraction := Inconsistent | Discard | Orders (po : list (nat * nat)).
Definition where_val (n : nat) (k : knw) (v : Z) : list (nat * nat) := filter (fun p => is_val v (k (fst p) (snd p))) (all_pairs n).
Definition extract_partial_orders (n : nat) (k : knw) : extraction :=
  let path_pairs := where_val n k 1 in
  let no_path_pairs := where_val n k 0 in
  match unique_counts n (fun c => Nat.ltb 1 c) (path_pairs ++ map swap path_pairs) with
  | _ :: _ => Inconsistent
  | [] =>
      let dup := unique_counts n (fun c => Nat.ltb 1 c) (no_path_pairs ++ map swap no_path_pairs) in
      let no_path_pairs := unique_counts n (fun c => Nat.ltb c 2) (no_path_pairs ++ dup) in
      let check_pairs := path_pairs ++ map swap no_path_pairs in
      match check_pairs with
      | [] => Discard
      | _ => Orders (map swap (unique_counts n (fun _ => true) check_pairs))
      end
  end.

(** numpy.argmax on a list of floats: the first NaN if there is one, else the first maximum.  [None] is NaN; the list is non-empty. *)
Definition beats (x y : option Z) : bool := match y, x with None, _ => false | Some _, None => true | Some b, Some a => b <? a end.
Fixpoint argmax_from (best : option Z) (bi i : nat) (l : list (option Z)) : nat :=
  match l with
  | [] => bi
  | x :: r => if beats x best then argmax_from x i (S i) r else argmax_from best bi (S i) r
  end.
Definition np_argmax (l : list (option Z)) : nat := match l with [] => 0%nat | x :: r => argmax_from x 0 1 r end.

(** direct_lingam.py:33-60: the state of a DirectLiNGAM object. *)
Record dlingam := mkDL { d_knw : option knw; d_soft : bool; d_orders : list (nat * nat) }.
(** direct_lingam.py:33-60 __init__; [None] is the ValueError of _extract_partial_orders.  [Discard] sets self._Aknw to None (line 128). *)
Definition dl_init (n : nat) (pk : option mat) (soft : bool) : option dlingam :=
  match pk with
  | None => Some (mkDL None soft [])
  | Some m =>
      if soft then Some (mkDL (Some (to_knw m)) soft [])
      else match extract_partial_orders n (to_knw m) with
           | Inconsistent => None
           | Discard => Some (mkDL None soft [])
           | Orders po => Some (mkDL (Some (to_knw m)) soft po)
           end
  end.

(** Sum of knowledge entries, NaN if one of them is; numpy.nansum skips NaN. *)
Definition ksum (l : list (option Z)) : option Z :=
  fold_left (fun s x => match s, x with Some a, Some b => Some (a + b) | _, _ => None end) l (Some 0).
Definition nansum (l : list (option Z)) : Z := fold_left (fun s x => match x with Some b => s + b | None => s end) l 0.
Definition others (U : list nat) (j : nat) : list nat := filter (fun i => negb (Nat.eqb i j)) U.
(** direct_lingam.py:155-193 _search_candidate. *)
Definition search_candidate (d : dlingam) (U : list nat) : list nat * list nat :=
  match d_knw d with
  | None => (U, [])
  | Some k =>
      if negb (d_soft d) then (filter (fun i => negb (memb i (map snd (d_orders d)))) U, [])
      else
        let Uc0 := filter (fun j => is_val 0 (ksum (map (k j) (others U j)))) U in
        let Uc :=
          match Uc0 with
          | _ :: _ => Uc0
          | [] =>
              let U_end := filter (fun j => 0 <? nansum (map (k j) (others U j))) U
                           ++ filter (fun i => is_val 0 (ksum (map (fun a => k a i) (others U i)))) U in
              filter (fun i => negb (memb i U_end)) U
          end in
        (Uc, filter (fun i => negb (memb i Uc) && is_val 0 (ksum (map (k i) Uc))) U)
  end.

(** direct_lingam.py:195-215 _search_causal_order and 241-263 _search_causal_order_kernel (argmin of Tkernels is argmax of their negation).
    [score K U Uc Vj i] is the score the data give candidate i when the variables K have been removed.  [None]: argmax of an empty list raises. *)
Definition scorer := list nat -> list nat -> list nat -> list nat -> nat -> option Z.
Definition search_causal_order (score : scorer) (d : dlingam) (K U : list nat) : option nat :=
  let (Uc, Vj) := search_candidate d U in
  match Uc with
  | [] => None
  | [m] => Some m
  | _ => Some (nth (np_argmax (map (score K U Uc Vj) Uc)) Uc 0%nat)
  end.
(** direct_lingam.py:85-99: the loop of fit; line 98-99 drops the partial orders that start at the chosen variable. *)
Definition drop_orders (d : dlingam) (m : nat) : dlingam :=
  match d_knw d with
  | Some _ => if d_soft d then d else mkDL (d_knw d) (d_soft d) (filter (fun p => negb (Nat.eqb (fst p) m)) (d_orders d))
  | None => d
  end.
Fixpoint order_loop (steps : nat) (score : scorer) (d : dlingam) (K U : list nat) : option (list nat * dlingam) :=
  match steps with
  | O => Some (K, d)
  | S s =>
      match search_causal_order score d K U with
      | None => None
      | Some m => order_loop s score (drop_orders d m) (K ++ [m]) (others U m)
      end
  end.

(** base.py:117-157 _estimate_adjacency_matrix.  [lasso predictors target] is the coefficient vector of predict_adaptive_lasso. *)
Definition lassoer := list nat -> nat -> list Z.
Definition assign_row (B : mat) (t : nat) (ps : list nat) (cs : list Z) : mat :=
  fold_left (fun B pc => upd B t (fst pc) (snd pc)) (combine ps cs) B.
Definition allowed (k : option knw) (t p : nat) : bool :=
  match k with None => true | Some k => if Nat.eqb t p then false else negb (is_val 0 (k t p)) end.
Definition adjacency_step (lasso : lassoer) (k : option knw) (order : list nat) (B : mat) (i : nat) : mat :=
  let target := nth i order 0%nat in
  let predictors := filter (allowed k target) (firstn i order) in
  match predictors with
  | [] => B
  | _ => assign_row B target predictors (lasso predictors target)
  end.
Definition estimate_adjacency_matrix (lasso : lassoer) (k : option knw) (order : list nat) : mat :=
  fold_left (adjacency_step lasso k order) (seq 1 (length order - 1)) zeros.

(** direct_lingam.py:62-101 fit: the causal order, the adjacency matrix and the object afterwards, or an exception. *)
Definition dl_fit (n : nat) (score : scorer) (lasso : lassoer) (d : dlingam) : option (list nat * mat * dlingam) :=
  match order_loop n score d [] (seq 0 n) with
  | None => None
  | Some (K, d') => Some (K, estimate_adjacency_matrix lasso (d_knw d) K, d')
  end.

(** ica_lingam.py:71-109 _search_causal_order.  [idx] is original_index; the reduced matrix is read through it. *)
Definition zero_row (m : mat) (idx : list nat) (i : nat) : bool := forallb (fun j => m i j =? 0) idx.
Fixpoint ica_loop (steps : nat) (m : mat) (idx order : list nat) : list nat :=
  match steps with
  | O => order
  | S s =>
      match filter (zero_row m idx) idx with
      | [] => order
      | t :: _ => ica_loop s m (others idx t) (order ++ [t])
      end
  end.
Definition ica_search (n : nat) (m : mat) : option (list nat) :=
  let order := ica_loop n m (seq 0 n) [] in
  if Nat.eqb (length order) n then Some order else None.
(** ica_lingam.py:111-144 _estimate_causal_order; [pos] is pos_list, the positions sorted by absolute value. *)
Fixpoint ica_try (n : nat) (m : mat) (pos : list (nat * nat)) : option (list nat) :=
  match pos with
  | [] => None
  | p :: r => let m' := upd m (fst p) (snd p) 0 in
              match ica_search n m' with Some o => Some o | None => ica_try n m' r end
  end.
Definition ica_estimate (n : nat) (m : mat) (pos : list (nat * nat)) : option (list nat) :=
  let z := (n * (n + 1) / 2)%nat in
  ica_try n (fold_left (fun m p => upd m (fst p) (snd p) 0) (firstn z pos) m) (skipn z pos).
(** ica_lingam.py:38-69 fit, after the ICA and the assignment have given B_estimate; [None]: len(None) raises TypeError (base.py:136). *)
Definition ica_fit (n : nat) (lasso : lassoer) (m : mat) (pos : list (nat * nat)) : option (list nat * mat) :=
  match ica_estimate n m pos with
  | None => None
  | Some o => Some (o, estimate_adjacency_matrix lasso None o)
  end.

(** lingam/utils/__init__.py:109-146 get_sink_variables and get_exo_variables: sums of absolute values off the diagonal. *)
Definition get_sink_variables (n : nat) (B : mat) : list nat :=
  filter (fun i => fold_left (fun s a => s + (if Nat.eqb a i then 0 else Z.abs (B a i))) (seq 0 n) 0 =? 0) (seq 0 n).
Definition get_exo_variables (n : nat) (B : mat) : list nat :=
  filter (fun i => fold_left (fun s a => s + (if Nat.eqb i a then 0 else Z.abs (B i a))) (seq 0 n) 0 =? 0) (seq 0 n).
