(** Model of the rest of lingam/bootstrap.py: the bootstrap loop, the table of total effects, the effects of get_paths and the results for time series
    and for longitudinal data.  Simplifications: as in BootModel (integer coefficients, NaN entries are zero); a median is represented by its double,
    the sum of the two middle values; a probability by the number of samples, to be divided by the number of samples drawn (at least one). *)
From Verif Require Import Base UtilsModel BootModel.
Local Open Scope Z_scope.

(** numpy.median: the double of the median of a non-empty array. *)
Fixpoint zinsert (x : Z) (l : list Z) : list Z := match l with [] => [x] | y :: r => if x <=? y then x :: l else y :: zinsert x r end.
Definition zsort (l : list Z) : list Z := fold_right zinsert [] l.
Definition median2 (l : list Z) : Z := nth ((length l - 1) / 2) (zsort l) 0 + nth (length l / 2) (zsort l) 0.

(** Indexing an array by an order: a[order]. *)
Definition reorder {A} (order : list nat) (u : list A) : list A := flat_map (fun q => match nth_error u q with Some k => [k] | None => [] end) order.
(** All the positions of an r x c array, row by row, as numpy.where lists them. *)
Definition positions (r c : nat) : list (nat * nat) := flat_map (fun i => map (fun j => (i, j)) (seq 0 c)) (seq 0 r).

(** bootstrap.py:297-335 (and 658-696, the same code) get_total_causal_effects: (to, from, twice the effect, number of samples). *)
Definition above (thr : Z) (samples : list mat) (d : nat * nat) : Z := fold_left (fun s B => s + (if over thr B (fst d) (snd d) then 1 else 0)) samples 0.
Definition total_causal_effects (argsort : list Z -> list nat) (r c : nat) (samples : list mat) (m : option Z) : option (list (nat * nat * Z * Z)) :=
  match threshold m with
  | Some thr =>
      let dirs := filter (fun d => 0 <? above thr samples d) (positions r c) in
      let probs := map (above thr samples) dirs in
      let effects := map (fun d => median2 (filter (fun e => 0 <? Z.abs e) (map (fun B : mat => B (fst d) (snd d)) samples))) dirs in
      let order := argsort (map Z.opp probs) in
      Some (combine (combine (reorder order dirs) (reorder order effects)) (reorder order probs))
  | None => None
  end.

(** bootstrap.py:366-403 get_paths with the medians of the effects.  The threshold is not passed on. *)
Fixpoint collect_effects (fuel n : nat) (from to : nat) (samples : list mat) : outcome (list (list nat) * list Z) :=
  match samples with
  | [] => Ret ([], [])
  | B :: r => match find_all_paths fuel n B from to 0 with
              | Ret (ps, es) => match collect_effects fuel n from to r with Ret (q, fs) => Ret (ps ++ q, es ++ fs) | o => o end
              | Running => Running
              | Failed => Failed
              end
  end.
Definition path_median (paths : list (list nat)) (effects : list Z) (p : list nat) : Z :=
  median2 (map snd (filter (fun x => if nlist_dec (fst x) p then true else false) (combine paths effects))).
Definition get_paths_effects (fuel : nat) (argsort : list Z -> list nat) (n : nat) (samples : list mat) (from to : nat) (min_causal_effect : Z) : outcome (list (list nat * Z * nat)) :=
  match collect_effects fuel n from to samples with
  | Ret (ps, es) => Ret (map (fun x => (fst x, path_median ps es (fst x), snd x)) (tally nlist_dec argsort ps None))
  | Running => Running
  | Failed => Failed
  end.
(** bootstrap.py:268-281 get_probabilities: with n rows and n * k columns, the list of the k blocks (numpy.hsplit). *)
Definition probability_blocks (n k : nat) (samples : list mat) (m : option Z) : option (list (nat -> nat -> Z)) :=
  match threshold m with
  | Some thr => Some (map (fun b i j => above thr samples (i, (b * n + j)%nat)) (seq 0 k))
  | None => None
  end.

(** LongitudinalBootstrapResult.  A sample is an array of (time, lag) matrices; 492, 558: the matrices of a time point side by side. *)
Definition tensor := nat -> nat -> mat.
Definition joined_at (p : nat) (T : tensor) (t : nat) : mat := fun i c => T t (c / p)%nat i (c mod p)%nat.
Definition rect_keys (r c : nat) (thr : Z) (split : bool) (B : mat) : list (nat * nat * Z) :=
  flat_map (fun d => if over thr B (fst d) (snd d) then [(fst d, snd d, if split then Z.sgn (B (fst d) (snd d)) else 0)] else []) (positions r c).
(** bootstrap.py:471-526 get_causal_direction_counts: [lags] is the number of matrices per time point (1 + n_lags). *)
Definition long_direction_counts (argsort : list Z -> list nat) (p lags steps : nat) (samples : list tensor) (top m : option Z) (split : bool) : option (list (list (nat * nat * Z * nat))) :=
  match check_top top, threshold m with
  | Some t, Some thr => Some (map (fun s => tally dir_dec argsort (flat_map (fun T => rect_keys p (lags * p) thr split (joined_at p T s)) samples) t) (seq 0 steps))
  | _, _ => None
  end.
(** bootstrap.py:611-638 get_probabilities: the number of samples at (time, lag, i, j). *)
Definition long_probabilities (samples : list tensor) (m : option Z) : option (nat -> nat -> nat -> nat -> Z) :=
  match threshold m with
  | Some thr => Some (fun t l i j => above thr (map (fun T : tensor => T t l) samples) (i, j))
  | None => None
  end.

(** bootstrap.py:18-55 BootstrapMixin.bootstrap.  [draws]: the resampled data sets, in the order they are drawn; [fit] gives the causal order and the
    matrix; [estimate] is estimate_total_effect of the fitted model on a data set (from, to).  The model is left as fitted to the last draw. *)
Section Bootstrap.
Context {Data : Type} (fit : Data -> list nat * mat) (estimate : list nat * mat -> Data -> nat -> nat -> Z).
(** 48-52: the loop over the causal order. *)
Fixpoint order_effects (e : nat -> nat -> Z) (order : list nat) (t : mat) : mat :=
  match order with
  | [] => t
  | from :: rest => order_effects e rest (fold_left (fun t to => upd t to from (e from to)) rest t)
  end.
Definition bootstrap (X : Data) (draws : list Data) : list (mat * mat) :=
  map (fun D => let model := fit D in (snd model, order_effects (estimate model X) (fst model) (fun _ _ => 0))) draws.
Definition left_model (draws : list Data) (before : list nat * mat) : list nat * mat := fold_left (fun _ D => fit D) draws before.
End Bootstrap.
(** multi_group_direct_lingam.py:110-145 MultiGroupDirectLiNGAM.bootstrap: one common order, a matrix and an effect per group; the effects are those of the
    resampled data.  The result of group [i]. *)
Section Multi.
Context {Data : Type} (fit : list Data -> list nat * list mat) (estimate : list nat * list mat -> list Data -> nat -> nat -> list Z).
Definition multi_bootstrap (draws : list (list Data)) (i : nat) : list (mat * mat) :=
  map (fun D => let model := fit D in (nth i (snd model) (fun _ _ => 0), order_effects (fun from to => nth i (estimate model D from to) 0) (fst model) (fun _ _ => 0))) draws.
End Multi.
