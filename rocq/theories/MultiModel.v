(** Model of causallearn/search/FCMBased/lingam/multi_group_direct_lingam.py.  As in LingamModel the numerical parts of a data set are arbitrary
    functions: [g_score] is the negated measure M of one data set (lines 254-266; [None] is NaN), [g_lasso] is predict_adaptive_lasso on it.
    Scores are exact numbers, so that the weighted sum of line 267 does not depend on rounding. *)
From Verif Require Import Base UtilsModel LingamModel.
Local Open Scope Z_scope.

(** One data set: its number of rows, its number of columns, and what the numerical code computes from it. *)
Record group := mkG { g_size : nat; g_cols : nat; g_score : scorer; g_lasso : lassoer }.
(** multi_group_direct_lingam.py:220-238 _check_X_list: the number of columns, or ValueError.  Line 238 stacks the data sets with np.array; since
    numpy 1.24 that raises ValueError when they do not all have the same shape.  (Before 1.24 numpy made an array of objects there.) *)
Definition check_list (gs : list group) : option nat :=
  match gs with
  | g :: _ :: _ =>
      if forallb (fun h => Nat.eqb (g_cols h) (g_cols g)) gs && forallb (fun h => Nat.eqb (g_size h) (g_size g)) gs then Some (g_cols g) else None
  | _ => None
  end.
Definition oplus (a b : option Z) : option Z := match a, b with Some x, Some y => Some (x + y) | _, _ => None end.
Definition oscale (c : nat) (a : option Z) : option Z := match a with Some x => Some (Z.of_nat c * x) | None => None end.
(** multi_group_direct_lingam.py:240-268 _search_causal_order: the score of a candidate is the sum of the scores of the data sets, weighted by their
    sizes (line 267 divides every weight by total_size, which changes no comparison). *)
Definition mg_score (gs : list group) : scorer :=
  fun K U Uc Vj i => fold_left (fun s g => oplus s (oscale (g_size g) (g_score g K U Uc Vj i))) gs (Some 0).
(** multi_group_direct_lingam.py:46-91 fit: the order, the matrices in the order of the data sets, and the object afterwards. *)
Definition mg_fit (gs : list group) (d : dlingam) : option (list nat * list mat * dlingam) :=
  match check_list gs with
  | None => None
  | Some n =>
      match order_loop n (mg_score gs) d [] (seq 0 n) with
      | None => None
      | Some (K, d') => Some (K, map (fun g => estimate_adjacency_matrix (g_lasso g) (d_knw d) K) gs, d')
      end
  end.
(** multi_group_direct_lingam.py:146-187 estimate_total_effect, for one data set and its matrix (the parents come in increasing order). *)
Definition mg_effect (n : nat) (g : group) (B : mat) (from to : nat) : Z :=
  nth 0 (g_lasso g (from :: filter (fun j => 0 <? Z.abs (B from j)) (seq 0 n)) to) 0.
(** multi_group_direct_lingam.py:131-138: the effects of one sample and one data set, written for every pair of the order. *)
Fixpoint mg_effects (n : nat) (g : group) (B : mat) (K : list nat) (T : mat) : mat :=
  match K with
  | [] => T
  | from :: r => mg_effects n g B r (fold_left (fun T to => upd T to from (mg_effect n g B from to)) r T)
  end.
(** multi_group_direct_lingam.py:93-144 bootstrap: [samples] lists the resampled data sets; for every sample, the order, the matrices and the effects.
    The same object is fitted again and again. *)
Fixpoint mg_bootstrap (n : nat) (samples : list (list group)) (d : dlingam) : option (list (list nat * list mat * list mat)) :=
  match samples with
  | [] => Some []
  | gs :: r =>
      match mg_fit gs d with
      | None => None
      | Some (K, Bs, d') =>
          match mg_bootstrap n r d' with
          | None => None
          | Some out => Some ((K, Bs, map (fun gB => mg_effects n (fst gB) (snd gB) K zeros) (combine gs Bs)) :: out)
          end
      end
  end.
