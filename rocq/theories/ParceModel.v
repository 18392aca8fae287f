(** Model of causallearn/search/FCMBased/lingam/bottom_up_parce_lingam.py: the order of BottomUpParceLiNGAM and its adjacency matrix.
    The regressions, HSIC and Fisher's method are arbitrary functions: [fisher predictors target bound] is (p-value, statistic) of the residual of the
    target on the predictors; the statistic is [None] when it is infinite.  p-values and coefficients are integers (they are only compared
    and tested for zero); NaN p-values are not modelled. *)
From Verif Require Import Base UtilsModel LingamModel.
Local Open Scope Z_scope.

(** bottom_up_parce_lingam.py:63-76: the object; the extraction of the partial orders (131-163) is the code of DirectLiNGAM. *)
Record parce := mkP { p_knw : option knw; p_orders : list (nat * nat) }.
Definition p_init (n : nat) (pk : option mat) : option parce :=
  match pk with
  | None => Some (mkP None [])
  | Some m => match extract_partial_orders n (to_knw m) with
              | Inconsistent => None
              | Discard => Some (mkP None [])
              | Orders po => Some (mkP (Some (to_knw m)) po)
              end
  end.
(** 165-173 _search_candidate. *)
Definition p_candidates (d : parce) (U : list nat) : list nat :=
  match p_knw d with
  | None => U
  | Some _ => filter (fun i => negb (memb i (map fst (p_orders d)))) U
  end.
Definition fisher_test := list nat -> nat -> option Z -> Z * option Z.
(** 224-250 _find_exo_vec: the last update wins; [None] when there is no candidate (then max_p is -inf). *)
Definition stat_lt (a b : option Z) : bool := match a, b with Some x, Some y => x <? y | Some _, None => true | None, _ => false end.
Definition exo_step (fisher : fisher_test) (Uc : list nat) (best : option (nat * Z * option Z)) (j : nat) : option (nat * Z * option Z) :=
  let bound := match best with Some (_, _, s) => s | None => None end in
  let '(p, s) := fisher (others Uc j) j bound in
  match best with
  | None => Some (j, p, s)
  | Some (_, bp, bs) => if stat_lt s bs || (bp <? p) then Some (j, p, s) else best
  end.
Definition find_exo_vec (fisher : fisher_test) (Uc : list nat) : option (nat * Z * option Z) := fold_left (exo_step fisher Uc) Uc None.
(** 187-200: the variable to be tested and its p-value. *)
Definition choose (fisher : fisher_test) (U Uc : list nat) : option (nat * Z) :=
  match Uc with
  | [m] => Some (m, fst (fisher (others U m) m None))
  | _ => match find_exo_vec fisher Uc with Some (m, p, _) => Some (m, p) | None => None end
  end.
(** 210-212: drop the partial orders that end at m. *)
Definition p_drop (d : parce) (m : nat) : parce :=
  match p_knw d with Some _ => mkP (p_knw d) (filter (fun q => negb (Nat.eqb (snd q) m)) (p_orders d)) | None => d end.
(** 175-222 _search_causal_order: K_bttm and the object afterwards.  Every round but the last removes a variable. *)
Fixpoint p_loop (steps : nat) (fisher : fisher_test) (thr : Z) (d : parce) (U K : list nat) : list nat * parce :=
  match steps with
  | O => (K, d)
  | S s =>
      match choose fisher U (p_candidates d U) with
      | None => (K, d)
      | Some (m, p) =>
          if thr <=? p then
            let U' := others U m in let d' := p_drop d m in let K' := m :: K in
            if Nat.leb (length U') 1 then (U' ++ K', d') else p_loop s fisher thr d' U' K'
          else (K, d)
      end
  end.
Definition p_search (n : nat) (fisher : fisher_test) (thr : Z) (d : parce) : list nat * parce :=
  if Nat.leb n 1 then (seq 0 n, d) else p_loop n fisher thr d (seq 0 n) [].
(** 117-127: the block of unordered variables (a list in causal_order_) and the ordered rest.  A single unordered variable would be lost. *)
Definition p_block (n : nat) (K : list nat) : list nat :=
  let U_res := filter (fun i => negb (memb i K)) (seq 0 n) in if Nat.ltb 1 (length U_res) then U_res else [].
(** 281-328 _estimate_adjacency_matrix; [None] is NaN.  The first item of the order (block or variable) gets no coefficients. *)
Definition p_matrix (lasso : lassoer) (k : option knw) (block rest : list nat) : mat :=
  let start := Nat.max 1 (length block) in
  fold_left (adjacency_step lasso k (block ++ rest)) (seq start (length (block ++ rest) - start)) zeros.
Definition p_adjacency (lasso : lassoer) (k : option knw) (block rest : list nat) : nat -> nat -> option Z :=
  fun i j => if memb i block && memb j block && negb (Nat.eqb i j) then None else Some (p_matrix lasso k block rest i j).
(** 78-129 fit: block, rest, matrix, object; [None]: line 114 divides by n_features - 1 (ZeroDivisionError for one variable). *)
Definition p_fit (n : nat) (fisher : fisher_test) (thr : Z) (lasso : lassoer) (d : parce) : option (list nat * list nat * (nat -> nat -> option Z) * parce) :=
  if Nat.eqb n 1 then None else
  let '(K, d') := p_search n fisher thr d in
  let block := p_block n K in Some (block, K, p_adjacency lasso (p_knw d) block K, d').
