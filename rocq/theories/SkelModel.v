(** Skeleton search: skeleton_discovery (PCUtils/SkeletonDiscovery.py) and fas (FAS.py). *)
From Verif Require Import Base EdgeModel GraphModel UtilsModel.
Local Open Scope Z_scope.

(** itertools.combinations(l, k): the subsequences of length k, in lexicographic order of positions. *)
Fixpoint combs (k : nat) (l : list nat) : list (list nat) :=
  match k with
  | O => [[]]
  | S k' => match l with [] => [] | a :: r => map (cons a) (combs k' r) ++ combs k r end
  end.

(** GraphClass.py:25-37 CausalGraph.__init__: the complete undirected graph. *)
Definition complete_graph (n : nat) : ggraph :=
  fold_left (fun g i => fold_left (fun g j => add_edge g (Edge i j TAIL TAIL)) (seq (S i) (n - S i)) g) (seq 0 n) (empty_graph n).
(** GraphClass.py:60-62 neighbors *)
Definition neighbors (g : ggraph) (i : nat) : list nat := filter (fun j => negb (gm g i j =? 0)) (seq 0 (gn g)).
(** GraphClass.py:64-66 max_degree.  Simplification: 0 when there is no node (the code raises ValueError). *)
Definition max_degree (g : ggraph) : nat := fold_right Nat.max 0%nat (map (fun i => length (neighbors g i)) (seq 0 (gn g))).

(** SkeletonDiscovery.py:86-91, 107-112, 131-133 = FAS.py:78-81 remove_if_exists.  get_edge does not raise on the graphs met here. *)
Definition remove_if_exists (g : ggraph) (x y : nat) : ggraph :=
  match get_edge g x y with Ok (Some e) => remove_edge g e | _ => g end.

(** cg.G, cg.sepset (None is the empty list), edge_removal, and (fas only) the dictionary sep_sets. *)
Record sk : Type := mkSk { skG : ggraph; skS : nat -> nat -> list (list nat); skR : list (nat * nat); skD : nat -> nat -> option (list nat) }.
Definition upd_f {A} (f : nat -> nat -> A) (i j : nat) (v : A) : nat -> nat -> A :=
  fun a b => if Nat.eqb a i && Nat.eqb b j then v else f a b.
(** Helper.py:102-109 append_value, for (x,y) and (y,x). *)
Definition append_both (s : nat -> nat -> list (list nat)) (x y : nat) (v : list nat) : nat -> nat -> list (list nat) :=
  let s1 := upd_f s x y (s x y ++ [v]) in upd_f s1 y x (s1 y x ++ [v]).
Definition set_both (d : nat -> nat -> option (list nat)) (x y : nat) (v : list nat) : nat -> nat -> option (list nat) :=
  upd_f (upd_f d x y (Some v)) y x (Some v).
Definition memp (x y : nat) (l : list (nat * nat)) : bool := existsb (fun p => Nat.eqb (fst p) x && Nat.eqb (snd p) y) l.
(** [sepsets.add(s)] for every s; a Python set is a list without repetition in order of insertion (the order in which
    [tuple] lists a set is not modelled). *)
Definition add_all (s l : list nat) : list nat := fold_left (fun s x => if memb x s then s else s ++ [x]) l s.

Section Search.
(** [ind x y S] is [ci_test(x, y, S) > alpha], a function of its arguments; [ban x y] says that the background
    knowledge forbids the edge in both directions; [fasm] selects fas (true) or skeleton_discovery (false). *)
Variable ind : nat -> nat -> list nat -> bool.
Variable ban : nat -> nat -> bool.
Variable stable fasm : bool.

Definition removed_now (st : sk) (x y : nat) (cs : list nat) : sk :=
  mkSk (remove_if_exists (remove_if_exists (skG st) x y) y x) (append_both (skS st) x y cs) (skR st)
       (if fasm then set_both (skD st) x y cs else skD st).
Definition to_remove (st : sk) (x y : nat) : sk :=
  mkSk (skG st) (skS st) (skR st ++ [(x, y); (y, x)]) (skD st).

(** SkeletonDiscovery.py:100-122 = FAS.py:114-135: the loop over conditioning sets. *)
Fixpoint s_loop (x y : nat) (Ss : list (list nat)) (st : sk) (sepsets : list nat) : sk * list nat :=
  match Ss with
  | [] => (st, sepsets)
  | cs :: r =>
      if ind x y cs then
        if stable then s_loop x y r (to_remove st x y) (add_all sepsets cs)
        else (removed_now st x y cs, sepsets)
      else s_loop x y r st sepsets
  end.

(** SkeletonDiscovery.py:77-125 = FAS.py:96-137: the loop over the neighbours of x, with its [break]. *)
Fixpoint y_loop (depth x : nat) (neigh ys : list nat) (st : sk) : sk :=
  match ys with
  | [] => st
  | y :: r =>
      if ban x y && negb stable then removed_now st x y []
      else
        let st1 := if ban x y then to_remove st x y else st in
        let (st2, sepsets) := s_loop x y (combs depth (filter (fun z => negb (Nat.eqb z y)) neigh)) st1 [] in
        let st3 :=
          if fasm || memp x y (skR st2) || (match get_edge (skG st2) x y with Ok None => true | _ => false end)
          then mkSk (skG st2) (append_both (skS st2) x y sepsets) (skR st2) (skD st2) else st2 in
        y_loop depth x neigh r st3
  end.
(** SkeletonDiscovery.py:74-76 = FAS.py:93-95 *)
Definition x_step (depth : nat) (st : sk) (x : nat) : sk :=
  let neigh := neighbors (skG st) x in
  if Nat.ltb (length neigh) (depth - 1) then st else y_loop depth x neigh neigh st.
(** SkeletonDiscovery.py:130-133 and FAS.py:139-145.  The order of the set does not matter: see remove_all_gm. *)
Definition remove_step (st : sk) (p : nat * nat) : sk :=
  let (x, y) := p in
  let g := remove_if_exists (skG st) x y in
  if fasm then
    match skS st x y with
    | [] => mkSk g (skS st) (skR st) (skD st)
    | l => mkSk g (skS st) (skR st) (set_both (skD st) x y (add_all [] (concat l)))
    end
  else mkSk g (skS st) (skR st) (skD st).
(** One iteration of the outer loop. *)
Definition sk_pass (depth : nat) (st : sk) : sk :=
  let st1 := fold_left (x_step depth) (seq 0 (gn (skG st))) (mkSk (skG st) (skS st) [] (skD st)) in
  fold_left remove_step (skR st1) st1.
(** SkeletonDiscovery.py:62-65 and FAS.py:85-87: [while max_degree() - 1 > depth: depth += 1; ...]; here [next] is the
    depth of the next pass, depth + 1.  [limit] is the depth bound of fas ([None] = unbounded).
    [None] = out of fuel (still looping). *)
Fixpoint sk_loop (fuel : nat) (limit : option nat) (next : nat) (st : sk) : option sk :=
  if Nat.ltb next (max_degree (skG st)) && (match limit with None => true | Some m => Nat.leb next m end) then
    match fuel with O => None | S f => sk_loop f limit (S next) (sk_pass next st) end
  else Some st.
Definition sk_init (n : nat) : sk := mkSk (complete_graph n) (fun _ _ => []) [] (fun _ _ => None).
Definition sk_search (fuel : nat) (limit : option nat) (n : nat) : option sk := sk_loop fuel limit 0 (sk_init n).
End Search.

(** SkeletonDiscovery.py:16-138 skeleton_discovery (progress bar and printing not modelled): the graph and cg.sepset. *)
Definition skeleton_discovery (ind : nat -> nat -> list nat -> bool) (ban : nat -> nat -> bool) (stable : bool) (fuel n : nat) : option (ggraph * (nat -> nat -> list (list nat))) :=
  match sk_search ind ban stable false fuel None n with Some st => Some (skG st, skS st) | None => None end.
(** FAS.py:17-147 fas: the graph and sep_sets (the table of test results is not modelled). *)
Definition fas (ind : nat -> nat -> list nat -> bool) (ban : nat -> nat -> bool) (stable : bool) (depth : option nat) (fuel n : nat) : option (ggraph * (nat -> nat -> option (list nat))) :=
  match sk_search ind ban stable true fuel depth n with Some st => Some (skG st, skD st) | None => None end.
