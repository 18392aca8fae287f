(** search/HiddenCausal/GIN/GIN.py: GIN, GIN_MI, merge_overlaping_cluster, array_split, find_root. *)
From Verif Require Import Base EdgeModel GraphModel UtilsModel NamedModel NamedProofs SkelModel.

(** GIN.py:338-356 array_split: [extra] pieces of section_len + 1 elements, then k - extra pieces of section_len. *)
Fixpoint take_pieces {A} (sizes : list nat) (x : list A) : list (list A) :=
  match sizes with [] => [] | s :: r => firstn s x :: take_pieces r (skipn s x) end.
Definition array_split {A} (x : list A) (k : nat) : list (list A) :=
  take_pieces (repeat (S (length x / k)) (length x mod k) ++ repeat (length x / k) (k - length x mod k)) x.

Section Merge.
(** The order in which Python walks through the elements of a set. *)
Variable ord : list nat -> list nat.
Variable cl : list (list nat).
(** GIN.py:281-286 _get_all_elements *)
Definition labels : list nat := ord (nodup Nat.eq_dec (concat cl)).
(** GIN.py:295-299 cluster_b[i]: the indices of the clusters that contain i (once each; clusters have no repeated elements). *)
Definition holders (i : nat) : list nat := filter (fun k => memb i (nth k cl [])) (seq 0 (length cl)).
(** GIN.py:314-317: append the clusters not yet visited to the queue. *)
Definition push (st : list nat * list nat) (j : nat) : list nat * list nat :=
  if memb j (snd st) then st else (fst st ++ [j], j :: snd st).
(** GIN.py:310-317: the queue.  Writing cluster_dict and visiting the overlapping clusters are interleaved in the code, but do not
    interact.  [None]: still running. *)
Fixpoint spread (fuel : nat) (len : Z) (q vis : list nat) (d : nat -> Z) : option (list nat * (nat -> Z)) :=
  match q with
  | [] => Some (vis, d)
  | top :: q' =>
      match fuel with
      | O => None
      | S f =>
          let (q2, vis2) := fold_left push (flat_map holders (nth top cl [])) (q', vis) in
          spread f len q2 vis2 (fun v => if memb v (nth top cl []) then len else d v)
      end
  end.
(** GIN.py:301-323: one component per round, started at the first unvisited cluster. *)
Fixpoint rounds (fuel : nat) (len : nat) (vis : list nat) (d : nat -> Z) : option (nat * (nat -> Z)) :=
  match fuel with
  | O => None
  | S f =>
      let start := match find (fun i => negb (memb i vis)) (seq 0 (length cl)) with Some i => ([i], i :: vis) | None => ([], vis) end in
      match spread (S (length cl)) (Z.of_nat len) (fst start) (snd start) d with
      | None => None
      | Some (vis2, d2) =>
          if existsb (fun i => negb (memb i vis2)) (seq 0 (length cl)) then rounds f (S len) vis2 d2 else Some (S len, d2)
      end
  end.
(** GIN.py:290-335 merge_overlaping_cluster; [cluster_dict] starts at -1 (a Python index counting from the end, hence the modulus). *)
Definition merge_overlaping_cluster : option (list (list nat)) :=
  match labels with
  | [] => Some []
  | _ =>
      match rounds (S (length cl)) 0 [] (fun _ => (-1)%Z) with
      | None => None
      | Some (len, d) => Some (map (fun k => filter (fun v => Z.eqb (d v mod Z.of_nat len) (Z.of_nat k)) labels) (seq 0 len))
      end
  end.
End Merge.

Section GIN.
Variable ord : list nat -> list nat.
(** [indep X Z c]: the p-value of the test of column c of the data against the surrogate [cal_e_with_gin(data, cov, X, Z)];
    [fisher]: fisher_test (GIN.py:16-19); both are arbitrary functions. *)
Variable indep : list nat -> list nat -> nat -> Z.
Variable fisher : list Z -> Z.
Variable alpha : Z.
(** GIN.py:65-69 and 97-101: the columns tested are [data[:, [z]]] for z in range(len(Z)). *)
Definition gin_pval (X Z' : list nat) : Z := fisher (map (indep X Z') (seq 0 (length Z'))).
Definition minus (l c : list nat) : list nat := filter (fun v => negb (memb v c)) l.
(** GIN.py:57-76: [vars] is var_set *)
Definition found (size : nat) (vars : list nat) : list (list nat) :=
  filter (fun c => Z.leb alpha (gin_pval c (ord (minus vars c)))) (combs size (ord vars)).
Fixpoint find_clusters (fuel size : nat) (vars : list nat) (acc : list (list nat)) : option (list (list nat) * list nat) :=
  if Nat.ltb size (length vars) then
    match fuel with
    | O => None
    | S f =>
        match merge_overlaping_cluster ord (found size vars) with
        | None => None
        | Some m => find_clusters f (S size) (minus vars (concat m)) (acc ++ m)
        end
    end
  else Some (acc, vars).

(** GIN.py:82-86 *)
Definition half (k : nat) (c : list nat) : list nat := nth k (array_split c 2) [].
(** GIN.py:91-104: cluster i is a root if the test against every other cluster is passed. *)
Definition passes (order : list (list nat)) (ci cj : list nat) : bool :=
  negb (Z.ltb (gin_pval (flat_map (half 0) order ++ half 0 ci ++ half 0 cj) (flat_map (half 1) order ++ half 1 ci)) alpha).
Definition is_root (order cls : list (list nat)) (i : nat) : bool :=
  forallb (fun j => Nat.eqb i j || passes order (nth i cls []) (nth j cls [])) (seq 0 (length cls)).
(** [list.remove]: the first equal element. *)
Fixpoint remove_first (c : list nat) (l : list (list nat)) : list (list nat) :=
  match l with [] => [] | a :: r => if list_eq_dec Nat.eq_dec a c then r else a :: remove_first c r end.
(** GIN.py:78-110 *)
Fixpoint order_loop (fuel : nat) (order cls : list (list nat)) : option (list (list nat) * list (list nat)) :=
  match find (is_root order cls) (seq 0 (length cls)) with
  | None => Some (order, cls)
  | Some i => match fuel with O => None | S f => order_loop f (order ++ [nth i cls []]) (remove_first (nth i cls []) cls) end
  end.

(** Node names (GIN.py:113-155): X{o+1} and L{k} as different numbers. *)
Definition obs (o : nat) : nat := 2 * o.
Definition lat (k : nat) : nat := 2 * k + 1.
(** GIN.py:129-133 *)
Definition members (k : nat) (c : list nat) : list nop := flat_map (fun o => [NAdd (obs o); NAddDirected (lat k) (obs o)]) c.
(** GIN.py:121-134: [ls] is l_nodes *)
Fixpoint ordered_ops (k : nat) (ls : list nat) (order : list (list nat)) : list nop :=
  match order with
  | [] => []
  | c :: r => NAdd (lat k) :: map (fun l => NAddDirected l (lat k)) ls ++ members k c ++ ordered_ops (S k) (ls ++ [lat k]) r
  end.
(** GIN.py:138-155: [us] is undirected_l_nodes *)
Fixpoint rest_ops (k : nat) (ls us : list nat) (cls : list (list nat)) : list nop :=
  match cls with
  | [] => []
  | c :: r => NAdd (lat k) :: map (fun l => NAddDirected l (lat k)) ls ++ map (fun l => NAddEdge l (lat k) TAIL TAIL) us
                ++ members k c ++ rest_ops (S k) ls (us ++ [lat k]) r
  end.
Definition gin_graph (vars : list nat) (order cls : list (list nat)) : res ngraph :=
  nrun (new_ngraph []) (map (fun v => NAdd (obs v)) (ord vars) ++ ordered_ops 1 [] order
    ++ rest_ops (S (length order)) (map lat (seq 1 (length order))) [] cls).
(** GIN.py:22-157 GIN *)
Definition GIN (n : nat) : option (res ngraph * list (list nat)) :=
  match find_clusters n 2 (seq 0 n) [] with
  | None => None
  | Some (clusters, vars) =>
      match order_loop (length clusters) [] clusters with
      | None => None
      | Some (order, cls) => Some (gin_graph vars order cls, order)
      end
  end.
End GIN.

Section GINMI.
Variable ord : list nat -> list nat.
(** [dep X Z]: the average dependence statistic (cal_dep_for_gin, GIN.py:225-247); [cap1], [cap2]: 1e9 and 1e30 of lines 181 and 264. *)
Variable dep : list nat -> list nat -> Z.
Variables cap1 cap2 : Z.
(** GIN.py:246: the average over an empty list Z divides by zero. *)
Definition cal_dep (X Z' : list nat) : res Z := match Z' with [] => Raise | _ => Ok (dep X Z') end.
(** GIN.py:185-188 *)
Definition better (s : Z) (x : list nat) (st : nat -> list nat * Z) (i : nat) : nat -> list nat * Z :=
  if Z.ltb s (snd (st i)) then fun k => if Nat.eqb k i then (x, s) else st k else st.
(** GIN.py:182-188 *)
Definition mi_pair (n : nat) (st : res (nat -> list nat * Z)) (x : list nat) : res (nat -> list nat * Z) :=
  res_bind st (fun st => res_bind (cal_dep (ord x) (ord (minus (seq 0 n) x))) (fun s => Ok (fold_left (better s x) (ord x) st))).
Definition min_clusters (n : nat) : res (nat -> list nat * Z) :=
  fold_left (mi_pair n) (combs 2 (ord (seq 0 n))) (Ok (fun _ => ([], cap1))).
(** GIN.py:250-278 find_root: the pair of clusters with the smallest statistic (the first one).  [i[0]] and [j[0]] raise on an empty cluster; clusters already
    ordered have two elements ([k[1]]). *)
Definition root_pair (order : list (list nat)) (st : res (list nat * Z)) (p : list nat * list nat) : res (list nat * Z) :=
  let (i, j) := p in
  if list_eq_dec Nat.eq_dec i j then st
  else res_bind st (fun st => match i, j with [], _ | _, [] => Raise | _, _ =>
    res_bind (cal_dep ([nth 0 i 0; nth 0 j 0] ++ map (fun k => nth 0 k 0) order) (tl i ++ map (fun k => nth 1 k 0) order)) (fun s =>
    Ok (if Z.ltb s (snd st) then (i, s) else st)) end).
Definition find_root (order cls : list (list nat)) : res (list nat) :=
  match cls with
  | [c] => Ok c
  | _ => res_bind (fold_left (root_pair order) (list_prod cls cls) (Ok (nth 0 cls [], cap2))) (fun st => Ok (fst st))
  end.
(** GIN.py:196-199 *)
Fixpoint mi_order (fuel : nat) (order cls : list (list nat)) : option (res (list (list nat))) :=
  match cls with
  | [] => Some (Ok order)
  | _ =>
      match fuel with
      | O => None
      | S f => match find_root order cls with Raise => Some Raise | Ok r => mi_order f (order ++ [r]) (remove_first r cls) end
      end
  end.
(** GIN.py:160-217 GIN_MI; the nodes are added as in GIN *)
Definition GIN_MI (n : nat) : option (res ngraph * list (list nat)) :=
  match min_clusters n with
  | Raise => Some (Raise, [])
  | Ok st =>
      match merge_overlaping_cluster ord (map (fun i => ord (fst (st i))) (seq 0 n)) with
      | None => None
      | Some cls =>
          match mi_order (length cls) [] cls with
          | None => None
          | Some Raise => Some (Raise, [])
          | Some (Ok order) => Some (nrun (new_ngraph []) (ordered_ops 1 [] order), order)
          end
      end
  end.
End GINMI.
