(** C11, C12, C35, C41: path search, cycle check, causal order, d-separation, sdh. *)
From Verif Require Import Base EdgeModel EdgeProofs GraphModel GraphSpec GraphProofs DpathProofs QueryProofs RankLib UtilsModel UtilsProofs DsepSpec DsepProofs.
Local Open Scope Z_scope.

(** A concrete DAG 0->1, 0->2, 1->2 with an isolated node 3, and the directed cycle 0->1->2->0. *)
Definition triangle : ggraph :=
  add_directed_edge (add_directed_edge (add_directed_edge (empty_graph 4) 0 1) 0 2) 1 2.
Definition ring3 : ggraph :=
  add_directed_edge (add_directed_edge (add_directed_edge (empty_graph 3) 0 1) 1 2) 2 0.

Ltac enum3 i H := destruct i as [|[|[|i]]]; [..|exfalso; cbn in H; lia].
Ltac enum4 i H := destruct i as [|[|[|[|i]]]]; [..|exfalso; cbn in H; lia].

Lemma triangle_wf : wf triangle.
Proof.
  split.
  - intros i Hi. enum4 i Hi; reflexivity.
  - intros i j Hi Hj. enum4 i Hi; enum4 j Hj; vm_compute; intuition.
Qed.

Lemma triangle_dag : dag triangle.
Proof.
  split; [exact triangle_wf|]. split.
  - apply (rank_acyclic (dedge triangle) (fun v => v)).
    intros a b (Ha & Hb & H). enum4 a Ha; enum4 b Hb; vm_compute in H; destruct H as [[H1 H2]|[H1 H2]]; try discriminate H1; try discriminate H2; lia.
  - intros i j Hi Hj H. enum4 i Hi; enum4 j Hj; vm_compute in H |- *; try (exfalso; apply H; reflexivity); auto.
Qed.

Lemma ring3_wf_simple : wf ring3 /\ simple ring3.
Proof.
  split; [split|].
  - intros i Hi. enum3 i Hi; reflexivity.
  - intros i j Hi Hj. enum3 i Hi; enum3 j Hj; vm_compute; intuition.
  - intros i j Hi Hj. enum3 i Hi; enum3 j Hj; vm_compute; intuition.
Qed.

Lemma ring3_cycle : reach1 (dedge ring3) 0%nat 0%nat.
Proof.
  assert (forall a b, (a, b) = (0,1)%nat \/ (a,b) = (1,2)%nat \/ (a,b) = (2,0)%nat -> dedge ring3 a b) as H.
  { intros a b [H|[H|H]]; injection H as -> ->; (split; [cbn; lia|split; [cbn; lia|left; split; reflexivity]]). }
  exists 1%nat. split; [apply H; auto|]. eapply reach_step; [apply H; right; left; reflexivity|].
  eapply reach_step; [apply H; right; right; reflexivity|constructor].
Qed.

(** C11, path search: on a graph without parallel edges the breadth-first search terminates (its
    loop makes at most one pass per node) and, for two different nodes, answers exactly reachability. *)
Theorem C11_directed_path_search : forall g from to fuel,
  wf g -> simple g -> (from < gn g)%nat -> (gn g < fuel)%nat -> from <> to ->
  exists b, exists_directed_path fuel g from to = Ret b /\ (b = true <-> reach1 (dedge g) from to).
Proof.
  intros g from to fuel Hw Hs Hf Hfu Hne.
  destruct (exists_path_correct g from to fuel Hw Hs Hf Hfu) as (b & E & H1 & H2).
  exists b. split; [exact E|]. split.
  - intros ->. now apply H1.
  - intros (c & Hc & Hr). destruct b; [reflexivity|]. exfalso. destruct (H2 eq_refl) as [->|H]; [now apply Hne|].
    apply H. eapply reach_step; eauto.
Qed.
Print Assumptions C11_directed_path_search.

Example C11_path_ex : exists_directed_path 5 triangle 0 2 = Ret true /\ exists_directed_path 5 triangle 2 0 = Ret false.
Proof. split; reflexivity. Qed.

(** C11 refuted: the answer is False for every graph without parallel edges, cyclic or not. *)
Theorem C11_cycle_check_never_true_refuted :
  (forall g fuel, wf g -> simple g -> (gn g < fuel)%nat -> exists_directed_cycle fuel g = Ret false) /\
  (exists g v, wf g /\ simple g /\ reach1 (dedge g) v v).
Proof.
  split; [intros; now apply cycle_never|]. exists ring3, 0%nat.
  split; [apply ring3_wf_simple|]. split; [apply ring3_wf_simple|apply ring3_cycle].
Qed.
Print Assumptions C11_cycle_check_never_true_refuted.

(** C11, the half that holds: no false alarm, exists_directed_cycle is False on every acyclic graph. *)
Theorem C11_no_false_cycle_partial : forall g fuel, wf g -> simple g -> (gn g < fuel)%nat ->
  (forall v, ~ reach1 (dedge g) v v) -> exists_directed_cycle fuel g = Ret false.
Proof. intros; now apply cycle_never. Qed.
Print Assumptions C11_no_false_cycle_partial.

(** C12: on every acyclic graph (without parallel edges; error nodes are left out) the ordering
    terminates and lists each node exactly once, after all of its (non-error) parents. *)
Theorem C12_causal_order_topological : forall g err fuel,
  wf g -> simple g -> acyclic (dedge g) -> (gn g < fuel)%nat ->
  exists l, get_causal_order fuel g err = Ret l /\ NoDup l /\
    (forall v, In v l <-> (v < gn g)%nat /\ err v = false) /\
    (forall l1 v l2, l = l1 ++ v :: l2 -> forall p, dedge g p v -> err p = false -> In p l1).
Proof. exact causal_order_correct. Qed.
Print Assumptions C12_causal_order_topological.

Example C12_ex : get_causal_order 5 triangle (fun _ => false) = Ret [0; 1; 2; 3]%nat /\ wf triangle /\ simple triangle /\ acyclic (dedge triangle).
Proof. split; [reflexivity|]. split; [apply triangle_wf|]. split; [apply dag_simple, triangle_dag|apply triangle_dag]. Qed.

(** C12, cyclic inputs: the ValueError is never raised, the call does not return. *)
Theorem C12_cyclic_never_returns_refuted : forall g fuel,
  wf g -> simple g -> (exists v, reach1 (dedge g) v v) -> (gn g < fuel)%nat ->
  get_causal_order fuel g (fun _ => false) = Running.
Proof. exact causal_order_cyclic_diverges. Qed.
Print Assumptions C12_cyclic_never_returns_refuted.

Example C12_cyclic_ex : wf ring3 /\ simple ring3 /\ (exists v, reach1 (dedge ring3) v v) /\
  get_causal_order 1000 ring3 (fun _ => false) = Running.
Proof.
  split; [apply ring3_wf_simple|]. split; [apply ring3_wf_simple|]. split; [exists 0%nat; apply ring3_cycle|].
  apply C12_cyclic_never_returns_refuted; try apply ring3_wf_simple; [exists 0%nat; apply ring3_cycle|cbn; lia].
Qed.

(** C35: whenever is_dconnected_to returns, its answer is d-connection.  [_partial]: it need not return.
    [afuel] is the (sufficient) fuel of the ancestor searches, [fuel] that of the main loop. *)
Theorem C35_dconnection_correct_partial : forall g x y Z, dag g -> (x < gn g)%nat -> x <> y -> (forall v, In v Z -> (v < gn g)%nat) ->
  exists N, forall fuel afuel b, (N <= afuel)%nat ->
    is_dconnected_to fuel afuel g x y Z = Ret b -> (b = true <-> dconnected g x y Z).
Proof.
  intros g x y Z Hd Hx Hxy HZ. exists (anc_fuel g Z). intros fuel afuel b Hf.
  apply dcon_partial; auto.
Qed.
Print Assumptions C35_dconnection_correct_partial.

(** With an empty conditioning set it does return, on every DAG: full correctness for marginal d-separation. *)
Theorem C35_marginal_dseparation : forall g x y, dag g -> (x < gn g)%nat -> x <> y ->
  exists N, forall fuel, (N <= fuel)%nat ->
    exists b, is_dconnected_to fuel fuel g x y [] = Ret b /\ (b = true <-> dconnected g x y []).
Proof.
  intros g x y Hd Hx Hxy. destruct (dcon_empty_terminates g x y Hd Hx) as (N & HN).
  exists (N + anc_fuel g [])%nat. intros fuel Hf. destruct (HN fuel) as (b & E); [lia|].
  exists b. split; [exact E|]. revert E. apply dcon_partial; auto; [intros v []|lia].
Qed.
Print Assumptions C35_marginal_dseparation.

Example C35_ex : dag triangle /\ is_dconnected_to 50 50 triangle 1 3 [] = Ret false /\
  is_dconnected_to 50 50 triangle 0 2 [1%nat] = Ret true.
Proof. split; [exact triangle_dag|]. split; reflexivity. Qed.

(** The ancestor helper is correct on every DAG. *)
Theorem C35_is_ancestor_correct : forall g node z, dag g -> (forall v, In v z -> (v < gn g)%nat) ->
  exists N, forall fuel, (N <= fuel)%nat ->
  exists b, is_ancestor fuel g node z = Ret b /\ (b = true <-> exists q, In q z /\ reach (dedge g) node q).
Proof.
  intros g node z Hd Hz. exists (anc_fuel g z). intros fuel Hf. now apply is_ancestor_correct.
Qed.
Print Assumptions C35_is_ancestor_correct.

(** C35 refuted: on a four-node DAG the query "X0 and X3 given X2" never returns, although X3 is isolated:
    the search has no visited set and keeps walking round the triangle. *)
Definition tri_states : list (edge * nat) :=
  map (fun p => (dmark triangle (fst p) (snd p), fst p)) [(0,1); (1,2); (2,0); (1,0); (0,2); (2,1)]%nat.

Lemma tri_step k s Q : In s tri_states ->
  match get_distal_node (fst s) (snd s) with
  | None => False
  | Some b => exists s', In s' tri_states /\
      dcon_inner (20 + k) triangle 3 [2%nat] (fst s) (snd s) b (get_node_edges triangle b) Q = DCont (s' :: Q)
  end.
Proof.
  intros Hs. cbn in Hs. destruct Hs as [<-|[<-|[<-|[<-|[<-|[<-|[]]]]]]]; cbn [fst snd];
  (match goal with |- match ?x with _ => _ end => let y := eval vm_compute in x in change x with y end);
  cbv iota beta; eexists; (split; [|
   match goal with |- dcon_inner ?a ?b ?c ?d ?e ?f ?h ?i ?j = _ =>
     let i' := eval vm_compute in i in change i with i' end; cbn; reflexivity]); vm_compute; intuition.
Qed.

Theorem C35_query_never_returns_refuted :
  dag triangle /\ ~ dconnected triangle 0 3 [2%nat] /\
  forall fuel k, is_dconnected_to fuel (20 + k) triangle 0 3 [2%nat] = Running.
Proof.
  split; [exact triangle_dag|]. split.
  - intros (m & _ & H & _).
    destruct (@exists_last _ (0%nat :: m)) as (l & a & E); [discriminate|].
    change (0%nat :: m ++ [3%nat]) with ((0%nat :: m) ++ [3%nat]) in H. rewrite E, <- app_assoc in H.
    specialize (H l a 3%nat [] eq_refl). apply (adjacent_spec triangle triangle_dag) in H.
    destruct H as (Ha & _ & Hn). apply Hn. clear - Ha. enum4 a Ha; reflexivity.
  - intros fuel k.
    assert (G : forall fuel s Q, In s tri_states -> dcon_loop fuel (20 + k) triangle 3 [2%nat] (s :: Q) = Running).
    { induction fuel0 as [|f IH]; intros s Q Hs; [reflexivity|]. cbn [dcon_loop]. destruct s as [e a].
      pose proof (tri_step k (e, a) Q Hs) as H. cbn [fst snd] in H.
      destruct (get_distal_node e a) as [b|]; [|destruct H]. destruct H as (s' & Hs' & ->). now apply IH. }
    unfold is_dconnected_to. cbn [Nat.eqb].
    match goal with |- (if ?c then _ else _) = _ => replace c with false by reflexivity end.
    replace (rev (map (fun e => (e, 0%nat)) (get_node_edges triangle 0)))
      with [(dmark triangle 0 2, 0%nat); (dmark triangle 0 1, 0%nat)] by reflexivity.
    apply G. vm_compute. intuition.
Qed.
Print Assumptions C35_query_never_returns_refuted.

(** C41: GraphUtils.sdh. *)
Lemma shd_one_sym e1 e2 : shd_one_edge e1 e2 = shd_one_edge e2 e1.
Proof.
  destruct e1 as [[a1 b1 p1 q1 ? ?]|], e2 as [[a2 b2 p2 q2 ? ?]|].
  - destruct p1, q1, p2, q2; reflexivity.
  - destruct p1, q1; reflexivity.
  - destruct p2, q2; reflexivity.
  - reflexivity.
Qed.

Lemma fold_left_ext_in {A B} (f h : A -> B -> A) l : forall a,
  (forall x y, In y l -> f x y = h x y) -> fold_left f l a = fold_left h l a.
Proof.
  induction l as [|b l IH]; intros a H; cbn; [reflexivity|]. rewrite H by now left. apply IH. intros; apply H; now right.
Qed.

Lemma fold_left_absorb {A B} (f : A -> B -> A) (z : A) l : forall a,
  (forall y, f z y = z) -> (exists y, In y l /\ forall x, f x y = z) -> fold_left f l a = z.
Proof.
  intros a Hz (y & Hy & Hf). apply in_split in Hy. destruct Hy as (l1 & l2 & ->).
  rewrite fold_left_app. cbn. rewrite Hf. clear - Hz. induction l2; cbn; [reflexivity|]. now rewrite Hz.
Qed.

(** sdh is symmetric. *)
Theorem C41_sdh_symmetric_partial : forall g1 g2, gn g1 = gn g2 -> sdh g1 g2 = sdh g2 g1.
Proof.
  intros g1 g2 E. unfold sdh. rewrite <- E. apply fold_left_ext_in. intros x i1 _. apply fold_left_ext_in.
  intros acc i2 _. unfold res_bind. destruct acc; [|reflexivity].
  destruct (get_edge g1 i1 i2) as [e1|], (get_edge g2 i1 i2) as [e2|]; try reflexivity.
  now rewrite shd_one_sym.
Qed.
Print Assumptions C41_sdh_symmetric_partial.

(** C41 refuted: sdh raises as soon as some pair of nodes (other than the first node) is adjacent in neither graph. *)
Theorem C41_sdh_raises_refuted : forall g1 g2 i j, (1 <= i)%nat -> (i < j)%nat -> (j < gn g1)%nat ->
  gm g1 i j = 0 -> gm g2 i j = 0 -> sdh g1 g2 = Raise.
Proof.
  intros g1 g2 i j Hi Hij Hj E1 E2. unfold sdh. apply fold_left_absorb.
  - intros i1. assert (G : forall l, fold_left (fun acc i2 => res_bind acc (fun s => res_bind (get_edge g1 i1 i2) (fun e1 => res_bind (get_edge g2 i1 i2) (fun e2 => res_bind (shd_one_edge e1 e2) (fun d => Ok (s + d)))))) l (Raise : res Z) = Raise).
    { induction l; cbn; auto. } apply G.
  - exists i. split; [apply in_seq; lia|]. intros acc. apply fold_left_absorb; [reflexivity|].
    exists j. split; [apply in_seq; lia|]. intros x. unfold get_edge. rewrite E1, E2. destruct x; reflexivity.
Qed.
Print Assumptions C41_sdh_raises_refuted.

(** C41 refuted: a reversed edge costs nothing, and the first node's edges are never looked at. *)
Theorem C41_sdh_reversal_free_refuted : forall a b, a <> b ->
  shd_one_edge (Some (Edge a b TAIL ARROW)) (Some (Edge a b ARROW TAIL)) = Ok 0.
Proof. reflexivity. Qed.
Print Assumptions C41_sdh_reversal_free_refuted.

Theorem C41_sdh_ignores_first_node_refuted : forall g1 g1' g2, gn g1 = gn g1' ->
  (forall i j, (1 <= i)%nat -> (1 <= j)%nat -> gm g1 i j = gm g1' i j) -> sdh g1 g2 = sdh g1' g2.
Proof.
  intros g1 g1' g2 En Em. unfold sdh. rewrite <- En. apply fold_left_ext_in. intros x i1 H1. apply in_seq in H1.
  apply fold_left_ext_in. intros acc i2 H2. apply in_seq in H2.
  unfold get_edge at 1 3. rewrite (Em i1 i2), (Em i2 i1) by lia. reflexivity.
Qed.
Print Assumptions C41_sdh_ignores_first_node_refuted.

Example C41_ex : let g := add_directed_edge (add_directed_edge (empty_graph 3) 0 1) 1 2 in
  let h := add_directed_edge (empty_graph 3) 2 1 in sdh g h = Ok 0 /\ sdh g g = Ok 0 /\ sdh (empty_graph 3) (empty_graph 3) = Raise.
Proof. repeat split; reflexivity. Qed.
