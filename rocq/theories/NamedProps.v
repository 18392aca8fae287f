(** C13-C15 (graph comparison), C08 for Dag, C40 (node bookkeeping), C42 (subgraph), C43 (graph equality). *)
From Coq Require Import Permutation.
From Verif Require Import Base EdgeModel EdgeProofs GraphModel GraphSpec GraphProofs DpathProofs SumLib QueryProofs NamedModel NamedProofs.
Local Open Scope Z_scope.

(** A graph as the API builds it: node names distinct, node_map = positions, legal edges (C40 shows histories stay here). *)
Definition api_graph (G : ngraph) : Prop := consistent G /\ wf (ng G).

(** Two graphs over the same node names, possibly listed in different orders. *)
Definition same_names (T E : ngraph) : Prop := Permutation (nodes T) (nodes E).

Lemma api_no_loops G : api_graph G -> no_loops G.
Proof. intros [_ [H _]]. exact H. Qed.

Lemma shd_sum T E : api_graph T -> api_graph E -> same_names T E ->
  exists d, shd T E = Ok d /\ 2 * d = sum_over (nodes T) (fun a => sum_over (nodes T) (fun b => differ T E a b)).
Proof. intros HT HE HP. apply shd_value; auto using api_no_loops; [apply HT|apply HE]. Qed.

Lemma double_sum_perm l l' (f : nat -> nat -> Z) : Permutation l l' ->
  sum_over l (fun a => sum_over l (fun b => f a b)) = sum_over l' (fun a => sum_over l' (fun b => f a b)).
Proof.
  intros H. rewrite (sum_over_perm l l') by exact H. apply sum_over_ext. intros. now apply sum_over_perm.
Qed.

Lemma nget_edge_cells G a b : api_graph G -> In a (nodes G) -> In b (nodes G) ->
  nget_edge G a b = if cell G a b =? 0 then Ok None
        else res_bind (endpoint_of (cell G a b)) (fun p => res_bind (endpoint_of (cell G b a)) (fun q => Ok (Some (Edge a b p q)))).
Proof.
  intros [HC _] Ha Hb. destruct (id_of_spec G a HC Ha) as [Ea _], (id_of_spec G b HC Hb) as [Eb _].
  apply (nget_edge_idx G a b _ _ HC Ea Eb).
Qed.

Lemma cell_legal G a b : api_graph G -> In a (nodes G) -> In b (nodes G) -> legal_pair (cell G a b) (cell G b a).
Proof.
  intros [HC HW] Ha Hb. destruct (id_of_spec G a HC Ha) as [_ Ea], (id_of_spec G b HC Hb) as [_ Eb]. apply HW; auto.
Qed.

Lemma cell_diag G a : api_graph G -> In a (nodes G) -> cell G a a = 0.
Proof. intros [HC HW] Ha. destruct (id_of_spec G a HC Ha) as [_ Ea]. now apply HW. Qed.

Lemma legal_endpoint x y : legal_pair x y -> exists p q, endpoint_of x = Ok p /\ endpoint_of y = Ok q /\ x = ev p /\ y = ev q.
Proof.
  intros H. pair_cases H; subst; do 2 eexists; repeat split; try reflexivity; cbn; reflexivity.
Qed.

Lemma legal_zero x y : legal_pair x y -> (x = 0 <-> y = 0).
Proof. intros H. pair_cases H; lia. Qed.

(** Agreement of the two cells is agreement of get_edge. *)
Lemma differ_get_edge T E a b : api_graph T -> api_graph E -> In a (nodes T) -> In b (nodes T) -> In a (nodes E) -> In b (nodes E) ->
  (differ T E a b = 0 <-> nget_edge T a b = nget_edge E a b).
Proof.
  intros HT HE A1 B1 A2 B2.
  destruct (Nat.eq_dec a b) as [->|Hab].
  { unfold differ. rewrite !nget_edge_cells, !cell_diag by auto. cbn. tauto. }
  rewrite !nget_edge_cells by auto.
  pose proof (cell_legal T a b HT A1 B1) as L1. pose proof (cell_legal E a b HE A2 B2) as L2.
  pose proof (legal_zero _ _ L1) as Z1. pose proof (legal_zero _ _ L2) as Z2.
  destruct (legal_endpoint _ _ L1) as (p & q & E1 & E2 & E3 & E4). destruct (legal_endpoint _ _ L2) as (p' & q' & F1 & F2 & F3 & F4).
  rewrite E1, E2, F1, F2. cbn [res_bind]. unfold differ.
  assert (HX : Edge a b p q = Edge a b p' q' -> p = p' /\ q = q').
  { intros HX. pose proof (Edge_proximal a b p q Hab) as (P1 & P2 & _). pose proof (Edge_proximal a b p' q' Hab) as (P1' & P2' & _).
    rewrite HX in P1, P2. split; congruence. }
  destruct (Z.eqb_spec (cell T a b) (cell E a b)) as [X|X], (Z.eqb_spec (cell T b a) (cell E b a)) as [Y|Y]; cbn [andb].
  - split; [|reflexivity]. intros _. assert (p = p') by congruence. assert (q = q') by congruence. subst p' q'. now rewrite X.
  - split; [discriminate|]. intros H. exfalso.
    destruct (Z.eqb_spec (cell T a b) 0), (Z.eqb_spec (cell E a b) 0); try lia; try discriminate H.
    injection H as H. apply HX in H. destruct H. congruence.
  - split; [discriminate|]. intros H. exfalso.
    destruct (Z.eqb_spec (cell T a b) 0), (Z.eqb_spec (cell E a b) 0); try lia; try discriminate H.
    injection H as H. apply HX in H. destruct H. congruence.
  - split; [discriminate|]. intros H. exfalso.
    destruct (Z.eqb_spec (cell T a b) 0), (Z.eqb_spec (cell E a b) 0); try lia; try discriminate H.
    injection H as H. apply HX in H. destruct H. congruence.
Qed.

(* ---------- C13 ---------- *)
Definition exT : ngraph := match nrun (new_ngraph [7; 8; 9]%nat) [NAddDirected 7 8; NAddDirected 8 9] with Ok G => G | Raise => new_ngraph [] end.
Definition exE : ngraph := match nrun (new_ngraph [9; 7; 8]%nat) [NAddDirected 8 7; NAddDirected 8 9] with Ok G => G | Raise => new_ngraph [] end.

Lemma ex_api : api_graph exT /\ api_graph exE /\ same_names exT exE.
Proof.
  assert (A : forall l ops G, NoDup l -> Forall nop_ok ops -> nrun (new_ngraph l) ops = Ok G -> api_graph G).
  { intros l ops G Hd Ho Hr. apply (nrun_inv ops (new_ngraph l)); auto using new_consistent. apply empty_wf. }
  split; [|split].
  - apply (A [7; 8; 9]%nat [NAddDirected 7 8; NAddDirected 8 9]); try reflexivity;
    repeat constructor; cbn; try lia; intuition lia.
  - apply (A [9; 7; 8]%nat [NAddDirected 8 7; NAddDirected 8 9]); try reflexivity;
    repeat constructor; cbn; try lia; intuition lia.
  - unfold same_names. vm_compute. apply (Permutation_app_comm [7; 8]%nat [9]%nat).
Qed.

Theorem C13_shd_symmetric : forall T E, api_graph T -> api_graph E -> same_names T E ->
  exists d, shd T E = Ok d /\ shd E T = Ok d.
Proof.
  intros T E HT HE HP. destruct (shd_sum T E HT HE HP) as (d & E1 & D1).
  destruct (shd_sum E T HE HT (Permutation_sym HP)) as (d' & E2 & D2).
  exists d. split; [exact E1|]. rewrite E2. f_equal.
  assert (2 * d' = 2 * d); [|lia]. rewrite D1, D2, (double_sum_perm _ _ _ (Permutation_sym HP)).
  apply sum_over_ext. intros. apply sum_over_ext. intros. apply differ_comm.
Qed.
Print Assumptions C13_shd_symmetric.

Theorem C13_shd_zero_iff_same_edges : forall T E, api_graph T -> api_graph E -> same_names T E ->
  (shd T E = Ok 0 <-> forall a b, In a (nodes T) -> In b (nodes T) -> nget_edge T a b = nget_edge E a b).
Proof.
  intros T E HT HE HP. destruct (shd_sum T E HT HE HP) as (d & E1 & D1).
  assert (HinE : forall a, In a (nodes T) -> In a (nodes E)) by (intros a; now apply Permutation_in).
  rewrite E1. split.
  - intros H a b Ha Hb. injection H as ->. apply (differ_get_edge T E); auto.
    assert (Hz := sum_over_zero_inv (nodes T) (fun a => sum_over (nodes T) (fun b => differ T E a b))).
    assert (Ha0 : sum_over (nodes T) (fun b => differ T E a b) = 0).
    { apply Hz; auto. intros k _. apply sum_over_nonneg. intros. apply differ_bounds. }
    apply (sum_over_zero_inv (nodes T) (fun b => differ T E a b)); auto. intros. apply differ_bounds.
  - intros H. f_equal. assert (2 * d = 0); [|lia]. rewrite D1. apply sum_over_zero. intros a Ha. apply sum_over_zero. intros b Hb.
    apply (differ_get_edge T E); auto.
Qed.
Print Assumptions C13_shd_zero_iff_same_edges.

Theorem C13_shd_triangle_and_bounds : forall T E F, api_graph T -> api_graph E -> api_graph F -> same_names T E -> same_names E F ->
  exists x y z, shd T F = Ok x /\ shd T E = Ok y /\ shd E F = Ok z /\ x <= y + z /\
    0 <= x /\ 2 * x <= Z.of_nat (length (nodes T)) * (Z.of_nat (length (nodes T)) - 1).
Proof.
  intros T E F HT HE HF P1 P2.
  destruct (shd_sum T F HT HF (Permutation_trans P1 P2)) as (x & E1 & D1).
  destruct (shd_sum T E HT HE P1) as (y & E2 & D2). destruct (shd_sum E F HE HF P2) as (z & E3 & D3).
  exists x, y, z. repeat split; auto.
  - rewrite <- (double_sum_perm _ _ _ P1) in D3.
    assert (2 * x <= 2 * y + 2 * z); [|lia]. rewrite D1, D2, D3, <- sum_over_plus. apply sum_over_le. intros a _.
    rewrite <- sum_over_plus. apply sum_over_le. intros. apply differ_tri.
  - assert (0 <= 2 * x); [|lia]. rewrite D1. apply sum_over_nonneg. intros. apply sum_over_nonneg. intros. apply differ_bounds.
  - rewrite D1. rewrite <- (all_cells_names T (differ T F)). unfold all_cells.
    set (n := length (nodes T)).
    rewrite (sum_square_sym n (fun i j => differ T F (nth i (nodes T) 0%nat) (nth j (nodes T) 0%nat))).
    + pose proof (sum_pairs_const n 1) as HC.
      assert (sum_pairs n (fun i j => differ T F (nth i (nodes T) 0%nat) (nth j (nodes T) 0%nat)) <= sum_pairs n (fun _ _ => 1))
        by (apply sum_pairs_le; intros; apply differ_bounds). lia.
    + intros i Hi. apply differ_diag; auto using api_no_loops; [apply HT|apply HF|apply nth_In, Hi|].
      eapply Permutation_in; [exact (Permutation_trans P1 P2)|apply nth_In, Hi].
    + intros. apply differ_sym.
Qed.
Print Assumptions C13_shd_triangle_and_bounds.

Example C13_ex : shd exT exE = Ok 1 /\ api_graph exT /\ api_graph exE /\ same_names exT exE.
Proof. split; [reflexivity|apply ex_api]. Qed.

(* ---------- C14 ---------- *)
Lemma pair_count_double T f : (forall a b, In a (nodes T) -> In b (nodes T) -> f a b = f b a) -> (forall a, In a (nodes T) -> f a a = false) ->
  2 * pair_count T f = sum_over (nodes T) (fun a => sum_over (nodes T) (fun b => b2z (f a b))).
Proof.
  intros Hs Hi. rewrite <- (all_cells_names T (fun a b => b2z (f a b))). unfold all_cells, pair_count. symmetry.
  apply (sum_square_sym (length (nodes T)) (fun i j => b2z (f (nth i (nodes T) 0%nat) (nth j (nodes T) 0%nat)))).
  - intros i H. rewrite Hi; [reflexivity|]. apply nth_In, H.
  - intros i j H1 H2. rewrite Hs; [reflexivity| |]; apply nth_In; auto.
Qed.

Lemma nadjacent_sym G a b : api_graph G -> In a (nodes G) -> In b (nodes G) -> nadjacent G a b = nadjacent G b a.
Proof.
  intros HG Ha Hb. unfold nadjacent. pose proof (legal_zero _ _ (cell_legal G a b HG Ha Hb)) as H.
  destruct (Z.eqb_spec (cell G b a) 0), (Z.eqb_spec (cell G a b) 0); try reflexivity; tauto.
Qed.
Lemma nadjacent_irrefl G a : api_graph G -> In a (nodes G) -> nadjacent G a a = false.
Proof. intros HG Ha. unfold nadjacent. rewrite cell_diag by auto. reflexivity. Qed.

(** Number of adjacent (unordered) pairs. *)
Definition adjacent_pairs (G : ngraph) : Z := pair_count G (nadjacent G).

Lemma pair_count_plus T f g h : (forall a b, b2z (f a b) + b2z (g a b) = b2z (h a b)) -> pair_count T f + pair_count T g = pair_count T h.
Proof.
  intros H. unfold pair_count. rewrite <- sum_over_plus. apply sum_over_ext. intros i _. rewrite <- sum_over_plus.
  apply sum_over_ext. intros j _. apply (H (nth i (nodes T) 0%nat) (nth j (nodes T) 0%nat)).
Qed.

Theorem C14_adjacency_confusion : forall T E, api_graph T -> api_graph E -> same_names T E ->
  let n := Z.of_nat (length (nodes T)) in
  0 <= adj_tp T E /\ 0 <= adj_fp T E /\ 0 <= adj_fn T E /\ 0 <= adj_tn T E /\
  2 * (adj_tp T E + adj_fp T E + adj_fn T E + adj_tn T E) = n * (n - 1) /\
  adj_tp T E + adj_fn T E = adjacent_pairs T /\
  adj_tp T E + adj_fp T E = adjacent_pairs E.
Proof.
  intros T E HT HE HP n.
  assert (NN : forall f, 0 <= pair_count T f).
  { intros f. unfold pair_count. apply sum_over_nonneg. intros. apply sum_over_nonneg. intros. destruct (f _ _); lia. }
  assert (A1 : adj_tp T E + adj_fn T E = adjacent_pairs T).
  { apply pair_count_plus. intros a b. destruct (nadjacent T a b), (nadjacent E a b); reflexivity. }
  assert (A2 : adj_tp T E + adj_fp T E = pair_count T (nadjacent E)).
  { apply pair_count_plus. intros a b. destruct (nadjacent T a b), (nadjacent E a b); reflexivity. }
  assert (A3 : pair_count T (nadjacent E) = adjacent_pairs E).
  { assert (2 * pair_count T (nadjacent E) = 2 * adjacent_pairs E); [|lia]. unfold adjacent_pairs. rewrite !pair_count_double.
    - apply (double_sum_perm _ _ (fun a b => b2z (nadjacent E a b)) HP).
    - intros. now apply nadjacent_sym.
    - intros. now apply nadjacent_irrefl.
    - intros. apply nadjacent_sym; auto; eapply Permutation_in; eauto.
    - intros. apply nadjacent_irrefl; auto; eapply Permutation_in; eauto. }
  assert (A4 : adj_fn T E + adj_tn T E = pair_count T (fun a b => negb (nadjacent E a b))).
  { apply pair_count_plus. intros a b. destruct (nadjacent T a b), (nadjacent E a b); reflexivity. }
  assert (A5 : pair_count T (nadjacent E) + pair_count T (fun a b => negb (nadjacent E a b)) = pair_count T (fun _ _ => true)).
  { apply pair_count_plus. intros a b. destruct (nadjacent E a b); reflexivity. }
  assert (A6 : 2 * pair_count T (fun _ _ => true) = n * (n - 1)).
  { pose proof (sum_pairs_const (length (nodes T)) 1) as HC. unfold n. unfold sum_pairs in HC. unfold pair_count. lia. }
  unfold adj_tp, adj_fp, adj_fn, adj_tn in *. repeat split; auto; lia.
Qed.
Print Assumptions C14_adjacency_confusion.

(** Comparing a graph with itself: no false positives or negatives; and on graphs without parallel edges the adjacent
    pairs are the edges get_num_edges counts. *)
Theorem C14_self_and_edge_count : forall T, api_graph T ->
  adj_fp T T = 0 /\ adj_fn T T = 0 /\ (simple (ng T) -> adjacent_pairs T = get_num_edges (ng T)).
Proof.
  intros T HT.
  assert (Z0 : pair_count T (fun a b => nadjacent T a b && negb (nadjacent T a b)) = 0).
  { unfold pair_count. apply sum_over_zero. intros. apply sum_over_zero. intros. destruct (nadjacent T _ _); reflexivity. }
  split; [exact Z0|]. split; [exact Z0|]. intros Hs.
  unfold adjacent_pairs, pair_count, get_num_edges. destruct HT as [HC HW]. destruct HC as (Hd & Hn & Hm) eqn:EC. rewrite Hn.
  apply sum_over_ext. intros i Hi. apply sum_over_ext. intros j Hj. apply in_seq in Hi, Hj.
  assert (HI : forall k, (k < length (nodes T))%nat -> id_of T (nth k (nodes T) 0%nat) = k).
  { intros k Hk. unfold id_of. rewrite (proj2 (consistent_get T _ k HC)); [reflexivity|]. now apply nth_error_nth'. }
  unfold nadjacent, cell. rewrite !HI by lia. rewrite <- Hn in *.
  assert (L : legal_pair (gm (ng T) i j) (gm (ng T) j i)) by (apply HW; lia).
  pose proof (legal_zero _ _ L) as Z. specialize (Hs i j ltac:(lia) ltac:(lia)). unfold cellw.
  destruct (Z.eqb_spec (gm (ng T) j i) 0) as [E0|E0]; cbn [negb].
  - apply Z in E0. rewrite E0. reflexivity.
  - destruct Hs as [-> | [H | [-> | ->]]]; try reflexivity. tauto.
Qed.
Print Assumptions C14_self_and_edge_count.

Example C14_ex : adj_tp exT exE = 2 /\ adj_fp exT exE = 0 /\ adj_fn exT exE = 0 /\ adj_tn exT exE = 1 /\ adjacent_pairs exT = 2.
Proof. repeat split; reflexivity. Qed.

(* ---------- C15 ---------- *)
(** Number of arrowheads: ordered pairs (a, b) whose edge has an arrowhead at b. *)
Definition arrowheads (G : ngraph) : Z := sum_over (nodes G) (fun a => sum_over (nodes G) (fun b => b2z (arrow_at G a b))).

Theorem C15_arrow_confusion : forall T E, same_names T E ->
  let n := Z.of_nat (length (nodes T)) in
  arrows_tp T E + arrows_fn T E = arrowheads T /\
  arrows_tp T E + arrows_fp T E = arrowheads E /\
  arrows_tp T E + arrows_fp T E + arrows_fn T E + arrows_tn T E = n * n /\
  arrows_fp T E = arrows_fn E T /\ arrows_tp T E = arrows_tp E T /\ arrows_tn T E = arrows_tn E T.
Proof.
  intros T E HP n. unfold arrows_tp, arrows_fn, arrows_fp, arrows_tn, cf_tn, cf_tp, cf_fn, cf_fp, arrowheads.
  rewrite !all_cells_names. rewrite <- !(double_sum_perm _ _ _ HP).
  set (S := fun f : nat -> nat -> Z => sum_over (nodes T) (fun a => sum_over (nodes T) (fun b => f a b))).
  assert (SP : forall f g h, (forall a b, f a b + g a b = h a b) -> S f + S g = S h).
  { intros f g h H. unfold S. rewrite <- sum_over_plus. apply sum_over_ext. intros. rewrite <- sum_over_plus. apply sum_over_ext. auto. }
  assert (SE : forall f g, (forall a b, f a b = g a b) -> S f = S g).
  { intros f g H. unfold S. apply sum_over_ext. intros. apply sum_over_ext. auto. }
  assert (S1 : S (fun _ _ => 1) = n * n).
  { unfold S. rewrite (sum_over_ext _ _ (fun _ => n)); [rewrite sum_over_const; unfold n; lia|].
    intros. rewrite sum_over_const. unfold n. lia. }
  split; [|split; [|split; [|split; [|split]]]].
  - apply (SP (fun a b => Z.min (b2z (b2z (arrow_at T a b) =? b2z (arrow_at E a b))) (b2z (arrow_at T a b)))
              (fun a b => Z.max (b2z (arrow_at T a b) - b2z (arrow_at E a b)) 0) (fun a b => b2z (arrow_at T a b))).
    intros a b. destruct (arrow_at T a b), (arrow_at E a b); reflexivity.
  - apply (SP (fun a b => Z.min (b2z (b2z (arrow_at T a b) =? b2z (arrow_at E a b))) (b2z (arrow_at T a b)))
              (fun a b => Z.max (b2z (arrow_at E a b) - b2z (arrow_at T a b)) 0) (fun a b => b2z (arrow_at E a b))).
    intros a b. destruct (arrow_at T a b), (arrow_at E a b); reflexivity.
  - rewrite <- S1.
    change (S (fun a b => Z.min (b2z (b2z (arrow_at T a b) =? b2z (arrow_at E a b))) (b2z (arrow_at T a b)))
            + S (fun a b => Z.max (b2z (arrow_at E a b) - b2z (arrow_at T a b)) 0)
            + S (fun a b => Z.max (b2z (arrow_at T a b) - b2z (arrow_at E a b)) 0)
            + (S (fun a b => b2z (b2z (arrow_at T a b) =? b2z (arrow_at E a b)))
               - S (fun a b => Z.min (b2z (b2z (arrow_at T a b) =? b2z (arrow_at E a b))) (b2z (arrow_at T a b))))
            = S (fun _ _ => 1)).
    rewrite <- (SP (fun a b => 1 - b2z (b2z (arrow_at T a b) =? b2z (arrow_at E a b)))
              (fun a b => b2z (b2z (arrow_at T a b) =? b2z (arrow_at E a b))) (fun _ _ => 1) (fun a b => Z.sub_add _ 1)).
    rewrite <- (SP (fun a b => Z.max (b2z (arrow_at E a b) - b2z (arrow_at T a b)) 0)
              (fun a b => Z.max (b2z (arrow_at T a b) - b2z (arrow_at E a b)) 0)
              (fun a b => 1 - b2z (b2z (arrow_at T a b) =? b2z (arrow_at E a b)))).
    + ring.
    + intros a b. destruct (arrow_at T a b), (arrow_at E a b); reflexivity.
  - reflexivity.
  - apply sum_over_ext; intros a _; apply sum_over_ext; intros b _; destruct (arrow_at T a b), (arrow_at E a b); reflexivity.
  - f_equal; apply sum_over_ext; intros a _; apply sum_over_ext; intros b _; destruct (arrow_at T a b), (arrow_at E a b); reflexivity.
Qed.
Print Assumptions C15_arrow_confusion.

Lemma arrow_at_cell G a b : api_graph G -> simple (ng G) -> In a (nodes G) -> In b (nodes G) ->
  arrow_at G a b = (cell G b a =? 1).
Proof.
  intros HG Hs Ha Hb. unfold arrow_at. rewrite nget_edge_cells by auto.
  destruct (Nat.eq_dec a b) as [->|Hab]; [rewrite cell_diag by auto; reflexivity|].
  pose proof (cell_legal G a b HG Ha Hb) as L. destruct (legal_endpoint _ _ L) as (p & q & E1 & E2 & E3 & E4).
  pose proof (legal_zero _ _ L) as Z0. rewrite E1, E2. cbn [res_bind].
  destruct (Z.eqb_spec (cell G a b) 0) as [E0|E0].
  - apply Z0 in E0. rewrite E0. reflexivity.
  - pose proof (Edge_proximal a b p q Hab) as (_ & P2 & _). rewrite P2. cbn. rewrite E4. reflexivity.
Qed.

(** On graphs without parallel edges the arrowheads are what get_indegree counts. *)
Theorem C15_arrowheads_are_indegrees : forall G, api_graph G -> simple (ng G) ->
  arrowheads G = sum_over (seq 0 (gn (ng G))) (get_indegree (ng G)).
Proof.
  intros G HG Hs. unfold arrowheads. rewrite sum_over_swap.
  rewrite <- (all_cells_names G (fun b a => b2z (arrow_at G a b))). unfold all_cells, get_indegree.
  destruct HG as [HC HW] eqn:EG. destruct HC as (Hd & Hn & Hm) eqn:EC. rewrite Hn.
  apply sum_over_ext. intros i Hi. apply sum_over_ext. intros j Hj. apply in_seq in Hi, Hj.
  assert (HI : forall k, (k < length (nodes G))%nat -> id_of G (nth k (nodes G) 0%nat) = k).
  { intros k Hk. unfold id_of. rewrite (proj2 (consistent_get G _ k HC)); [reflexivity|]. now apply nth_error_nth'. }
  rewrite arrow_at_cell; auto; [|apply nth_In; lia|apply nth_In; lia].
  unfold cell. rewrite !HI by lia. destruct (Hs i j) as [-> | [-> | [-> | ->]]]; try lia; reflexivity.
Qed.
Print Assumptions C15_arrowheads_are_indegrees.

(** Common-edge counts: true positives are the same as without the restriction (so it does not matter which of the two
    the precision over common edges divides by), and each false count over common edges is at most the plain one. *)
Theorem C15_common_edges : forall T E, api_graph T -> api_graph E -> same_names T E -> simple (ng T) -> simple (ng E) ->
  arrows_tp_ce T E = arrows_tp T E /\ arrows_fp_ce T E <= arrows_fp T E /\ arrows_fn_ce T E <= arrows_fn T E.
Proof.
  intros T E HT HE HP ST SE. unfold arrows_tp_ce, arrows_tp, arrows_fp_ce, arrows_fp, arrows_fn_ce, arrows_fn, cf_tp, cf_fp, cf_fn.
  rewrite !all_cells_names.
  assert (K : forall a b, In a (nodes T) -> In b (nodes T) ->
     (arrow_at T a b = true -> nadjacent T a b = true) /\ (arrow_at E a b = true -> nadjacent E a b = true)).
  { intros a b Ha Hb. split; intros H; rewrite arrow_at_cell in H; auto; try (eapply Permutation_in; eauto; fail);
    apply Z.eqb_eq in H; unfold nadjacent; now rewrite H. }
  split; [|split].
  - apply sum_over_ext. intros a Ha. apply sum_over_ext. intros b Hb. destruct (K a b Ha Hb) as [K1 K2]. unfold true_ce, est_ce.
    destruct (arrow_at T a b), (arrow_at E a b); rewrite ?K1, ?K2 by reflexivity; cbn; try reflexivity;
    destruct (nadjacent T a b), (nadjacent E a b); reflexivity.
  - apply sum_over_le. intros a Ha. apply sum_over_le. intros b Hb. destruct (K a b Ha Hb) as [K1 K2]. unfold true_ce, est_ce.
    destruct (arrow_at T a b), (arrow_at E a b); rewrite ?K1, ?K2 by reflexivity; cbn;
    destruct (nadjacent T a b), (nadjacent E a b); cbn; lia.
  - apply sum_over_le. intros a Ha. apply sum_over_le. intros b Hb. destruct (K a b Ha Hb) as [K1 K2]. unfold true_ce, est_ce.
    destruct (arrow_at T a b), (arrow_at E a b); rewrite ?K1, ?K2 by reflexivity; cbn;
    destruct (nadjacent T a b), (nadjacent E a b); cbn; lia.
Qed.
Print Assumptions C15_common_edges.

Example C15_ex : arrows_tp exT exE = 1 /\ arrows_fp exT exE = 1 /\ arrows_fn exT exE = 1 /\ arrows_tn exT exE = 6 /\ arrowheads exE = 2.
Proof. repeat split; reflexivity. Qed.

(* ---------- C40 ---------- *)
(** Every history of node additions and removals and edge operations that raises no exception leaves names distinct,
    the matrix as large as the node list, node_map equal to the position in the node list, and only legal edges. *)
Theorem C40_history_bookkeeping : forall names ops G, NoDup names -> Forall nop_ok ops ->
  nrun (new_ngraph names) ops = Ok G ->
  NoDup (nodes G) /\ gn (ng G) = length (nodes G) /\
  (forall v i, dget (node_map G) v = Some i <-> nth_error (nodes G) i = Some v) /\ wf (ng G).
Proof.
  intros names ops G Hd Ho Hr. destruct (nrun_inv ops (new_ngraph names) G) as [HC HW]; auto using new_consistent.
  - apply empty_wf.
  - destruct HC as (H1 & H2 & H3) eqn:E. repeat split; auto; try apply HW; now apply consistent_get.
Qed.
Print Assumptions C40_history_bookkeeping.

(** Removing a node of such a graph succeeds, removes exactly that node, and keeps every edge between the others. *)
Theorem C40_remove_node : forall G v, api_graph G -> In v (nodes G) ->
  exists G', nremove_node G v = Ok G' /\ api_graph G' /\
    (forall x, In x (nodes G') <-> In x (nodes G) /\ x <> v) /\
    (forall a b, In a (nodes G') -> In b (nodes G') -> nget_edge G' a b = nget_edge G a b).
Proof.
  intros G v [HC HW] Hv. destruct (remove_defined G v HC Hv) as (G' & E). exists G'. split; [exact E|]. split.
  - split; [eapply remove_consistent; eauto|eapply remove_wf; eauto].
  - split; [now apply remove_nodes_spec|]. intros. eapply remove_keeps_edges; eauto.
Qed.
Print Assumptions C40_remove_node.

(** Adding a new node: it is isolated and all other edges stay; a duplicate name is refused. *)
Theorem C40_add_node : forall G v, api_graph G ->
  (In v (nodes G) -> nadd_node G v = (G, false)) /\
  (~ In v (nodes G) -> let G' := fst (nadd_node G v) in snd (nadd_node G v) = true /\ api_graph G' /\ nodes G' = nodes G ++ [v] /\
     (forall a b, In a (nodes G) -> In b (nodes G) -> nget_edge G' a b = nget_edge G a b) /\
     (forall a, In a (nodes G) -> nget_edge G' v a = Ok None /\ nget_edge G' a v = Ok None)).
Proof.
  intros G v [HC HW]. split.
  - intros Hv. unfold nadd_node. apply existsb_In in Hv. now rewrite Hv.
  - intros Hv G'. split; [|split; [|split; [|split]]].
    + unfold nadd_node. destruct (existsb (Nat.eqb v) (nodes G)) eqn:E; [apply existsb_In in E; contradiction|reflexivity].
    + split; [now apply add_consistent|now apply add_wf].
    + unfold G', nadd_node. destruct (existsb (Nat.eqb v) (nodes G)) eqn:E; [apply existsb_In in E; contradiction|reflexivity].
    + intros. now apply add_keeps_edges.
    + intros. now apply add_isolated.
Qed.
Print Assumptions C40_add_node.

Example C40_ex : exists G, nrun (new_ngraph [5; 6; 7]%nat) [NAddDirected 6 7; NRemove 5; NAdd 4; NAddEdge 4 7 CIRCLE ARROW; NRemove 6] = Ok G /\
  nodes G = [7; 4]%nat /\ nget_edge G 4 7 = Ok (Some (Edge 4 7 CIRCLE ARROW)).
Proof. eexists. split; [reflexivity|]. split; reflexivity. Qed.

(** C40 refuted for the class Dag: remove_node keeps the old indices in node_map.  Whenever the last node has an
    edge to another node, removing an earlier node v (not on that edge) raises an IndexError. *)
Lemma fold_res_absorb {A B} (f : res A -> B -> res A) l : (forall y, f Raise y = Raise) -> fold_left f l Raise = Raise.
Proof. intros H. induction l; cbn; [reflexivity|]. now rewrite H. Qed.

Lemma fold_res_hit {A B} (f : res A -> B -> res A) l a : (forall y, f Raise y = Raise) -> (exists y, In y l /\ forall x, f x y = Raise) ->
  fold_left f l a = Raise.
Proof.
  intros Hz (y & Hy & Hf). apply in_split in Hy. destruct Hy as (l1 & l2 & ->).
  rewrite fold_left_app. cbn. rewrite Hf. now apply fold_res_absorb.
Qed.

Theorem C40_dag_remove_node_refuted : forall G v u w i k, api_graph G ->
  nth_error (nodes G) i = Some v -> nth_error (nodes G) k = Some u -> nth_error (nodes G) (gn (ng G) - 1)%nat = Some w ->
  (i < gn (ng G) - 1)%nat -> (k < gn (ng G) - 1)%nat -> k <> i -> gm (ng G) (gn (ng G) - 1)%nat k <> 0 ->
  dag_remove_node G v = Raise.
Proof.
  intros G v u w i k [HC HW] Hi Hk Hw Hin Hkn Hki Hne.
  unfold dag_remove_node. rewrite (proj2 (consistent_get G v i HC) Hi).
  set (n := gn (ng G)) in *.
  set (G1 := mkNG _ _ _).
  assert (HR : dag_graph_edges G1 = Raise); [|now rewrite HR].
  (* new position of k *)
  set (k' := if Nat.ltb k i then k else (k - 1)%nat).
  assert (Hk' : skip i k' = k /\ (k' < n - 2)%nat).
  { unfold k', skip. destruct (Nat.ltb_spec k i).
    - destruct (Nat.ltb_spec k i); lia.
    - destruct (Nat.ltb_spec (k - 1) i); lia. }
  destruct Hk' as [Sk Lk].
  assert (Sl : skip i (n - 2)%nat = (n - 1)%nat). { unfold skip. destruct (Nat.ltb_spec (n - 2) i); lia. }
  assert (Hd : NoDup (nodes G)) by apply HC.
  unfold dag_graph_edges. apply fold_res_hit.
  - intros y. apply fold_res_absorb. reflexivity.
  - exists k'. split; [apply in_seq; cbn; lia|]. intros x. apply fold_res_hit; [reflexivity|].
    exists (n - 2)%nat. split; [apply in_seq; cbn; lia|]. intros y. destruct y as [l|]; [|reflexivity]. cbn [res_bind].
    assert (Hcell : gm (ng G1) (n - 2)%nat k' = gm (ng G) (n - 1)%nat k) by (cbn; unfold del_rc; now rewrite Sk, Sl).
    rewrite Hcell. destruct (Z.eqb_spec (gm (ng G) (n - 1)%nat k) 0); [contradiction|].
    assert (Hlast : nth (n - 2)%nat (nodes G1) 0%nat = w).
    { apply nth_error_nth. cbn. rewrite (lremove_spec v (nodes G) i Hd Hi), Sl. exact Hw. }
    rewrite Hlast.
    assert (Hvw : v <> w).
    { intros ->. assert (i = (n - 1)%nat); [|lia]. eapply (proj1 (NoDup_nth_error (nodes G)) Hd); [eapply nth_error_lt; eauto|congruence]. }
    assert (Hget : dget (node_map G1) w = Some (n - 1)%nat).
    { cbn. pose proof (proj2 (consistent_get G w (n - 1)%nat HC) Hw) as Hg. clear - Hg Hvw.
      unfold dpop. revert Hg. induction (node_map G) as [|[x y] d IH]; [discriminate|]. rewrite dget_cons. cbn [filter fst].
      destruct (Nat.eqb_spec x v) as [->|Hxv]; cbn [negb].
      - destruct (Nat.eqb_spec v w); [contradiction|]. exact IH.
      - rewrite dget_cons. destruct (Nat.eqb x w); auto. }
    unfold dag_get_edge. rewrite Hget. destruct (dget (node_map G1) (nth k' (nodes G1) 0%nat)) as [i'|]; [|reflexivity].
    assert (HRd : rd (gn (ng G1)) (gm (ng G1)) i' (n - 1)%nat = Raise); [|now rewrite HRd].
    unfold rd. cbn [ng gn G1]. destruct (Nat.ltb_spec (n - 1) (n - 1)); [lia|]. now rewrite andb_false_r.
Qed.
Print Assumptions C40_dag_remove_node_refuted.

Example C40_dag_ex : dag_remove_node exT 7 = Raise /\ exists G, dag_remove_node exT 9 = Ok G.
Proof. split; [reflexivity|]. eexists. reflexivity. Qed.

(* ---------- C08 for Dag ---------- *)
(** Dag.reconstitute_dpath never clears: every ancestor ever recorded stays recorded. *)
Lemma dag_recon_mono G es G' a b : dag_reconstitute G es = Ok G' -> gd (ng G) b a = 1 -> gd (ng G') b a = 1 /\ node_map G' = node_map G.
Proof.
  unfold dag_reconstitute. intros H Hd.
  set (d0 := fold_left (fun d i => adjust_dpath (gn (ng G)) d i i) (seq 0 (gn (ng G))) (gd (ng G))) in *.
  assert (H0 : d0 b a = 1).
  { unfold d0. apply (fold_left_inv (fun d i => adjust_dpath (gn (ng G)) d i i) (fun d : mat => d b a = 1)); auto.
    intros; now apply adjust_mono. }
  clearbody d0.
  assert (HF : forall l acc, (forall d, acc = Ok d -> d b a = 1) -> forall d, fold_left (fun acc e => res_bind acc (fun d =>
      match dget (node_map G) (e_node1 e), dget (node_map G) (e_node2 e) with
      | Some i, Some j => Ok (adjust_dpath (gn (ng G)) d i j)
      | _, _ => Raise
      end)) l acc = Ok d -> d b a = 1).
  { induction l as [|e l IH]; intros acc Hacc d E; cbn in E; [auto|]. eapply IH; [|exact E].
    intros d' E'. destruct acc as [d1|]; [|discriminate E']. cbn in E'.
    destruct (dget (node_map G) (e_node1 e)), (dget (node_map G) (e_node2 e)); try discriminate E'.
    injection E' as <-. apply adjust_mono. auto. }
  match type of H with res_bind ?x _ = _ => destruct x as [d|] eqn:E; [|discriminate H] end.
  cbn in H. injection H as <-. split; [|reflexivity]. cbn. eapply HF; [|exact E]. intros d' E'. now injection E' as <-.
Qed.

(** C08 refuted for Dag: after adding a --> b and removing that edge again, is_ancestor_of(a, b) is still True. *)
Theorem C08_dag_remove_edge_stale_refuted : forall G a b G1 G2, api_graph G ->
  dag_add_edge G a b = Ok G1 -> dag_remove_edge G1 a b = Ok G2 -> nis_ancestor_of G2 a b = Ok true.
Proof.
  intros G a b G1 G2 [HC _] H1 H2. unfold dag_add_edge, on_nodes in H1.
  destruct (dget (node_map G) a) as [i|] eqn:Ei; [|discriminate]. destruct (dget (node_map G) b) as [j|] eqn:Ej; [|discriminate].
  injection H1 as <-.
  unfold dag_remove_edge, on_nodes in H2. cbn [node_map] in H2. rewrite Ei, Ej in H2. cbn [res_bind] in H2.
  match type of H2 with res_bind (dag_graph_edges ?g) _ = _ => set (G3 := g) in * end.
  destruct (dag_graph_edges G3) as [es|]; [|discriminate H2]. cbn [res_bind] in H2.
  destruct (dag_recon_mono G3 es G2 i j H2) as [Hd Hm].
  - cbn. apply adjust_self.
  - unfold nis_ancestor_of. rewrite Hm. cbn [node_map G3]. rewrite Ei, Ej, Hd. reflexivity.
Qed.
Print Assumptions C08_dag_remove_edge_stale_refuted.

Example C08_dag_ex : exists G1 G2, dag_add_edge (new_ngraph [1; 2]%nat) 1 2 = Ok G1 /\ dag_remove_edge G1 1 2 = Ok G2 /\
  dag_get_edge G2 1 2 = Ok None.
Proof. do 2 eexists. split; [reflexivity|]. split; reflexivity. Qed.

(* ---------- C42: subgraph ---------- *)
(** When the nodes are given in the graph's own order, the subgraph has exactly the edges between them. *)
Theorem C42_subgraph_in_order_partial : forall G l, api_graph G -> l = filter (fun v => existsb (Nat.eqb v) l) (nodes G) ->
  let S := nsubgraph G l in nodes S = l /\ consistent S /\
  forall a b, In a l -> In b l -> nget_edge S a b = nget_edge G a b.
Proof.
  intros G l HG Hl S. destruct HG as [HC HW].
  assert (Hd : NoDup l) by (rewrite Hl; apply NoDup_filter, HC).
  assert (HS : consistent S). { split; [exact Hd|]. split; [reflexivity|]. cbn. now apply enumerate_pos. }
  split; [reflexivity|]. split; [exact HS|]. intros a b Ha Hb.
  assert (Hkept : map (fun i => nth i (nodes G) 0%nat) (kept G l) = l).
  { unfold kept. destruct HC as (_ & Hn & _). rewrite Hn. etransitivity; [|symmetry; exact Hl].
    transitivity (filter (fun v => existsb (Nat.eqb v) l) (map (fun i => nth i (nodes G) 0%nat) (seq 0 (length (nodes G)))));
      [|now rewrite map_nth_seq]. clear. generalize (seq 0 (length (nodes G))). intros s.
    induction s as [|x s IH]; [reflexivity|]. cbn [filter map].
    destruct (existsb (Nat.eqb (nth x (nodes G) 0%nat)) l); cbn [map]; now rewrite IH. }
  assert (Hlen : length (kept G l) = length l) by (rewrite <- Hkept at 2; now rewrite map_length).
  assert (Hbound : forall k, (k < length l)%nat -> (nth k (kept G l) 0 < gn (ng G))%nat).
  { intros k Hk. rewrite <- Hlen in Hk. apply (nth_In _ 0%nat) in Hk. unfold kept in Hk at 2. apply filter_In in Hk. destruct Hk as [Hk _].
    now apply in_seq0 in Hk. }
  assert (Hidx : forall k x, nth_error l k = Some x -> nth_error (nodes G) (nth k (kept G l) 0%nat) = Some x).
  { intros k x Hk. pose proof (nth_error_lt _ _ _ Hk) as Lk. specialize (Hbound k Lk).
    destruct HC as (_ & Hn & _). rewrite Hn in Hbound. rewrite (nth_error_nth' _ 0%nat) by exact Hbound. f_equal.
    apply (nth_error_nth _ _ 0%nat) in Hk. rewrite <- Hk.
    transitivity (nth k (map (fun i => nth i (nodes G) 0%nat) (kept G l)) (nth 0 (nodes G) 0%nat)).
    - symmetry. exact (map_nth (fun i => nth i (nodes G) 0%nat) (kept G l) 0%nat k).
    - rewrite Hkept. now apply nth_indep. }
  apply In_nth_error in Ha, Hb. destruct Ha as (k & Hk), Hb as (m & Hm).
  rewrite (nget_edge_idx S a b k m HS Hk Hm).
  rewrite (nget_edge_idx G a b _ _ HC (Hidx _ _ Hk) (Hidx _ _ Hm)). reflexivity.
Qed.
Print Assumptions C42_subgraph_in_order_partial.

(** C42 refuted: with the same two nodes listed in the other order, the edge comes out reversed. *)
Theorem C42_subgraph_order_refuted :
  let S := nsubgraph exT [9; 8]%nat in
  nget_edge exT 8 9 = Ok (Some (Edge 8 9 TAIL ARROW)) /\ nget_edge S 8 9 = Ok (Some (Edge 9 8 TAIL ARROW)).
Proof. split; reflexivity. Qed.
Print Assumptions C42_subgraph_order_refuted.

Example C42_ex : [8; 9]%nat = filter (fun v => existsb (Nat.eqb v) [8; 9]%nat) (nodes exT) /\
  nget_edge (nsubgraph exT [8; 9]%nat) 8 9 = Ok (Some (Edge 8 9 TAIL ARROW)).
Proof. split; reflexivity. Qed.

(* ---------- C43: graph equality ---------- *)
(** C43 refuted: [==] ignores the node names altogether, ... *)
Theorem C43_equality_ignores_names_refuted : forall names1 names2 g, length names1 = length names2 ->
  fst (fst (nequal (mkNG names1 (enumerate_map names1) g) (mkNG names2 (enumerate_map names2) g))) = true.
Proof.
  intros. unfold nequal. cbn. rewrite Nat.eqb_refl. cbn. unfold mat_eqb.
  apply forallb_forall. intros. apply forallb_forall. intros. apply Z.eqb_refl.
Qed.
Print Assumptions C43_equality_ignores_names_refuted.

(** ... and corrupts every graph whose nodes were not sorted: node_map no longer matches the node list. *)
Theorem C43_equality_corrupts_refuted : forall G H, consistent G -> sort_nodes (nodes G) <> nodes G ->
  ~ consistent (snd (fst (nequal G H))).
Proof.
  intros G H (Hd & Hn & Hm) Hs (_ & _ & Hm'). cbn in Hm'. apply Hs.
  assert (K : keys (pos_map 0 (nodes G)) = keys (pos_map 0 (sort_nodes (nodes G)))) by (now rewrite <- Hm, Hm').
  now rewrite !keys_pos in K.
Qed.
Print Assumptions C43_equality_corrupts_refuted.

(** After [g == g] a node can be reported as adjacent to itself. *)
Example C43_ex : exists G, nrun (new_ngraph [2; 1; 0]%nat) [NAddDirected 2 0] = Ok G /\
  nadjacent_nodes G 2 = Ok [0%nat] /\ nadjacent_nodes (snd (fst (nequal G G))) 2 = Ok [2%nat].
Proof. eexists. split; [reflexivity|]. split; reflexivity. Qed.

(** The half that holds: graphs that [==] declares equal have the same matrix (same edges position by position). *)
Theorem C43_equal_same_matrix_partial : forall G H, fst (fst (nequal G H)) = true ->
  gn (ng G) = gn (ng H) /\ forall i j, (i < gn (ng G))%nat -> (j < gn (ng G))%nat -> gm (ng G) i j = gm (ng H) i j.
Proof.
  intros G H E. cbn in E. apply andb_true_iff in E. destruct E as [E1 E2]. apply Nat.eqb_eq in E1. split; [exact E1|].
  intros i j Hi Hj. unfold mat_eqb in E2. rewrite forallb_forall in E2. specialize (E2 i (proj2 (in_seq0 _ _) Hi)).
  rewrite forallb_forall in E2. specialize (E2 j (proj2 (in_seq0 _ _) Hj)). now apply Z.eqb_eq in E2.
Qed.
Print Assumptions C43_equal_same_matrix_partial.
