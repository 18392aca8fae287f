(** The remaining query methods of GeneralGraph. *)
From Verif Require Import Base EdgeModel EdgeProofs GraphModel GraphSpec GraphProofs DpathProofs SumLib QueryProofs MeekSpec QuerySpec.
Local Open Scope Z_scope.

(** ** Edges seen from a node *)
Theorem C01_distal : forall a b ea eb, a <> b ->
  get_distal_endpoint (Edge a b ea eb) a = Some eb /\ get_distal_endpoint (Edge a b ea eb) b = Some ea /\
  get_distal_node (Edge a b ea eb) a = Some b /\ get_distal_node (Edge a b ea eb) b = Some a /\
  (forall c, c <> a -> c <> b -> get_distal_endpoint (Edge a b ea eb) c = None /\ get_distal_node (Edge a b ea eb) c = None).
Proof.
  intros a b ea eb N. unfold Edge, get_distal_endpoint, get_distal_node.
  assert (E1 : Nat.eqb a b = false) by (apply Nat.eqb_neq; auto). assert (E2 : Nat.eqb b a = false) by (apply Nat.eqb_neq; auto).
  destruct (pointing_left ea eb); cbn [e_node1 e_node2 e_end1 e_end2]; rewrite ?E1, ?E2, ?Nat.eqb_refl; (repeat split; auto);
  apply not_eq_sym, Nat.eqb_neq in H; apply not_eq_sym, Nat.eqb_neq in H0; rewrite H, H0; reflexivity.
Qed.
(** An edge points toward a node: arrowhead there, tail or circle at the other end. *)
Theorem C01_points_toward : forall a b ea eb, a <> b ->
  (points_toward (Edge a b ea eb) b = true <-> eb = ARROW /\ (ea = TAIL \/ ea = CIRCLE)) /\
  (points_toward (Edge a b ea eb) a = true <-> ea = ARROW /\ (eb = TAIL \/ eb = CIRCLE)) /\
  (forall c, c <> a -> c <> b -> points_toward (Edge a b ea eb) c = false).
Proof.
  intros a b ea eb N. destruct (C01_distal a b ea eb N) as (D1 & D2 & _ & _ & D3). destruct (Edge_proximal a b ea eb N) as (P1 & P2 & P3).
  unfold points_toward. rewrite P1, P2, D1, D2. split; [|split].
  - cbn [oep_eqb]. rewrite andb_true_iff, orb_true_iff. destruct ea, eb; cbn; intuition congruence.
  - cbn [oep_eqb]. rewrite andb_true_iff, orb_true_iff. destruct ea, eb; cbn; intuition congruence.
  - intros c H1 H2. now rewrite P3.
Qed.

(** ** Degrees *)
Lemma filter_flat_map {A B} (f : B -> bool) (h : A -> list B) l : filter f (flat_map h l) = flat_map (fun a => filter f (h a)) l.
Proof. induction l as [|a l IH]; [reflexivity|]. cbn [flat_map]. now rewrite filter_app, IH. Qed.
Lemma prox_i i j a b : i <> j -> get_proximal_endpoint (Edge i j a b) i = Some a.
Proof. intros N. apply (Edge_proximal i j a b N). Qed.
Ltac pair_eval Hl N := unfold pair_edges, get_edge; pair_cases Hl; repeat match goal with H : _ = gm _ _ _ |- _ => rewrite <- H end;
  cbn [Z.eqb Pos.eqb orb andb endpoint_of res_bind filter app length]; unfold shows; rewrite ?(prox_i _ _ _ _ N).
Lemma count_pair g p i j : legal_pair (gm g i j) (gm g j i) -> i <> j ->
  Z.of_nat (length (filter (shows p i) (pair_edges g i j))) =
  match p with
  | TAIL => if (gm g i j =? -1) || (gm g i j =? 4) then 1 else 0
  | ARROW => if gm g i j =? 1 then 1 else if gm g i j =? 5 then 2 else if gm g i j =? 4 then 1 else 0
  | CIRCLE => if gm g i j =? 2 then 1 else 0
  | _ => 0
  end.
Proof. intros Hl N. pair_eval Hl N; destruct p; vm_compute; reflexivity. Qed.
Lemma count_sum g p i : wf g -> (i < gn g)%nat -> count_marks g p i = sum_over (seq 0 (gn g)) (fun j =>
  match p with
  | TAIL => if (gm g i j =? -1) || (gm g i j =? 4) then 1 else 0
  | ARROW => if gm g i j =? 1 then 1 else if gm g i j =? 5 then 2 else if gm g i j =? 4 then 1 else 0
  | CIRCLE => if gm g i j =? 2 then 1 else 0
  | _ => 0
  end).
Proof.
  intros [Hd Hl] Hi. unfold count_marks, get_node_edges. rewrite filter_flat_map, length_flat_map_sum. apply sum_over_ext. intros j Hj. apply in_seq0 in Hj.
  destruct (Nat.eq_dec i j) as [<-|N]; [|now apply count_pair; [apply Hl|]].
  unfold pair_edges. rewrite (Hd i Hi). destruct p; reflexivity.
Qed.
(** get_outdegree counts the edges with a tail at the node. *)
Theorem C63_outdegree : forall g i, wf g -> (i < gn g)%nat -> get_outdegree g i = count_marks g TAIL i.
Proof. intros g i Hw Hi. now rewrite count_sum. Qed.
(** get_max_degree is the largest degree. *)
Theorem C63_max_degree : forall g, (0 < gn g)%nat ->
  (exists i, (i < gn g)%nat /\ get_max_degree g = get_degree g i) /\ (forall i, (i < gn g)%nat -> get_degree g i <= get_max_degree g).
Proof.
  intros g Hn. unfold get_max_degree.
  assert (NN : forall i, 0 <= get_degree g i).
  { intros i. unfold get_degree, sum_over. apply (fold_left_inv _ (fun s => 0 <= s)); [lia|]. intros s y _ Hs. unfold cellw.
    destruct (_ || _ || _); [lia|]. destruct (negb _); lia. }
  assert (H : forall l m, (forall i, In i l -> get_degree g i <= fold_left (fun mx i => if get_degree g i >? mx then get_degree g i else mx) l m) /\
     m <= fold_left (fun mx i => if get_degree g i >? mx then get_degree g i else mx) l m /\
     (fold_left (fun mx i => if get_degree g i >? mx then get_degree g i else mx) l m = m \/
      exists i, In i l /\ fold_left (fun mx i => if get_degree g i >? mx then get_degree g i else mx) l m = get_degree g i)).
  { induction l as [|i l IH]; intros m; cbn [fold_left]; [split; [intros i []|]; split; [lia|now left]|].
    destruct (IH (if get_degree g i >? m then get_degree g i else m)) as (I1 & I2 & I3).
    assert (B : get_degree g i <= (if get_degree g i >? m then get_degree g i else m) /\ m <= (if get_degree g i >? m then get_degree g i else m)).
    { destruct (Z.gtb_spec (get_degree g i) m); lia. }
    split; [intros j [<-|K]; [lia|now apply I1]|]. split; [lia|].
    destruct I3 as [I3|(j & J1 & J2)]; [|right; exists j; split; [now right|exact J2]].
    destruct (get_degree g i >? m) eqn:E; [right; exists i; split; [now left|exact I3]|now left]. }
  destruct (H (seq 0 (gn g)) (-1)) as (H1 & H2 & H3). split; [|intros i Hi; apply H1; now apply in_seq0].
  destruct H3 as [H3|(i & J1 & J2)]; [|exists i; split; [now apply in_seq0|exact J2]].
  exfalso. specialize (H1 0%nat ltac:(now apply in_seq0)). specialize (NN 0%nat). lia.
Qed.
(** get_indegree counts the arrowheads at the node, unless a bidirected edge is parallel to an edge with a tail there. *)
Theorem C64_indegree_partial : forall g i, wf g -> (i < gn g)%nat -> no_parallel_tail g i -> get_indegree g i = count_marks g ARROW i.
Proof.
  intros g i Hw Hi HN. rewrite count_sum by auto. apply sum_over_ext. intros j Hj. apply in_seq0 in Hj. specialize (HN j Hj).
  apply Z.eqb_neq in HN. rewrite HN. reflexivity.
Qed.
Theorem C64_indegree_refuted : exists n ops i, Forall (op_on n) ops /\ let g := fold_left gapply ops (empty_graph n) in
  (i < n)%nat /\ get_indegree g i = 0 /\ count_marks g ARROW i = 1 /\ is_exogenous g i = true.
Proof. exists 2%nat, [AddEdge (Edge 0 1 TAIL ARROW); AddEdge (Edge 0 1 ARROW ARROW)], 0%nat. split; [repeat constructor; cbn; lia|]. cbv zeta. split; [lia|]. split; [|split]; vm_compute; reflexivity. Qed.

(** ** Nodes by mark *)
Lemma has_mark_pair g p i j : wf g -> (i < gn g)%nat -> has_mark g p i j <-> (j < gn g)%nat /\ i <> j /\ exists e, In e (pair_edges g i j) /\ shows p i e = true.
Proof.
  intros Hw Hi. unfold has_mark, get_node_edges. split.
  - intros (e & He & Hd & Hp). apply in_flat_map in He. destruct He as (k & Hk & He). apply in_seq0 in Hk.
    assert (N : i <> k). { intros <-. unfold pair_edges in He. rewrite (proj1 Hw i Hi) in He. destruct He. }
    assert (E : exists a b, e = Edge i k a b).
    { clear - He. unfold pair_edges, get_edge in He. destruct (_ || _ || _).
      - destruct (gm g i k =? 0); [destruct He|]. destruct (endpoint_of _) as [u|]; [|destruct He]. destruct (endpoint_of _) as [v|]; [|destruct He]. cbn in He. destruct He as [<-|[]]. eauto.
      - destruct (_ && _); [destruct He as [<-|[<-|[]]]; eauto|]. destruct (_ && _); [destruct He as [<-|[<-|[]]]; eauto|]. destruct (_ && _); [destruct He as [<-|[<-|[]]]; eauto|]. destruct He. }
    destruct E as (a & b & ->). destruct (C01_distal i k a b N) as (_ & _ & D & _). rewrite D in Hd. injection Hd as <-.
    split; [exact Hk|]. split; [exact N|]. exists (Edge i k a b). split; [exact He|]. unfold shows. rewrite Hp. cbn. now destruct (ep_eqb_spec p p).
  - intros (Hj & N & e & He & Hs). exists e. split; [apply in_flat_map; exists j; split; [now apply in_seq0|exact He]|].
    assert (E : exists a b, e = Edge i j a b).
    { clear - He. unfold pair_edges, get_edge in He. destruct (_ || _ || _).
      - destruct (gm g i j =? 0); [destruct He|]. destruct (endpoint_of _) as [u|]; [|destruct He]. destruct (endpoint_of _) as [v|]; [|destruct He]. cbn in He. destruct He as [<-|[]]. eauto.
      - destruct (_ && _); [destruct He as [<-|[<-|[]]]; eauto|]. destruct (_ && _); [destruct He as [<-|[<-|[]]]; eauto|]. destruct (_ && _); [destruct He as [<-|[<-|[]]]; eauto|]. destruct He. }
    destruct E as (a & b & ->). destruct (C01_distal i j a b N) as (_ & _ & D & _). rewrite D. split; [reflexivity|].
    unfold shows in Hs. rewrite (prox_i i j a b N) in *. cbn in Hs. destruct (ep_eqb_spec a p); [now subst|discriminate].
Qed.
Lemma into_pair g p i j : wf g -> (i < gn g)%nat -> (j < gn g)%nat -> p = TAIL \/ p = CIRCLE \/ (p = ARROW /\ gm g i j <> 4) ->
  into_code p (gm g i j) = true <-> i <> j /\ exists e, In e (pair_edges g i j) /\ shows p i e = true.
Proof.
  intros Hw Hi Hj Hp. destruct (Nat.eq_dec i j) as [<-|N].
  { rewrite (proj1 Hw i Hi). split; [|tauto]. intros K. exfalso. destruct Hp as [-> | [-> | [-> _]]]; discriminate. }
  pose proof (proj2 Hw i j Hi Hj) as HL. pose proof (count_pair g p i j HL N) as HC.
  assert (X : (exists e, In e (pair_edges g i j) /\ shows p i e = true) <-> 0 < Z.of_nat (length (filter (shows p i) (pair_edges g i j)))).
  { split.
    - intros (e & H1 & H2). assert (H : In e (filter (shows p i) (pair_edges g i j))) by (apply filter_In; auto). destruct (filter _ _); [destruct H|cbn [length]; lia].
    - intros H. destruct (filter (shows p i) (pair_edges g i j)) as [|e r] eqn:E; [cbn in H; lia|]. exists e. apply filter_In. rewrite E. now left. }
  rewrite X, HC. destruct Hp as [-> | [-> | [-> H4]]]; cbn [into_code].
  - destruct ((gm g i j =? -1) || (gm g i j =? 4)); (split; [intros K; first [discriminate|split; [exact N|lia]]|intros [_ K]; first [reflexivity|lia]]).
  - destruct (gm g i j =? 2); (split; [intros K; first [discriminate|split; [exact N|lia]]|intros [_ K]; first [reflexivity|lia]]).
  - apply Z.eqb_neq in H4. rewrite H4. destruct (gm g i j =? 1), (gm g i j =? 5); cbn [orb]; (split; [intros K; first [discriminate|split; [exact N|lia]]|intros [_ K]; first [reflexivity|lia]]).
Qed.
(** get_nodes_into(i, p): the nodes whose edge shows p at i; get_nodes_out_of(i, p): the nodes at which the edge to i shows p. *)
Theorem C65_nodes_by_mark_partial : forall g i p j, wf g -> (i < gn g)%nat ->
  (p = TAIL \/ p = CIRCLE \/ (p = ARROW /\ no_parallel_tail g i) -> (In j (get_nodes_into g i p) <-> has_mark g p i j)) /\
  (p = TAIL \/ p = CIRCLE \/ (p = ARROW /\ forall k, (k < gn g)%nat -> no_parallel_tail g k) ->
     (In j (get_nodes_out_of g i p) <-> (j < gn g)%nat /\ has_mark g p j i)).
Proof.
  intros g i p j Hw Hi. unfold get_nodes_into, get_nodes_out_of. rewrite !filter_In, in_seq0. split; intros Hp.
  - rewrite has_mark_pair by auto. split.
    + intros [K1 K2]. split; [exact K1|]. apply into_pair; auto. destruct Hp as [-> | [-> | [-> Hp]]]; auto.
    + intros [K1 K2]. split; [exact K1|]. apply into_pair; auto. destruct Hp as [-> | [-> | [-> Hp]]]; auto.
  - split.
    + intros [K1 K2]. split; [exact K1|]. apply has_mark_pair; auto. split; [exact Hi|]. apply into_pair; auto.
      destruct Hp as [-> | [-> | [-> Hp]]]; auto. right. right. split; [reflexivity|]. now apply Hp.
    + intros [K1 K2]. split; [exact K1|]. apply has_mark_pair in K2; auto. destruct K2 as [_ K2]. apply into_pair; auto.
      destruct Hp as [-> | [-> | [-> Hp]]]; auto. right. right. split; [reflexivity|]. now apply Hp.
Qed.
Theorem C65_nodes_into_refuted : exists n ops i j, Forall (op_on n) ops /\ let g := fold_left gapply ops (empty_graph n) in
  (i < n)%nat /\ has_mark g ARROW i j /\ get_nodes_into g i ARROW = [].
Proof.
  exists 2%nat, [AddEdge (Edge 0 1 TAIL ARROW); AddEdge (Edge 0 1 ARROW ARROW)], 0%nat, 1%nat. split; [repeat constructor; cbn; lia|]. cbv zeta. split; [lia|].
  split; [|vm_compute; reflexivity]. exists (Edge 0 1 ARROW ARROW). split; [vm_compute; auto|]. split; reflexivity.
Qed.

(** ** Colliders, containment, adjacency, treks *)
Lemma wf_marks g i j : wf g -> simple g -> (i < gn g)%nat -> (j < gn g)%nat -> gm g i j <> 0 ->
  exists a b, is_mark a /\ is_mark b /\ gm g i j = ev a /\ gm g j i = ev b.
Proof.
  intros Hw Hs Hi Hj N. pose proof (proj2 Hw i j Hi Hj) as HL. pose proof (Hs i j Hi Hj) as S1. pose proof (Hs j i Hj Hi) as S2. unfold is_mark.
  pair_cases HL; try lia; [exists TAIL, TAIL|exists TAIL, ARROW|exists ARROW, TAIL|exists TAIL, CIRCLE|exists CIRCLE, TAIL|exists ARROW, ARROW|exists CIRCLE, CIRCLE|exists CIRCLE, ARROW|exists ARROW, CIRCLE];
  cbn; auto 10.
Qed.
(** is_def_collider(a, b, c): both edges exist and have an arrowhead at b. *)
Theorem C66_def_collider : forall g a b c, wf g -> simple g -> (a < gn g)%nat -> (b < gn g)%nat -> (c < gn g)%nat -> a <> b -> c <> b ->
  exists r, is_def_collider g a b c = Ok r /\ (r = true <-> gm g b a = 1 /\ gm g b c = 1).
Proof.
  intros g a b c Hw Hs Ha Hb Hc N1 N2. unfold is_def_collider.
  assert (Z0 : forall x y, (x < gn g)%nat -> (y < gn g)%nat -> gm g x y = 0 -> gm g y x = 0).
  { intros x y Hx Hy E. pose proof (proj2 Hw x y Hx Hy) as HL. rewrite E in HL. pair_cases HL; congruence. }
  destruct (Z.eq_dec (gm g a b) 0) as [E1|E1].
  { unfold get_edge at 1. rewrite E1. cbn [Z.eqb res_bind]. pose proof (Z0 a b Ha Hb E1) as E1'.
    destruct (wf_get_edge g b c Hw Hb Hc) as (o & -> & _). cbn [res_bind]. exists false. split; [reflexivity|]. split; [discriminate|lia]. }
  destruct (wf_marks g a b Hw Hs Ha Hb E1) as (u & v & M1 & M2 & C1 & C2).
  rewrite (get_edge_codes g a b u v C1 C2) by (intros ->; destruct M1 as [?|[?|?]]; discriminate). cbn [res_bind].
  destruct (Z.eq_dec (gm g b c) 0) as [E2|E2].
  { unfold get_edge. rewrite E2. cbn [Z.eqb res_bind]. exists false. split; [reflexivity|]. split; [discriminate|]. lia. }
  destruct (wf_marks g b c Hw Hs Hb Hc E2) as (u' & v' & M1' & M2' & C1' & C2').
  rewrite (get_edge_codes g b c u' v' C1' C2') by (intros ->; destruct M1' as [?|[?|?]]; discriminate). cbn [res_bind].
  eexists. split; [reflexivity|]. destruct (Edge_proximal a b u v N1) as (_ & -> & _). destruct (Edge_proximal b c u' v' (not_eq_sym N2)) as (-> & _).
  cbn [oep_eqb]. rewrite C2, C1', andb_true_iff. destruct v, u'; cbn; split; intros [? ?]; split; congruence.
Qed.
(** is_def_noncollider(a, b, c) reports a tail or a circle at b only if the other end has an arrowhead ... *)
Lemma loop_true g a b c es : (forall e, In e es -> exists j u v, e = Edge b j u v /\ j <> b) -> is_adjacent_to g a b = true -> a <> b -> c <> b ->
  forall c12 c23, def_noncollider_loop g a b c es c12 c23 = true <->
    exists j u, (j = a \/ j = c) /\ In (Edge b j u ARROW) es /\ (u = TAIL \/ u = CIRCLE).
Proof.
  intros He HA Na Nc. induction es as [|e es IH]; intros c12 c23; cbn [def_noncollider_loop].
  { split; [discriminate|]. intros (j & u & _ & [] & _). }
  destruct (He e (or_introl eq_refl)) as (j & u & v & -> & N). assert (He' : forall e, In e es -> exists j u v, e = Edge b j u v /\ j <> b) by (intros; apply He; now right).
  destruct (C01_distal b j u v (not_eq_sym N)) as (_ & _ & -> & _).
  destruct (C01_points_toward b j u v (not_eq_sym N)) as (PT & _ & _).
  rewrite HA. cbn [negb]. rewrite andb_false_r.
  assert (IN : forall k w, k <> b -> w = TAIL \/ w = CIRCLE -> In (Edge b k w ARROW) (Edge b j u v :: es) <-> (k = j /\ w = u /\ v = ARROW) \/ In (Edge b k w ARROW) es).
  { intros k w Nk Hw. cbn [In]. split; intros [K|K]; auto.
    - left. unfold Edge in K. assert (P : pointing_left w ARROW = false) by (destruct w; reflexivity). rewrite P in K.
      destruct (pointing_left u v) eqn:P2; injection K; intros; subst; auto; congruence.
    - destruct K as (-> & -> & ->). now left. }
  destruct (Nat.eqb_spec j a) as [->|Nja]; cbn [andb].
  - destruct (points_toward (Edge b a u v) a) eqn:EP.
    { destruct (proj1 PT eq_refl) as [-> EP']. split; [|reflexivity]. intros _. exists a, u. split; [now left|]. split; [now left|exact EP']. }
    assert (NP : ~ (v = ARROW /\ (u = TAIL \/ u = CIRCLE))) by (rewrite <- PT; congruence).
    assert (EC : Nat.eqb a c && points_toward (Edge b a u v) c = false).
    { destruct (Nat.eqb_spec a c) as [<-|]; [exact EP|reflexivity]. }
    rewrite EC, IH by auto. split; intros (k & w & K1 & K2 & K3); exists k, w; (split; [exact K1|]; split; [|exact K3]).
    + apply IN; auto. destruct K1; congruence.
    + apply IN in K2; auto; [|destruct K1; congruence]. destruct K2 as [(_ & -> & ->)|K2]; [tauto|exact K2].
  - destruct (Nat.eqb_spec j c) as [->|Njc]; cbn [andb].
    + destruct (points_toward (Edge b c u v) c) eqn:EP.
      { destruct (proj1 PT eq_refl) as [-> EP']. split; [|reflexivity]. intros _. exists c, u. split; [now right|]. split; [now left|exact EP']. }
      assert (NP : ~ (v = ARROW /\ (u = TAIL \/ u = CIRCLE))) by (rewrite <- PT; congruence).
      rewrite IH by auto. split; intros (k & w & K1 & K2 & K3); exists k, w; (split; [exact K1|]; split; [|exact K3]).
      * apply IN; auto. destruct K1; congruence.
      * apply IN in K2; auto; [|destruct K1; congruence]. destruct K2 as [(_ & -> & ->)|K2]; [tauto|exact K2].
    + rewrite IH by auto. split; intros (k & w & K1 & K2 & K3); exists k, w; (split; [exact K1|]; split; [|exact K3]).
      * apply IN; auto. destruct K1; congruence.
      * apply IN in K2; auto; [|destruct K1; congruence]. destruct K2 as [(-> & _ & _)|K2]; [destruct K1; congruence|exact K2].
Qed.
Lemma node_edges_shape g b e : wf g -> (b < gn g)%nat -> In e (get_node_edges g b) -> exists j u v, e = Edge b j u v /\ j <> b.
Proof.
  intros Hw Hb He. unfold get_node_edges in He. apply in_flat_map in He. destruct He as (k & _ & He). exists k.
  assert (N : k <> b). { intros ->. unfold pair_edges in He. rewrite (proj1 Hw b Hb) in He. destruct He. }
  unfold pair_edges, get_edge in He. destruct (_ || _ || _).
  - destruct (gm g b k =? 0); [destruct He|]. destruct (endpoint_of _) as [u|]; [|destruct He]. destruct (endpoint_of _) as [v|]; [|destruct He]. cbn in He. destruct He as [<-|[]]. eauto.
  - destruct (_ && _); [destruct He as [<-|[<-|[]]]; eauto|]. destruct (_ && _); [destruct He as [<-|[<-|[]]]; eauto|]. destruct (_ && _); [destruct He as [<-|[<-|[]]]; eauto|]. destruct He.
Qed.
Lemma pair_edges_arrow g b k u : wf g -> simple g -> (b < gn g)%nat -> (k < gn g)%nat -> b <> k -> u = TAIL \/ u = CIRCLE ->
  In (Edge b k u ARROW) (get_node_edges g b) <-> gm g k b = 1 /\ gm g b k = ev u.
Proof.
  intros Hw Hs Hb Hk N Hu. unfold get_node_edges. rewrite in_flat_map. split.
  - intros (j & Hj & He). apply in_seq0 in Hj.
    assert (Nj : b <> j). { intros <-. unfold pair_edges in He. rewrite (proj1 Hw b Hb) in He. destruct He. }
    unfold pair_edges in He. assert (S1 := Hs j b Hj Hb). assert (S2 := Hs b j Hb Hj).
    destruct (_ || _ || _) eqn:E0.
    2:{ repeat match type of He with context [?x =? ?y] => destruct (Z.eqb_spec x y); [lia|] end. cbn [andb] in He. destruct He. }
    destruct (Z.eq_dec (gm g b j) 0) as [Z0|NZ]; [unfold get_edge in He; rewrite Z0 in He; destruct He|].
    destruct (wf_marks g b j Hw Hs Hb Hj NZ) as (x & y & M1 & M2 & C1 & C2).
    rewrite (get_edge_codes g b j x y C1 C2) in He by (intros ->; destruct M1 as [?|[?|?]]; discriminate).
    destruct He as [He|[]]. unfold Edge in He. assert (P : pointing_left u ARROW = false) by (destruct Hu; subst; reflexivity). rewrite P in He.
    destruct (pointing_left x y) eqn:P2; injection He; intros; subst; [congruence|]. rewrite C1, C2. auto.
  - intros [E1 E2]. exists k. split; [now apply in_seq0|]. unfold pair_edges. rewrite E1. cbn [Z.eqb Pos.eqb orb].
    rewrite (get_edge_codes g b k u ARROW E2 E1) by (destruct Hu; subst; discriminate). now left.
Qed.
(** ... so it is exact for directed or partially directed edges, ... *)
Theorem C67_def_noncollider_partial : forall g a b c, wf g -> simple g -> (a < gn g)%nat -> (b < gn g)%nat -> (c < gn g)%nat ->
  a <> b -> c <> b -> gm g a b <> 0 ->
  (is_def_noncollider g a b c = true <->
   (gm g a b = 1 /\ (gm g b a = -1 \/ gm g b a = 2)) \/ (gm g c b = 1 /\ (gm g b c = -1 \/ gm g b c = 2))).
Proof.
  intros g a b c Hw Hs Ha Hb Hc Na Nc NZ. unfold is_def_noncollider. rewrite loop_true; auto.
  - split.
    + intros (j & u & [-> | ->] & K2 & K3); apply pair_edges_arrow in K2; auto; destruct K2 as [K4 K5]; [left|right]; (split; [exact K4|]); rewrite K5; destruct K3 as [-> | ->]; cbn; auto.
    + intros [[K1 K2]|[K1 K2]].
      * destruct K2 as [K2|K2]; [exists a, TAIL|exists a, CIRCLE]; (split; [now left|]); (split; [apply pair_edges_arrow; auto|auto]).
      * destruct K2 as [K2|K2]; [exists c, TAIL|exists c, CIRCLE]; (split; [now right|]); (split; [apply pair_edges_arrow; auto|auto]).
  - intros e He. eapply node_edges_shape; eauto.
  - unfold is_adjacent_to. pose proof (proj2 Hw a b Ha Hb) as HL. apply negb_true_iff, Z.eqb_neq. intros E. rewrite E in HL. pair_cases HL; congruence.
Qed.
(** ... but two circles at b with a and c not adjacent (the case the method's last test is meant for) are not recognised. *)
Theorem C67_circles_refuted : let g := fold_left gapply [AddEdge (Edge 0 1 CIRCLE CIRCLE); AddEdge (Edge 1 2 CIRCLE CIRCLE)] (empty_graph 3) in
  is_adjacent_to g 0 2 = false /\ is_def_noncollider g 0 1 2 = false.
Proof. split; vm_compute; reflexivity. Qed.

(** contains_edge(e): e is one of the edges of its first node, except for circle-tail edges. *)
Theorem C68_contains_edge_partial : forall g a b ea eb, wf g -> (a < gn g)%nat -> (b < gn g)%nat -> a <> b -> is_mark ea -> is_mark eb ->
  ~ (ea = CIRCLE /\ eb = TAIL) ->
  (contains_edge g (Edge a b ea eb) = true <-> In (Edge a b ea eb) (pair_edges g a b)).
Proof.
  intros g a b ea eb Hw Ha Hb N M1 M2 NC. pose proof (proj2 Hw a b Ha Hb) as HL.
  assert (EQ : forall x y u v, Edge a b x y = Edge a b u v -> x = u /\ y = v).
  { intros x y u v E. pose proof (Edge_proximal a b x y N) as (P1 & P2 & _). pose proof (Edge_proximal a b u v N) as (P3 & P4 & _). rewrite E in P1, P2. split; congruence. }
  unfold pair_edges, get_edge.
  assert (CE : contains_edge g (Edge a b ea eb) =
     match ea, eb with
     | TAIL, TAIL => ((gm g b a =? -1) && (gm g a b =? -1)) || ((gm g b a =? 4) && (gm g a b =? 4))
     | TAIL, ARROW => ((gm g a b =? -1) && (gm g b a =? 1)) || ((gm g a b =? 4) && (gm g b a =? 5))
     | ARROW, TAIL => ((gm g b a =? -1) && (gm g a b =? 1)) || ((gm g b a =? 4) && (gm g a b =? 5))
     | TAIL, CIRCLE => (gm g a b =? -1) && (gm g b a =? 2)
     | ARROW, ARROW => ((gm g a b =? 1) && (gm g b a =? 1)) || ((gm g a b =? 4) && (gm g b a =? 4)) || ((gm g a b =? 5) || (gm g b a =? 5))
     | CIRCLE, ARROW => (gm g a b =? 2) && (gm g b a =? 1)
     | ARROW, CIRCLE => (gm g b a =? 2) && (gm g a b =? 1)
     | CIRCLE, CIRCLE => (gm g a b =? 2) && (gm g b a =? 2)
     | _, _ => false end) by (destruct M1 as [-> | [-> | ->]], M2 as [-> | [-> | ->]]; reflexivity).
  rewrite CE. clear CE.
  pair_cases HL; repeat match goal with H : _ = gm _ _ _ |- _ => rewrite <- H; clear H end;
  destruct M1 as [-> | [-> | ->]], M2 as [-> | [-> | ->]]; try tauto; cbn [Z.eqb Pos.eqb orb andb endpoint_of res_bind In];
  (split; [intros K; first [discriminate|now left|now right; left]|intros K; repeat (destruct K as [K|K]); try contradiction; first [reflexivity|apply EQ in K; destruct K; discriminate]]).
Qed.
Theorem C68_circle_tail_refuted : let g := fold_left gapply [AddEdge (Edge 0 1 TAIL CIRCLE)] (empty_graph 2) in
  get_edge g 1 0 = Ok (Some (Edge 1 0 CIRCLE TAIL)) /\ contains_edge g (Edge 1 0 CIRCLE TAIL) = false.
Proof. split; vm_compute; reflexivity. Qed.

(** Adjacency and orientation tests. *)
Theorem C69_adjacency : forall g a b, wf g -> (a < gn g)%nat -> (b < gn g)%nat ->
  (is_adjacent_to g a b = true <-> joined g a b) /\
  (is_directly_connected_to g a b = true <-> joined g a b) /\
  (In b (get_adjacent_nodes g a) <-> joined g a b) /\
  (is_directed_from_to g a b = true <-> directed g a b) /\
  (is_undirected_from_to g a b = true <-> undirected g a b) /\
  (joined g a b <-> joined g b a).
Proof.
  intros g a b Hw Ha Hb. pose proof (proj2 Hw a b Ha Hb) as HL.
  unfold is_adjacent_to, is_directly_connected_to, get_adjacent_nodes, is_directed_from_to, is_undirected_from_to, joined, directed, undirected.
  rewrite filter_In, in_seq0, !andb_true_iff, !negb_true_iff, andb_false_iff, !Z.eqb_neq, !Z.eqb_eq.
  pair_cases HL; repeat match goal with H : _ = gm _ _ _ |- _ => rewrite <- H; clear H end; repeat split; try tauto; try lia; intros; try tauto; intuition lia.
Qed.
(** exists_trek reports only true common ancestors. *)
Theorem C69_exists_trek : forall n g a b, built n g -> (a < n)%nat -> (b < n)%nat -> exists_trek g a b = true ->
  exists v, (v < n)%nat /\ reach (dedge g) v a /\ reach (dedge g) v b.
Proof.
  intros n g a b HB Ha Hb H. unfold exists_trek in H. apply existsb_exists in H. destruct H as (v & Hv & H). apply in_seq0 in Hv.
  apply andb_true_iff in H. destruct H as [H1 H2]. destruct (built_inv n g HB) as (Hn & _ & _ & Hg). rewrite Hn in Hv.
  exists v. split; [exact Hv|]. unfold is_ancestor_of in H1, H2. apply Z.eqb_eq in H1, H2. rewrite <- Hn in Hv, Ha, Hb. split; apply Hg; auto.
Qed.

(** ** A concrete case: 0 --> 1 together with 0 <-> 1, 1 o-> 2, 2 --- 3, 0 --> 3. *)
Definition qg : ggraph := fold_left gapply [AddEdge (Edge 0 1 TAIL ARROW); AddEdge (Edge 0 1 ARROW ARROW); AddEdge (Edge 1 2 CIRCLE ARROW); AddEdge (Edge 2 3 TAIL TAIL); AddEdge (Edge 0 3 TAIL ARROW)] (empty_graph 4).
Lemma qg_wf : wf qg.
Proof. apply run_wf. repeat constructor; cbn; lia. Qed.
Example C63_ex : wf qg /\ get_outdegree qg 0 = 2 /\ get_indegree qg 1 = 2 /\ no_parallel_tail qg 1 /\ get_max_degree qg = 3 /\
  get_nodes_into qg 1 ARROW = [0%nat] /\ contains_edge qg (Edge 1 0 ARROW TAIL) = true.
Proof.
  split; [exact qg_wf|]. split; [vm_compute; reflexivity|]. split; [vm_compute; reflexivity|]. split.
  { intros j Hj. change (gn qg) with 4%nat in Hj. destruct j as [|[|[|[|j]]]]; [vm_compute; discriminate..|lia]. }
  repeat split; vm_compute; reflexivity.
Qed.
Definition qs : ggraph := fold_left gapply [AddEdge (Edge 0 1 TAIL ARROW); AddEdge (Edge 1 2 ARROW CIRCLE); AddEdge (Edge 0 3 TAIL ARROW)] (empty_graph 4).
Example C66_ex : wf qs /\ is_def_collider qs 0 1 2 = Ok true /\ is_def_collider qs 1 0 3 = Ok false /\ is_def_noncollider qs 1 0 3 = true /\ gm qs 1%nat 0%nat <> 0 /\ exists_trek qs 1 3 = true.
Proof. split; [apply run_wf; repeat constructor; cbn; lia|]. repeat split; vm_compute; try reflexivity; discriminate. Qed.
Print Assumptions C63_outdegree.
Print Assumptions C63_max_degree.
Print Assumptions C64_indegree_partial.
Print Assumptions C65_nodes_by_mark_partial.
Print Assumptions C66_def_collider.
Print Assumptions C67_def_noncollider_partial.
Print Assumptions C68_contains_edge_partial.
Print Assumptions C69_adjacency.
Print Assumptions C69_exists_trek.
