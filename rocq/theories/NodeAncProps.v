(** C08: ancestor queries after nodes are added and removed, and in a subgraph (GeneralGraph.py:196-221, 834-860, 502-505). *)
From Verif Require Import Base EdgeModel EdgeProofs GraphModel GraphSpec GraphProofs DpathProofs NamedModel NamedProofs NamedProps.
Local Open Scope Z_scope.

(** a --> b, as get_edge shows it. *)
Definition shows_arc (G : ngraph) (a b : nat) : Prop := nget_edge G a b = Ok (Some (Edge a b TAIL ARROW)).

Lemma adjust_same n d i a b : adjust_dpath n d i i b a = upd d i i 1 b a.
Proof.
  unfold adjust_dpath. apply (fold_left_inv (adjust_step i i) (fun d' => forall b a, d' b a = upd d i i 1 b a)); [reflexivity|].
  intros d' k _ H y x. unfold adjust_step. cbn zeta.
  assert (K : forall d1 r c, d1 r c = 1 -> forall y x, upd d1 r c 1 y x = d1 y x).
  { intros d1 r c E y' x'. destruct (upd_case d1 r c 1 y' x') as [(-> & -> & E')|[_ E']]; congruence. }
  destruct (Z.eqb_spec (d' i k) 1) as [E|E].
  - destruct (Z.eqb_spec (upd d' i k 1 k i) 1) as [E1|E1]; [rewrite K by exact E1|]; rewrite K by exact E; apply H.
  - destruct (Z.eqb_spec (d' k i) 1) as [E1|E1]; [rewrite K by exact E1|]; apply H.
Qed.

Lemma arc_index G a b i j : api_graph G -> simple (ng G) -> nth_error (nodes G) i = Some a -> nth_error (nodes G) j = Some b ->
  shows_arc G a b <-> dedge (ng G) i j.
Proof.
  intros [HC HW] HS Ei Ej. pose proof HC as (ND & Hn & _).
  assert (Hi : (i < gn (ng G))%nat) by (rewrite Hn; apply nth_error_Some; congruence).
  assert (Hj : (j < gn (ng G))%nat) by (rewrite Hn; apply nth_error_Some; congruence).
  unfold shows_arc. rewrite (nget_edge_idx G a b i j HC Ei Ej). destruct HW as [W0 HL]. specialize (HL i j Hi Hj). pose proof (HS i j Hi Hj) as S1. pose proof (HS j i Hj Hi) as S2.
  assert (N : gm (ng G) i j <> 0 -> a <> b).
  { intros Q ->. assert (i = j) by (apply (proj1 (NoDup_nth_error (nodes G)) ND); [now rewrite <- Hn | congruence]). subst j. apply Q. now apply W0. }
  unfold dedge. split.
  - intros H. split; [exact Hi|]. split; [exact Hj|]. left.
    destruct (Z.eqb_spec (gm (ng G) i j) 0) as [Z0|Z0]; [discriminate H|]. specialize (N Z0).
    destruct S1 as [E1 | [E1 | [E1 | E1]]]; try lia; destruct S2 as [E2 | [E2 | [E2 | E2]]]; rewrite E1, E2 in H; cbn in H;
      try discriminate H; first [split; assumption | exfalso; injection H; intros; congruence].
  - intros (_ & _ & [[-> ->]|[Q _]]); [reflexivity|lia].
Qed.

Lemma edges_arc g i j : wf g -> simple g -> dedge g i j -> exists e, In e (get_graph_edges g) /\ ((e_node1 e = i /\ e_node2 e = j) \/ (e_node1 e = j /\ e_node2 e = i)).
Proof.
  intros [W0 _] HS (Hi & Hj & [[A B]|[A _]]); [|specialize (HS i j Hi Hj); lia].
  assert (N : i <> j) by (intros ->; rewrite (W0 j Hj) in A; discriminate).
  assert (X : forall x y, (x < y)%nat -> (y < gn g)%nat -> ((x = i /\ y = j) \/ (x = j /\ y = i)) -> exists e, In e (get_graph_edges g) /\ ((e_node1 e = x /\ e_node2 e = y) \/ (e_node1 e = y /\ e_node2 e = x))).
  { intros x y L Hy Q. assert (P : exists e, In e (pair_edges g x y)).
    { unfold pair_edges, get_edge. cbn zeta. destruct Q as [[-> ->]|[-> ->]]; rewrite A, B; cbn; eexists; now left. }
    destruct P as (e & He). exists e. split; [|now apply pair_edges_nodes in He].
    unfold get_graph_edges. apply in_flat_map. exists x. split; [apply in_seq; lia|]. apply in_flat_map. exists y. split; [apply in_seq; lia|exact He]. }
  destruct (Nat.lt_total i j) as [L|[L|L]]; [|congruence|].
  - exact (X i j L Hj (or_introl (conj eq_refl eq_refl))).
  - destruct (X j i L Hi (or_intror (conj eq_refl eq_refl))) as (e & He & Q). exists e. split; [exact He|]. tauto.
Qed.

Lemma recon_mono g l d a b : d b a = 1 -> fold_left (recon_step g) l d b a = 1.
Proof.
  intros H. apply (fold_left_inv (recon_step g) (fun d => d b a = 1)); [exact H|]. intros d' e _ H'. unfold recon_step. cbn zeta.
  destruct (is_parent_of g (e_node1 e) (e_node2 e)); [now apply adjust_mono|]. destruct (is_parent_of g (e_node2 e) (e_node1 e)); [now apply adjust_mono|exact H'].
Qed.
Lemma recon_arc g i j : wf g -> simple g -> dedge g i j -> gd (reconstitute_dpath g (get_graph_edges g)) j i = 1.
Proof.
  intros HW HS D. destruct (edges_arc g i j HW HS D) as (e & He & Q). cbn. apply in_rev, in_split in He. destruct He as (l1 & l2 & ->).
  rewrite fold_left_app. cbn [fold_left]. apply recon_mono. destruct D as (Hi & Hj & D'). assert (D : dedge g i j) by (split; [exact Hi|]; split; [exact Hj|exact D']).
  apply (is_parent_dedge g i j HW (simple_no44 g HS) Hi Hj) in D. unfold recon_step. cbn zeta. destruct Q as [[-> ->]|[-> ->]].
  - rewrite D. apply adjust_self.
  - destruct (is_parent_of g j i) eqn:E.
    + exfalso. apply (is_parent_dedge g j i HW (simple_no44 g HS) Hj Hi) in E. destruct E as (_ & _ & E). pose proof (HS i j Hi Hj). pose proof (HS j i Hj Hi). lia.
    + rewrite D. apply adjust_self.
Qed.
Lemma recon_refl g es a : (a < gn g)%nat -> gd (reconstitute_dpath g es) a a = 1.
Proof. intros H. cbn. apply recon_mono, recon_init_refl, H. Qed.

Lemma remove_simple G v G' : consistent G -> simple (ng G) -> nremove_node G v = Ok G' -> simple (ng G') /\ exists g1, ng G' = reconstitute_dpath g1 (get_graph_edges g1).
Proof.
  intros HC HS E. unfold nremove_node in E. destruct (dget (node_map G) v) as [i|] eqn:Ei; [|discriminate]. injection E as <-. cbn [ng]. split; [|eexists; reflexivity].
  apply (consistent_get G v i HC) in Ei. assert (Hi : (i < gn (ng G))%nat) by (destruct HC as (_ & -> & _); apply nth_error_Some; congruence).
  intros a b. cbn [gn gm reconstitute_dpath set_gd]. intros Ha Hb. unfold del_rc. apply HS; unfold skip; destruct (Nat.ltb _ _); lia.
Qed.

Lemma recon_answers G' g1 a b : api_graph G' -> simple (ng G') -> ng G' = reconstitute_dpath g1 (get_graph_edges g1) -> In a (nodes G') -> In b (nodes G') ->
  exists t, nis_ancestor_of G' a b = Ok t /\ (t = true -> reach (shows_arc G') a b) /\ (a = b \/ shows_arc G' a b -> t = true).
Proof.
  intros HA' HS' Eg Ia Ib.
  pose proof HA' as [HC' HW']. pose proof HC' as (ND & Hn & _).
  destruct (consistent_in G' a HC' Ia) as (i & Di & Hi). destruct (consistent_in G' b HC' Ib) as (j & Dj & Hj).
  pose proof (proj1 (consistent_get G' a i HC') Di) as Ei. pose proof (proj1 (consistent_get G' b j HC') Dj) as Ej.
  assert (HWg : wf g1) by (rewrite Eg in HW'; exact HW'). assert (HSg : simple g1) by (rewrite Eg in HS'; exact HS').
  unfold nis_ancestor_of. rewrite Di, Dj. eexists. split; [reflexivity|]. split.
  - intros T. apply Z.eqb_eq in T. rewrite Eg in T.
    apply (reconstitute_sound g1 _ HWg (simple_no44 g1 HSg) (graph_edges_nodes g1)) in T.
    assert (R : forall x y, reach (dedge (ng G')) x y -> forall c d, nth_error (nodes G') x = Some c -> nth_error (nodes G') y = Some d -> reach (shows_arc G') c d).
    { intros x y R. induction R as [x | x y z HD R IH]; intros c d Ec Ed.
      - rewrite Ec in Ed. injection Ed as ->. constructor.
      - destruct (nth_error (nodes G') y) as [m|] eqn:Em.
        + apply reach_step with m; [|now apply IH]. apply (arc_index G' c m x y HA' HS' Ec Em), HD.
        + exfalso. apply nth_error_None in Em. destruct HD as (_ & Hy & _). lia. }
    apply (R i j); auto. rewrite Eg. exact T.
  - intros [<- | H]; apply Z.eqb_eq.
    + assert (i = j) by congruence. subst j. rewrite Eg. apply recon_refl. rewrite Eg in Hi. exact Hi.
    + apply (arc_index G' a b i j HA' HS' Ei Ej) in H. rewrite Eg in *. apply recon_arc; auto.
Qed.

(** After remove_node an ancestor answer is backed by a path in the remaining graph; every node is its own ancestor and every parent an ancestor. *)
Theorem C08_remove_node : forall G v G' a b, api_graph G -> simple (ng G) -> nremove_node G v = Ok G' -> In a (nodes G') -> In b (nodes G') ->
  exists t, nis_ancestor_of G' a b = Ok t /\ (t = true -> reach (shows_arc G') a b) /\ (a = b \/ shows_arc G' a b -> t = true).
Proof.
  intros G v G' a b HA HS E Ia Ib. destruct (remove_simple G v G' (proj1 HA) HS E) as [HS' (g1 & Eg)].
  apply (recon_answers G' g1); auto. destruct HA; split; [eapply remove_consistent; eauto | eapply remove_wf; eauto].
Qed.
(** The same of a subgraph whose nodes are given in the graph's order (C42), whatever the ancestor answers of the graph itself were. *)
Theorem C08_subgraph : forall G l a b, api_graph G -> simple (ng G) -> l = filter (fun v => existsb (Nat.eqb v) l) (nodes G) -> In a l -> In b l ->
  let S := nsubgraph G l in
  exists t, nis_ancestor_of S a b = Ok t /\ (t = true -> reach (shows_arc S) a b) /\ (a = b \/ shows_arc S a b -> t = true).
Proof.
  intros G l a b HA HS Hl Ia Ib S. destruct (C42_subgraph_in_order_partial G l HA Hl) as (N & HC & _). fold S in N, HC. destruct HA as [HC0 [W0 WL]].
  assert (Hlen : length (kept G l) = length l).
  { unfold kept. pose proof HC0 as (_ & Hn & _). rewrite Hn. transitivity (length (filter (fun v => existsb (Nat.eqb v) l) (map (fun i => nth i (nodes G) 0%nat) (seq 0 (length (nodes G)))))); [|rewrite map_nth_seq, <- Hl; reflexivity]. generalize (seq 0 (length (nodes G))). intros s.
    induction s as [|x s IH]; [reflexivity|]. cbn [filter map]. destruct (existsb (Nat.eqb (nth x (nodes G) 0%nat)) l); cbn [length]; now rewrite IH. }
  assert (Hb : forall k, (k < length l)%nat -> (nth k (kept G l) 0 < gn (ng G))%nat).
  { intros k Hk. rewrite <- Hlen in Hk. apply (nth_In _ 0%nat) in Hk. unfold kept in Hk at 2. apply filter_In in Hk. destruct Hk as [Hk _]. now apply in_seq0 in Hk. }
  eapply (recon_answers S).
  - split; [exact HC|]. unfold S. cbn. split; cbn; [intros i Hi; apply W0, Hb, Hi|intros i j Hi Hj; apply WL; apply Hb; assumption].
  - intros i j Hi Hj. cbn in *. apply HS; apply Hb; assumption.
  - reflexivity.
  - now rewrite N.
  - now rewrite N.
Qed.

(** add_node changes no answer between the old nodes; the new node is its own only ancestor and descendant. *)
Theorem C08_add_node : forall G v, api_graph G -> ~ In v (nodes G) -> let G' := fst (nadd_node G v) in
  nis_ancestor_of G' v v = Ok true /\
  forall a, In a (nodes G) -> nis_ancestor_of G' a v = Ok false /\ nis_ancestor_of G' v a = Ok false /\
    forall b, In b (nodes G) -> nis_ancestor_of G' a b = nis_ancestor_of G a b.
Proof.
  intros G v HA NI G'. pose proof HA as [HC HW]. pose proof (add_consistent G v HC) as HC'. fold G' in HC'. pose proof HC as (_ & Hn & _).
  assert (EX : existsb (Nat.eqb v) (nodes G) = false) by (destruct (existsb (Nat.eqb v) (nodes G)) eqn:E; [apply existsb_In in E; contradiction|reflexivity]).
  assert (NG : nodes G' = nodes G ++ [v]) by (unfold G', nadd_node; now rewrite EX).
  assert (GD : forall y x, gd (ng G') y x = upd (pad (gn (ng G)) (gd (ng G))) (gn (ng G)) (gn (ng G)) 1 y x) by (intros y x; unfold G', nadd_node; rewrite EX; cbn [fst ng gd]; apply adjust_same).
  set (n := gn (ng G)) in *.
  assert (Dv : dget (node_map G') v = Some n) by (apply (consistent_get G' v n HC'); rewrite NG, nth_error_app2 by lia; rewrite <- Hn, Nat.sub_diag; reflexivity).
  assert (DO : forall a, In a (nodes G) -> exists i, dget (node_map G) a = Some i /\ (i < n)%nat /\ dget (node_map G') a = Some i).
  { intros a Ia. destruct (consistent_in G a HC Ia) as (i & Di & Hi). exists i. split; [exact Di|]. split; [exact Hi|]. apply (consistent_get G' a i HC'). rewrite NG, nth_error_app1 by lia. now apply (consistent_get G a i HC). }
  unfold nis_ancestor_of. rewrite Dv. split; [rewrite GD, upd_same; reflexivity|]. intros a Ia. destruct (DO a Ia) as (i & Di & Hi & Di'). rewrite Di, Di'.
  assert (OUT : forall y x, (n <= y)%nat \/ (n <= x)%nat -> pad n (gd (ng G)) y x = 0).
  { intros y x Q. unfold pad. destruct (Nat.ltb_spec y n), (Nat.ltb_spec x n); try reflexivity. lia. }
  split; [|split].
  - rewrite GD. destruct (upd_case (pad n (gd (ng G))) n n 1 n i) as [(_ & Q & _)|[_ ->]]; [lia|]. now rewrite OUT by lia.
  - rewrite GD. destruct (upd_case (pad n (gd (ng G))) n n 1 i n) as [(Q & _ & _)|[_ ->]]; [lia|]. now rewrite OUT by lia.
  - intros b Ib. destruct (DO b Ib) as (j & Dj & Hj & Dj'). rewrite Dj, Dj', GD. destruct (upd_case (pad n (gd (ng G))) n n 1 j i) as [(Q & _ & _)|[_ ->]]; [lia|].
    unfold pad. rewrite (proj2 (Nat.ltb_lt j n)), (proj2 (Nat.ltb_lt i n)) by assumption. reflexivity.
Qed.
Example C08_node_case : exists G G', nrun (new_ngraph [5; 6; 7]%nat) [NAddDirected 5 6; NAddDirected 6 7; NAdd 8] = Ok G /\ nis_ancestor_of G 5 7 = Ok true /\ simple (ng G) /\
  nis_ancestor_of (nsubgraph G [5; 7; 8]%nat) 5 7 = Ok false /\ nis_ancestor_of (nsubgraph G [5; 6; 7]%nat) 5 7 = Ok true /\
  nremove_node G 6 = Ok G' /\ nis_ancestor_of G' 5 7 = Ok false /\ nis_ancestor_of G' 8 8 = Ok true.
Proof.
  eexists. eexists. split; [reflexivity|]. split; [reflexivity|]. split; [|split; [reflexivity|split; [reflexivity|split; [reflexivity|split; reflexivity]]]].
  intros i j Hi Hj. cbn in Hi, Hj. destruct i as [|[|[|[|i]]]]; try lia; destruct j as [|[|[|[|j]]]]; try lia; vm_compute; auto.
Qed.
