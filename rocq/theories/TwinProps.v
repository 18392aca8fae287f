(** C266: two nodes of the same name in one GeneralGraph (GeneralGraph.py:26-40; GraphNode.py: __eq__ and __hash__ use the name). *)
From Verif Require Import Base EdgeModel GraphModel GraphProofs DpathProofs NamedModel NamedProofs.
Local Open Scope Z_scope.

(** Position i holds the name v and so does a later one. *)
Definition shadowed (l : list nat) (i : nat) : Prop :=
  exists v j, nth_error l i = Some v /\ nth_error l j = Some v /\ (i < j)%nat.

(** Calls that leave the node list alone. *)
Definition edge_op (o : nop) : Prop := match o with NAdd _ | NRemove _ => False | _ => True end.

Lemma dget_dset d k v k' : dget (dset d k v) k' = if Nat.eqb k k' then Some v else dget d k'.
Proof.
  induction d as [|[a b] d IH]; cbn [dset].
  - rewrite dget_cons. reflexivity.
  - destruct (Nat.eqb_spec a k) as [-> | N]; rewrite !dget_cons.
    + destruct (Nat.eqb k k'); reflexivity.
    + destruct (Nat.eqb_spec a k') as [-> | N']; [|exact IH].
      destruct (Nat.eqb_spec k k'); [congruence|reflexivity].
Qed.

Lemma enum_snoc l x v : dget (enumerate_map (l ++ [x])) v = if Nat.eqb x v then Some (length l) else dget (enumerate_map l) v.
Proof.
  unfold enumerate_map. rewrite app_length, seq_app. cbn [length seq Nat.add].
  assert (C : forall (a : list nat) (b : list nat) p q, length a = length b -> combine (a ++ [p]) (b ++ [q]) = combine a b ++ [(p, q)]).
  { induction a as [|y a IH]; intros [|z b] p q H; cbn in *; try discriminate; [reflexivity|]. f_equal. apply IH. congruence. }
  rewrite C by (now rewrite seq_length). rewrite fold_left_app. cbn [fold_left fst snd]. apply dget_dset.
Qed.

(** The index a name stands for is its last position in the node list, whatever the list. *)
Theorem C266_last_position l v i :
  dget (enumerate_map l) v = Some i <-> nth_error l i = Some v /\ forall j, (i < j)%nat -> nth_error l j <> Some v.
Proof.
  revert i. induction l as [|x l IH] using rev_ind; intro i.
  - cbn. split; [discriminate|]. intros [H _]. destruct i; discriminate.
  - rewrite enum_snoc. destruct (Nat.eqb_spec x v) as [-> | N].
    + split.
      * intro H. injection H as <-. rewrite nth_error_app2, Nat.sub_diag by lia. split; [reflexivity|].
        intros j Lj. rewrite (proj2 (nth_error_None (l ++ [v]) j)); [discriminate|rewrite app_length; cbn; lia].
      * intros [H1 H2]. f_equal. destruct (Nat.lt_trichotomy (length l) i) as [L|[L|L]]; [|exact L|].
        -- rewrite (proj2 (nth_error_None (l ++ [v]) i)) in H1; [discriminate|rewrite app_length; cbn; lia].
        -- exfalso. apply (H2 (length l) L). now rewrite nth_error_app2, Nat.sub_diag by lia.
    + rewrite IH. assert (S : forall k, nth_error (l ++ [x]) k = Some v <-> nth_error l k = Some v).
      { intro k. destruct (Nat.lt_trichotomy k (length l)) as [L|[L|L]].
        - now rewrite nth_error_app1 by exact L.
        - subst k. rewrite nth_error_app2, Nat.sub_diag by lia. rewrite (proj2 (nth_error_None l (length l))) by lia.
          cbn. split; congruence.
        - rewrite (proj2 (nth_error_None (l ++ [x]) k)) by (rewrite app_length; cbn; lia).
          rewrite (proj2 (nth_error_None l k)) by lia. tauto. }
      split; intros [H1 H2]; (split; [apply S, H1|intros j L Q; apply (H2 j L), S, Q]).
Qed.

Lemma dget_not_shadowed l v i : shadowed l i -> dget (enumerate_map l) v <> Some i.
Proof.
  intros (u & j & H1 & H2 & L) Q. apply C266_last_position in Q. destruct Q as [Q1 Q2].
  rewrite H1 in Q1. injection Q1 as ->. exact (Q2 j L H2).
Qed.

Lemma on_nodes_frame G a b f G' i : (forall v, dget (node_map G) v <> Some i) ->
  (forall k l c d, (c = i \/ d = i) -> k <> i -> l <> i -> gm (f (ng G) k l) c d = gm (ng G) c d) ->
  on_nodes G a b f = Ok G' ->
  nodes G' = nodes G /\ node_map G' = node_map G /\ forall c d, c = i \/ d = i -> gm (ng G') c d = gm (ng G) c d.
Proof.
  intros Hm Hf. unfold on_nodes. destruct (dget (node_map G) a) as [k|] eqn:Ek; [|discriminate].
  destruct (dget (node_map G) b) as [l|] eqn:El; [|discriminate]. intro H. injection H as <-. cbn.
  split; [reflexivity|split; [reflexivity|]]. intros c d Hc. apply Hf; [exact Hc| |]; intro E; subst.
  - exact (Hm a Ek).
  - exact (Hm b El).
Qed.

Lemma napply_frame G o G' i : edge_op o -> (forall v, dget (node_map G) v <> Some i) -> napply G o = Ok G' ->
  nodes G' = nodes G /\ node_map G' = node_map G /\ forall c d, c = i \/ d = i -> gm (ng G') c d = gm (ng G) c d.
Proof.
  intros Ho Hm. destruct o as [v|v|a b p q|a b|a b p q|a b]; cbn [edge_op napply] in *; try contradiction;
    apply on_nodes_frame; auto; intros k l c d Hc Hk Hl.
  - apply add_edge_frame; destruct (Edge_nodes k l p q) as [[-> ->] | [-> ->]]; intros [? ?]; destruct Hc; congruence.
  - unfold add_directed_edge. cbn. apply upd2_other; intros [? ?]; destruct Hc; congruence.
  - apply remove_edge_frame; destruct (Edge_nodes k l p q) as [[-> ->] | [-> ->]]; intros [? ?]; destruct Hc; congruence.
  - unfold remove_connecting_edge. cbn. apply upd2_other; intros [? ?]; destruct Hc; congruence.
Qed.

(** However the graph is used afterwards, the row and the column of a shadowed position never get an edge. *)
Theorem C266_shadowed_isolated_refuted l i ops G' : shadowed l i -> Forall edge_op ops -> nrun (new_ngraph l) ops = Ok G' ->
  forall j, gm (ng G') i j = 0 /\ gm (ng G') j i = 0.
Proof.
  intros Hs Ho HR j.
  assert (K : forall ops G G', Forall edge_op ops -> (forall v, dget (node_map G) v <> Some i) -> nrun G ops = Ok G' ->
    forall c d, c = i \/ d = i -> gm (ng G') c d = gm (ng G) c d).
  { clear. unfold nrun. induction ops as [|o ops IH]; intros G G' Ho Hm HR c d Hc; cbn [fold_left] in HR; [injection HR as <-; reflexivity|].
    inversion Ho as [|? ? Ho1 Ho2]; subst. cbn [res_bind] in HR. destruct (napply G o) as [G1|] eqn:E.
    - destruct (napply_frame G o G1 i Ho1 Hm E) as (_ & M & F). rewrite (IH G1 G' Ho2) by (auto; now rewrite M). now apply F.
    - exfalso. clear - HR. revert HR. induction ops as [|o ops IH]; cbn; [discriminate|exact IH]. }
  specialize (K ops (new_ngraph l) G' Ho (fun v => dget_not_shadowed l v i Hs) HR).
  split; rewrite K by auto; reflexivity.
Qed.

(** remove_node drops the first node of that name from the list and the row and column of the last one from the matrix. *)
Theorem C266_remove_mismatch_refuted l ops G v i G' : Forall edge_op ops -> nrun (new_ngraph l) ops = Ok G ->
  nth_error l i = Some v -> (forall j, (i < j)%nat -> nth_error l j <> Some v) -> nremove_node G v = Ok G' ->
  nodes G' = lremove v l /\ forall a b, gm (ng G') a b = gm (ng G) (skip i a) (skip i b).
Proof.
  intros Ho HR H1 H2 HA.
  assert (K : forall ops G G', Forall edge_op ops -> nrun G ops = Ok G' -> nodes G' = nodes G /\ node_map G' = node_map G).
  { clear. unfold nrun. induction ops as [|o ops IH]; intros G G' Ho HR; cbn [fold_left] in HR; [injection HR as <-; auto|].
    inversion Ho as [|? ? Ho1 Ho2]; subst. cbn [res_bind] in HR. destruct (napply G o) as [G1|] eqn:E.
    - destruct (IH G1 G' Ho2 HR) as [A B]. rewrite A, B. clear - Ho1 E.
      destruct o as [v|v|a b p q|a b|a b p q|a b]; cbn [edge_op napply] in *; try contradiction; unfold on_nodes in E;
        destruct (dget (node_map G) a); try discriminate; destruct (dget (node_map G) b); try discriminate; injection E as <-; auto.
    - exfalso. clear - HR. revert HR. induction ops as [|o ops IH]; cbn; [discriminate|exact IH]. }
  destruct (K ops _ _ Ho HR) as [A B]. cbn [new_ngraph nodes node_map] in A, B.
  assert (D : dget (node_map G) v = Some i) by (rewrite B; apply C266_last_position; auto).
  unfold nremove_node in HA. rewrite D in HA. injection HA as <-. cbn [nodes ng]. split; [now rewrite A|].
  intros a b. rewrite reconstitute_gm. reflexivity.
Qed.

(** Exactly the lists without a repeated name give every position its name, and have no shadowed position. *)
Theorem C266_distinct l : NoDup l <-> (forall i v, nth_error l i = Some v -> dget (enumerate_map l) v = Some i).
Proof.
  split.
  - intros ND i v H. apply C266_last_position. split; [exact H|]. intros j L Q.
    assert (i = j); [|lia]. apply (NoDup_nth_error l); [exact ND|apply (nth_error_lt _ _ _ H)|congruence].
  - intro K. apply NoDup_nth_error. intros i j L E. destruct (nth_error l i) as [v|] eqn:Q.
    + pose proof (K i v Q) as A. pose proof (K j v (eq_sym E)) as B. congruence.
    + apply nth_error_None in Q. lia.
Qed.
Theorem C266_shadowed_iff l : (exists i, shadowed l i) <-> ~ NoDup l.
Proof.
  split.
  - intros (i & v & j & H1 & H2 & L) ND. rewrite C266_distinct in ND. pose proof (ND i v H1). pose proof (ND j v H2).
    assert (i = j) by congruence. lia.
  - intro N. induction l as [|x l IH]; [exfalso; apply N; constructor|].
    destruct (in_dec Nat.eq_dec x l) as [I|I].
    + apply In_nth_error in I. destruct I as (k & Hk). exists 0%nat, x, (S k). cbn. repeat split; auto; lia.
    + destruct IH as (i & v & j & H1 & H2 & L); [intro D; apply N; now constructor|].
      exists (S i), v, (S j). cbn. repeat split; auto; lia.
Qed.

Lemma count_lremove v l : count_occ Nat.eq_dec (lremove v l) v = (count_occ Nat.eq_dec l v - 1)%nat.
Proof.
  induction l as [|x l IH]; [reflexivity|]. cbn [lremove count_occ]. destruct (Nat.eqb_spec x v) as [-> | N].
  - destruct (Nat.eq_dec v v); [lia|congruence].
  - cbn [count_occ]. destruct (Nat.eq_dec x v); [congruence|exact IH].
Qed.

(** Dag.remove_node (Dag.py:585-606) takes the name out of node_map for good: the other nodes of that name stay in the node
    list, and every later call that names one raises KeyError. *)
Theorem C266_dag_remove_refuted G v G' : dag_remove_node G v = Ok G' -> (1 < count_occ Nat.eq_dec (nodes G) v)%nat ->
  In v (nodes G') /\
  forall w, dag_get_edge G' v w = Raise /\ dag_get_edge G' w v = Raise /\ dag_add_edge G' v w = Raise /\ dag_add_edge G' w v = Raise /\
    dag_remove_node G' v = Raise.
Proof.
  intros HA HC. unfold dag_remove_node in HA. destruct (dget (node_map G) v) as [i|] eqn:D; [|discriminate].
  cbn zeta in HA. destruct (dag_graph_edges _) as [es|]; [|discriminate]. cbn [res_bind] in HA.
  assert (K : nodes G' = lremove v (nodes G) /\ node_map G' = dpop (node_map G) v).
  { unfold dag_reconstitute in HA. cbn [nodes node_map ng] in HA.
    match type of HA with res_bind ?x _ = _ => destruct x as [d|] end; [|discriminate]. cbn [res_bind] in HA. injection HA as <-. auto. }
  destruct K as [K1 K2].
  assert (P : dget (node_map G') v = None).
  { rewrite K2. clear. unfold dget, dpop. induction (node_map G) as [|[k x] d IH]; [reflexivity|]. cbn [filter fst].
    destruct (Nat.eqb k v) eqn:E; cbn [negb]; [exact IH|]. cbn [find fst]. rewrite E. exact IH. }
  split.
  - rewrite K1. apply (count_occ_In Nat.eq_dec). rewrite count_lremove. lia.
  - intro w. unfold dag_get_edge, dag_add_edge, on_nodes, dag_remove_node. rewrite P.
    destruct (dget (node_map G') w); repeat split; reflexivity.
Qed.
Example C266_dag_case : exists G',
  dag_remove_node (new_ngraph [5; 6; 5]%nat) 5 = Ok G' /\ nodes G' = [6; 5]%nat /\ dag_add_edge G' 6 5 = Raise /\
  (1 < count_occ Nat.eq_dec (nodes (new_ngraph [5; 6; 5]%nat)) 5)%nat.
Proof. eexists. split; [reflexivity|]. split; [reflexivity|]. split; [reflexivity|]. cbn. lia. Qed.

(** [X; Y; Z; X] with Y --> Z: after remove_node(X) the nodes are [Y; Z; X] and the edge reads Z --> X. *)
Example C266_moved_edge : exists G G',
  nrun (new_ngraph [5; 6; 7; 5]%nat) [NAddDirected 6 7] = Ok G /\ nget_edge G 6 7 = Ok (Some (Edge 6 7 TAIL ARROW)) /\
  nremove_node G 5 = Ok G' /\ nodes G' = [6; 7; 5]%nat /\ nget_edge G' 6 7 = Ok None /\ nget_edge G' 7 5 = Ok (Some (Edge 7 5 TAIL ARROW)).
Proof. do 2 eexists. split; [reflexivity|]. split; [reflexivity|]. split; [reflexivity|]. repeat split; reflexivity. Qed.
Example C266_shadow_case : shadowed [5; 6; 7; 5]%nat 0 /\ Forall edge_op [NAddDirected 6 7; NAddEdge 5 6 CIRCLE ARROW].
Proof. split; [exists 5%nat, 3%nat; cbn; repeat split; lia|repeat constructor]. Qed.
