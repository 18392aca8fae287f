(** C38, C87: text round trip (GraphUtils.graph_string, TXT2GeneralGraph.txt2generalgraph). *)
From Verif Require Import Base EdgeModel EdgeProofs GraphModel GraphSpec GraphProofs CheckLib NamedModel NamedProofs TextModel TextProofs.
From Coq Require Import Ascii String.
Import ListNotations.
Local Open Scope Z_scope.
Local Open Scope list_scope.

(** A graph as the API builds it: one distinct name per node, a well-formed matrix. *)
Definition text_graph (T : tgraph) : Prop := NoDup (t_names T) /\ List.length (t_names T) = gn (t_graph T) /\ wf (t_graph T).
(** A name that survives the file format: not empty, no white space, no semicolon, and not the marker "Nodes:". *)
Definition plain_name (v : str) : Prop := v <> [] /\ (forall c, In c v -> ws c = false) /\ ~ In ";"%char v /\ v <> lit "Nodes:".
(** a o-- b *)
Definition circle_tail (g : ggraph) (a b : nat) : Prop := get_edge g a b = Ok (Some (Edge a b CIRCLE TAIL)).

Lemma plain_good v : plain_name v -> good_name v.
Proof. intros (H1 & H2 & H3 & H4). split; [exact H1|]. split; [unfold solid; now rewrite Forall_forall|]. split; [exact H3|exact H4]. Qed.
Lemma dropped_circle_tail g i j : legal_pair (gm g i j) (gm g j i) -> (dropped (gm g i j) (gm g j i) = true <-> circle_tail g i j).
Proof.
  unfold dropped, circle_tail, get_edge. generalize (gm g i j) (gm g j i). intros x y L. pair_cases L; subst; cbn; split; intros H; try reflexivity; discriminate H.
Qed.
Lemma get_edge_ext g h i j : gm g i j = gm h i j -> gm g j i = gm h j i -> get_edge g i j = get_edge h i j.
Proof. unfold get_edge. now intros -> ->. Qed.
Lemma graph_edges_ext g h : gn g = gn h -> (forall i j, (i < gn g)%nat -> (j < gn g)%nat -> gm g i j = gm h i j) -> get_graph_edges g = get_graph_edges h.
Proof.
  intros E H. unfold get_graph_edges. rewrite <- E. rewrite !flat_map_concat_map. f_equal. apply map_ext_in. intros i Hi. apply in_seq in Hi. rewrite !flat_map_concat_map. f_equal. apply map_ext_in. intros j Hj. apply in_seq in Hj.
  unfold pair_edges. rewrite (get_edge_ext g h) by (apply H; lia). rewrite !H by lia. reflexivity.
Qed.

(** ** C38: what comes back *)
Theorem C38_what_is_read : forall T, text_graph T -> t_names T <> [] -> (forall v, In v (t_names T) -> plain_name v) ->
  exists T', txt2generalgraph (graph_string T) = Ok T' /\ text_graph T' /\ t_names T' = t_names T /\
    forall i j, (i < j)%nat -> (j < gn (t_graph T))%nat ->
      (circle_tail (t_graph T) i j -> get_edge (t_graph T') i j = Ok None /\ get_edge (t_graph T') j i = Ok None) /\
      (~ circle_tail (t_graph T) i j -> get_edge (t_graph T') i j = get_edge (t_graph T) i j /\ get_edge (t_graph T') j i = get_edge (t_graph T) j i).
Proof.
  intros T (HN & HL & HW) NE HP. destruct (read_write T) as (T' & E & E1 & E2 & E3 & E4); auto. { apply Forall_forall. intros v Hv. now apply plain_good, HP. }
  exists T'. split; [exact E|].
  assert (K : forall i j, (i < gn (t_graph T))%nat -> (j < gn (t_graph T))%nat -> legal_pair (gm (t_graph T') i j) (gm (t_graph T') j i)).
  { assert (Z : legal_pair 0 0) by (left; reflexivity). assert (K1 : forall i j, (i < j)%nat -> (j < gn (t_graph T))%nat -> legal_pair (gm (t_graph T') i j) (gm (t_graph T') j i) /\ legal_pair (gm (t_graph T') j i) (gm (t_graph T') i j)).
    { intros i j Hi Hj. specialize (E4 i j Hi Hj). destruct (dropped _ _); destruct E4 as [-> ->]; [split; exact Z|]. split; apply HW; lia. }
    intros i j Hi Hj. destruct (lt_eq_lt_dec i j) as [[H|H]|H]; [exact (proj1 (K1 i j H Hj))|subst; rewrite E3; exact Z|exact (proj2 (K1 j i H Hi))]. }
  split; [|split; [exact E1|]].
  - split; [now rewrite E1|]. split; [rewrite E1, E2; exact HL|]. split; [intros i _; apply E3|]. intros i j. rewrite E2. apply K.
  - intros i j Hi Hj. specialize (E4 i j Hi Hj). assert (L : legal_pair (gm (t_graph T) i j) (gm (t_graph T) j i)) by (apply HW; lia). pose proof (dropped_circle_tail (t_graph T) i j L) as DC. split; intros H.
    + apply DC in H. rewrite H in E4. destruct E4 as [A1 A2]. unfold get_edge. now rewrite A1, A2.
    + destruct (dropped _ _) eqn:D; [elim H; now apply DC|]. destruct E4 as [A1 A2]. split; apply get_edge_ext; assumption.
Qed.
(** Without an edge a o-- b whose circle end is listed first, everything comes back: names, matrix and the list of edges. *)
Theorem C38_round_trip : forall T, text_graph T -> t_names T <> [] -> (forall v, In v (t_names T) -> plain_name v) ->
  (forall i j, (i < j)%nat -> (j < gn (t_graph T))%nat -> ~ circle_tail (t_graph T) i j) ->
  exists T', txt2generalgraph (graph_string T) = Ok T' /\ t_names T' = t_names T /\ gn (t_graph T') = gn (t_graph T) /\
    mat_eq (gn (t_graph T)) (gm (t_graph T')) (gm (t_graph T)) /\ get_graph_edges (t_graph T') = get_graph_edges (t_graph T).
Proof.
  intros T (HN & HL & HW) NE HP HC. destruct (read_write T) as (T' & E & E1 & E2 & E3 & E4); auto. { apply Forall_forall. intros v Hv. now apply plain_good, HP. }
  exists T'. split; [exact E|]. split; [exact E1|]. split; [exact E2|].
  assert (M : mat_eq (gn (t_graph T)) (gm (t_graph T')) (gm (t_graph T))).
  { assert (K1 : forall i j, (i < j)%nat -> (j < gn (t_graph T))%nat -> gm (t_graph T') i j = gm (t_graph T) i j /\ gm (t_graph T') j i = gm (t_graph T) j i).
    { intros i j Hi Hj. specialize (E4 i j Hi Hj). specialize (HC i j Hi Hj). rewrite <- dropped_circle_tail in HC by (apply HW; lia). destruct (dropped _ _); [now elim HC|exact E4]. }
    intros i j Hi Hj. destruct (lt_eq_lt_dec i j) as [[H|H]|H]; [exact (proj1 (K1 i j H Hj))|subst; rewrite E3; symmetry; now apply HW|exact (proj2 (K1 j i H Hi))]. }
  split; [exact M|]. apply graph_edges_ext; [exact E2|]. rewrite E2. exact M.
Qed.

(** A chain with a bidirected, a circle and a double edge, and its text. *)
Definition ex_text : tgraph :=
  mkT [lit "X1"; lit "B.2"; lit "c"; lit "d"] (add_edge (add_edge (add_edge (add_edge (add_edge (empty_graph 4) (Edge 0 1 TAIL ARROW)) (Edge 0 1 ARROW ARROW)) (Edge 1 2 ARROW ARROW)) (Edge 3 2 CIRCLE ARROW)) (Edge 0 3 TAIL CIRCLE)).
Lemma C38_example : text_graph ex_text /\ (forall v, In v (t_names ex_text) -> plain_name v) /\
  (forall i j, (i < j)%nat -> (j < gn (t_graph ex_text))%nat -> ~ circle_tail (t_graph ex_text) i j) /\
  graph_string ex_text = lit "Graph Nodes:" ++ nl :: lit "X1;B.2;c;d" ++ nl :: nl :: lit "Graph Edges:" ++ nl :: lit "1. X1 --> B.2" ++ nl :: lit "2. X1 <-> B.2" ++ nl :: lit "3. X1 --o d" ++ nl ::
    lit "4. B.2 <-> c" ++ nl :: lit "5. d o-> c" ++ [nl].
Proof.
  assert (HW : wf (t_graph ex_text)) by (apply wfb_sound; vm_compute; reflexivity). split; [|split; [|split]].
  - split; [|split; [reflexivity|exact HW]]. cbn. repeat constructor; cbn; intuition discriminate.
  - intros v [<-|[<-|[<-|[<-|[]]]]]; (split; [discriminate|]); (split; [|split; [cbn; intuition discriminate|discriminate]]); intros c Hc; cbn in Hc; repeat (destruct Hc as [<-|Hc]; [reflexivity|]); destruct Hc.
  - intros i j Hi Hj. change (gn (t_graph ex_text)) with 4%nat in Hj. unfold circle_tail.
    assert (i = 0 /\ j = 1 \/ i = 0 /\ j = 2 \/ i = 0 /\ j = 3 \/ i = 1 /\ j = 2 \/ i = 1 /\ j = 3 \/ i = 2 /\ j = 3)%nat as [[-> ->]|[[-> ->]|[[-> ->]|[[-> ->]|[[-> ->]|[-> ->]]]]]] by lia; vm_compute; discriminate.
  - vm_compute. reflexivity.
Qed.

(** ** C87: every graph survives the round trip -- it does not *)
Definition survives (T : tgraph) : Prop := exists T', txt2generalgraph (graph_string T) = Ok T' /\ t_names T' = t_names T /\ mat_eq (gn (t_graph T)) (gm (t_graph T')) (gm (t_graph T)).
(** The graph without nodes comes back with one node, called "Graph Edges:". *)
Theorem C87_empty_refuted : text_graph (mkT [] (empty_graph 0)) /\ ~ survives (mkT [] (empty_graph 0)) /\
  exists T', txt2generalgraph (graph_string (mkT [] (empty_graph 0))) = Ok T' /\ t_names T' = [lit "Graph Edges:"].
Proof.
  split; [|split].
  - split; [constructor|]. split; [reflexivity|]. apply wfb_sound. reflexivity.
  - intros (T' & E & F & _). assert (X : res_bind (txt2generalgraph (graph_string (mkT [] (empty_graph 0)))) (fun T => Ok (t_names T)) = Ok [lit "Graph Edges:"]) by (vm_compute; reflexivity).
    rewrite E in X. cbn [res_bind] in X. rewrite F in X. discriminate X.
  - destruct (txt2generalgraph (graph_string (mkT [] (empty_graph 0)))) as [T'|] eqn:E.
    + exists T'. split; [reflexivity|]. assert (X : res_bind (txt2generalgraph (graph_string (mkT [] (empty_graph 0)))) (fun T => Ok (t_names T)) = Ok [lit "Graph Edges:"]) by (vm_compute; reflexivity).
      rewrite E in X. cbn [res_bind] in X. now injection X.
    + vm_compute in E. discriminate E.
Qed.
(** An edge A o-- B with A listed first is lost. *)
Theorem C87_circle_tail_refuted : forall T i j, text_graph T -> (forall v, In v (t_names T) -> plain_name v) ->
  (i < j)%nat -> (j < gn (t_graph T))%nat -> circle_tail (t_graph T) i j -> ~ survives T.
Proof.
  intros T i j (HN & HL & HW) HP Hi Hj HC (T' & E & F1 & F2). destruct (read_write T) as (T1 & E1 & _ & _ & _ & E4); auto.
  { apply Forall_forall. intros v Hv. now apply plain_good, HP. } { intros X. rewrite X in HL. cbn in HL. lia. }
  assert (T1 = T') by congruence. subst T1. specialize (E4 i j Hi Hj). apply dropped_circle_tail in HC; [|apply HW; lia]. rewrite HC in E4. destruct E4 as [A1 A2].
  rewrite F2 in A1 by lia. unfold dropped in HC. rewrite A1 in HC. discriminate HC.
Qed.
(** Such a graph: X --o Y added with Y the first node. *)
Lemma C87_example : let T := mkT [lit "X"; lit "Y"] (add_edge (empty_graph 2) (Edge 1 0 TAIL CIRCLE)) in
  text_graph T /\ (forall v, In v (t_names T) -> plain_name v) /\ circle_tail (t_graph T) 0 1 /\
  graph_string T = lit "Graph Nodes:" ++ nl :: lit "X;Y" ++ nl :: nl :: lit "Graph Edges:" ++ nl :: lit "1. X o-- Y" ++ [nl].
Proof.
  cbn zeta. split; [|split; [|split; [vm_compute; reflexivity|vm_compute; reflexivity]]].
  - split; [repeat constructor; cbn; intuition discriminate|]. split; [reflexivity|]. apply wfb_sound. vm_compute. reflexivity.
  - intros v [<-|[<-|[]]]; (split; [discriminate|]); (split; [|split; [cbn; intuition discriminate|discriminate]]); intros c Hc; cbn in Hc; repeat (destruct Hc as [<-|Hc]; [reflexivity|]); destruct Hc.
Qed.
