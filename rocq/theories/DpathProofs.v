(** Lemmas about the incrementally maintained ancestor matrix (dpath). *)
From Verif Require Import Base EdgeModel EdgeProofs GraphModel GraphSpec GraphProofs.
Local Open Scope Z_scope.

(** dpath[b,a] = 1 only if there is a path a ~> b. *)
Definition dsound (d : mat) (R : nat -> nat -> Prop) : Prop :=
  forall a b, d b a = 1 -> reach R a b.

(** dpath[b,a] = 1 whenever there is a path a ~> b (within the first n nodes). *)
Definition dcomplete (n : nat) (d : mat) (R : nat -> nat -> Prop) : Prop :=
  forall a b, (a < n)%nat -> (b < n)%nat -> reach R a b -> d b a = 1.

Lemma dsound_mono d (R R' : nat -> nat -> Prop) : (forall a b, R a b -> R' a b) -> dsound d R -> dsound d R'.
Proof. intros H Hs a b Hd. eapply reach_mono; eauto. Qed.

Lemma adjust_step_sound i j d k R : reach R i j -> dsound d R -> dsound (adjust_step i j d k) R.
Proof.
  intros Hij Hs. unfold adjust_step.
  assert (H1 : dsound (if d i k =? 1 then upd d j k 1 else d) R).
  { destruct (Z.eqb_spec (d i k) 1) as [E|E]; [|exact Hs].
    intros a b Hd. destruct (upd_case d j k 1 b a) as [(-> & -> & _)|[_ Hu]].
    - eapply reach_trans; [apply Hs, E|exact Hij].
    - rewrite Hu in Hd. auto. }
  set (d1 := if d i k =? 1 then upd d j k 1 else d) in *. cbn zeta.
  destruct (Z.eqb_spec (d1 k j) 1) as [E|E]; [|exact H1].
  intros a b Hd. destruct (upd_case d1 k i 1 b a) as [(-> & -> & _)|[_ Hu]].
  - eapply reach_trans; [exact Hij|apply H1, E].
  - rewrite Hu in Hd. auto.
Qed.

Lemma adjust_sound n d i j R : reach R i j -> dsound d R -> dsound (adjust_dpath n d i j) R.
Proof.
  intros Hij Hs. unfold adjust_dpath. apply fold_left_inv.
  - intros a b Hd. destruct (upd_case d j i 1 b a) as [(-> & -> & _)|[_ Hu]]; [exact Hij|].
    rewrite Hu in Hd. auto.
  - intros x y _ Hx. now apply adjust_step_sound.
Qed.

Lemma adjust_step_mono i j d k a b : d b a = 1 -> adjust_step i j d k b a = 1.
Proof.
  intros H. unfold adjust_step. cbn zeta.
  assert (H1 : (if d i k =? 1 then upd d j k 1 else d) b a = 1).
  { destruct (d i k =? 1); [|exact H]. destruct (upd_case d j k 1 b a) as [(_ & _ & E)|[_ E]]; rewrite E; auto. }
  set (d1 := if d i k =? 1 then upd d j k 1 else d) in *.
  destruct (d1 k j =? 1); [|exact H1]. destruct (upd_case d1 k i 1 b a) as [(_ & _ & E)|[_ E]]; rewrite E; auto.
Qed.

Lemma adjust_fold_mono i j l d a b : d b a = 1 -> fold_left (adjust_step i j) l d b a = 1.
Proof.
  intros H. apply (fold_left_inv (adjust_step i j) (fun d => d b a = 1)); [exact H|].
  intros. now apply adjust_step_mono.
Qed.

Lemma adjust_fold_up i j l d k : In k l -> d i k = 1 -> fold_left (adjust_step i j) l d j k = 1.
Proof.
  revert d. induction l as [|x l IH]; cbn; intros d [].
  - subst x. intros H. apply adjust_fold_mono. unfold adjust_step. rewrite H. cbn.
    destruct (upd d j k 1 k j =? 1); [|apply upd_same].
    destruct (upd_case (upd d j k 1) k i 1 j k) as [(_ & _ & E)|[_ E]]; rewrite E; auto. apply upd_same.
  - intros Hd. apply IH; [assumption|now apply adjust_step_mono].
Qed.

Lemma adjust_fold_down i j l d k : In k l -> d k j = 1 -> fold_left (adjust_step i j) l d k i = 1.
Proof.
  revert d. induction l as [|x l IH]; cbn; intros d [].
  - subst x. intros H. apply adjust_fold_mono. unfold adjust_step. cbn zeta.
    set (d1 := if d i k =? 1 then upd d j k 1 else d).
    assert (E : d1 k j = 1).
    { unfold d1. destruct (d i k =? 1); [|exact H].
      destruct (upd_case d j k 1 k j) as [(_ & _ & E)|[_ E]]; rewrite E; auto. }
    rewrite E. cbn. apply upd_same.
  - intros Hd. apply IH; [assumption|now apply adjust_step_mono].
Qed.

Lemma adjust_mono n d i j a b : d b a = 1 -> adjust_dpath n d i j b a = 1.
Proof.
  intros H. unfold adjust_dpath. apply adjust_fold_mono.
  destruct (upd_case d j i 1 b a) as [(_ & _ & E)|[_ E]]; rewrite E; auto.
Qed.

Lemma adjust_self n d i j : adjust_dpath n d i j j i = 1.
Proof. unfold adjust_dpath. apply adjust_fold_mono, upd_same. Qed.

(** What one call of adjust_dpath is guaranteed to add. *)
Lemma adjust_up n d i j k : (k < n)%nat -> d i k = 1 -> adjust_dpath n d i j j k = 1.
Proof.
  intros Hk H. unfold adjust_dpath. apply adjust_fold_up; [now apply in_seq0|].
  destruct (upd_case d j i 1 i k) as [(_ & _ & E)|[_ E]]; rewrite E; auto.
Qed.

Lemma adjust_down n d i j k : (k < n)%nat -> d k j = 1 -> adjust_dpath n d i j k i = 1.
Proof.
  intros Hk H. unfold adjust_dpath. apply adjust_fold_down; [now apply in_seq0|].
  destruct (upd_case d j i 1 k j) as [(_ & _ & E)|[_ E]]; rewrite E; auto.
Qed.

(** Completeness is preserved when the new child has no proper descendants or the new parent has no
    proper ancestors. *)
Lemma adjust_complete n d i j (R R' : nat -> nat -> Prop) :
  (i < n)%nat -> (j < n)%nat ->
  dcomplete n d R ->
  (forall x y, R' x y -> R x y \/ (x = i /\ y = j)) ->
  (forall b, reach R j b -> b = j) \/ (forall a, reach R a i -> a = i) ->
  dcomplete n (adjust_dpath n d i j) R'.
Proof.
  intros Hi Hj Hc HR Hor a b Ha Hb Hr.
  destruct (reach_extra R R' i j HR a b Hr) as [H|[H1 H2]].
  - apply adjust_mono. auto.
  - destruct Hor as [Hs|Hs].
    + rewrite (Hs _ H2). apply adjust_up; auto.
    + rewrite (Hs _ H1). apply adjust_down; auto.
Qed.

(* ---------- reconstitution ---------- *)

Lemma recon_init_sound n R : dsound (recon_init n) R.
Proof.
  unfold recon_init. apply fold_left_inv.
  - intros a b H. discriminate H.
  - intros d i _ Hd. apply adjust_sound; [constructor|exact Hd].
Qed.

Lemma recon_init_refl n a : (a < n)%nat -> recon_init n a a = 1.
Proof.
  intros Ha. unfold recon_init.
  assert (G : forall l d, In a l -> fold_left (fun d i => adjust_dpath n d i i) l d a a = 1).
  { induction l as [|x l IH]; cbn; intros d []; [subst x|auto].
    apply (fold_left_inv (fun d i => adjust_dpath n d i i) (fun d => d a a = 1)).
    - apply adjust_self.
    - intros. now apply adjust_mono. }
  apply G, in_seq0, Ha.
Qed.

(** is_parent_of is a genuine directed edge unless the pair is tail/tail plus bidirected (4,4). *)
Definition no44 (g : ggraph) : Prop :=
  forall i j, (i < gn g)%nat -> (j < gn g)%nat -> ~ (gm g i j = 4 /\ gm g j i = 4).

Lemma is_parent_dedge g i j : wf g -> no44 g -> (i < gn g)%nat -> (j < gn g)%nat ->
  (is_parent_of g i j = true <-> dedge g i j).
Proof.
  intros [_ Hl] H4 Hi Hj. specialize (Hl _ _ Hi Hj). specialize (H4 _ _ Hi Hj).
  unfold is_parent_of, dedge.
  split.
  - intros H. split; [exact Hi|split; [exact Hj|]].
    apply orb_true_iff in H. destruct H as [H|H].
    + apply andb_true_iff in H. destruct H as [A B]. apply Z.eqb_eq in A, B. auto.
    + apply Z.eqb_eq in H. pair_cases Hl; try lia.
  - intros (_ & _ & [[A B]|[A B]]); rewrite A, B; reflexivity.
Qed.

Lemma recon_step_sound g d e : wf g -> no44 g -> (e_node1 e < gn g)%nat -> (e_node2 e < gn g)%nat ->
  dsound d (dedge g) -> dsound (recon_step g d e) (dedge g).
Proof.
  intros Hw H4 H1 H2 Hs. unfold recon_step. cbn zeta.
  destruct (is_parent_of g (e_node1 e) (e_node2 e)) eqn:E1.
  - apply adjust_sound; [|exact Hs]. apply reach_one, is_parent_dedge; auto.
  - destruct (is_parent_of g (e_node2 e) (e_node1 e)) eqn:E2; [|exact Hs].
    apply adjust_sound; [|exact Hs]. apply reach_one, is_parent_dedge; auto.
Qed.

Lemma Edge_nodes i j a b : (e_node1 (Edge i j a b) = i /\ e_node2 (Edge i j a b) = j) \/
                           (e_node1 (Edge i j a b) = j /\ e_node2 (Edge i j a b) = i).
Proof. unfold Edge. destruct (pointing_left a b); cbn; auto. Qed.

Lemma pair_edges_nodes g i j e : In e (pair_edges g i j) ->
  (e_node1 e = i /\ e_node2 e = j) \/ (e_node1 e = j /\ e_node2 e = i).
Proof.
  unfold pair_edges, get_edge. cbn zeta.
  repeat match goal with |- context [if ?b then _ else _] => destruct b end; cbn [In];
  try (intros []; fail);
  try (destruct (endpoint_of (gm g i j)), (endpoint_of (gm g j i)); cbn);
  intros H; repeat (destruct H as [H|H]); try contradiction; subst e; first [apply Edge_nodes | cbn; auto].
Qed.

Lemma graph_edges_nodes g e : In e (get_graph_edges g) ->
  (e_node1 e < gn g)%nat /\ (e_node2 e < gn g)%nat.
Proof.
  unfold get_graph_edges. intros H. apply in_flat_map in H. destruct H as (i & Hi & H).
  apply in_flat_map in H. destruct H as (j & Hj & H).
  apply in_seq in Hi. apply in_seq in Hj.
  apply pair_edges_nodes in H. lia.
Qed.

Lemma reconstitute_sound g es : wf g -> no44 g ->
  (forall e, In e es -> (e_node1 e < gn g)%nat /\ (e_node2 e < gn g)%nat) ->
  dsound (gd (reconstitute_dpath g es)) (dedge g).
Proof.
  intros Hw H4 He. cbn. apply fold_left_inv; [apply recon_init_sound|].
  intros d e Hin Hd. apply in_rev in Hin. destruct (He _ Hin). now apply recon_step_sound.
Qed.

(* ---------- soundness over histories ---------- *)

Definition gsound (g : ggraph) : Prop := dsound (gd g) (dedge g).

Lemma simple_no44 g : simple g -> no44 g.
Proof. intros H i j Hi Hj [A _]. specialize (H _ _ Hi Hj). lia. Qed.

(** add_edge on a simple graph whose result is simple keeps every directed edge. *)
Lemma add_edge_keeps g e a b : wf g -> simple g -> op_on (gn g) (AddEdge e) -> simple (add_edge g e) ->
  dedge g a b -> dedge (add_edge g e) a b.
Proof.
  intros [_ Hl] Hs (Hi & Hj & Hij) Hs' (Ha & Hb & HD). cbn in Hi, Hj, Hij.
  unfold dedge. rewrite add_edge_gn. split; [exact Ha|split; [exact Hb|]].
  pose proof (add_edge_pair g e Hij) as HP. 
  assert (Hs1 : gm (add_edge g e) (e_node1 e) (e_node2 e) <> 4).
  { specialize (Hs' (e_node1 e) (e_node2 e)). rewrite add_edge_gn in Hs'. specialize (Hs' Hi Hj). lia. }
  assert (Hs2 : gm (add_edge g e) (e_node2 e) (e_node1 e) <> 4).
  { specialize (Hs' (e_node2 e) (e_node1 e)). rewrite add_edge_gn in Hs'. specialize (Hs' Hj Hi). lia. }
  specialize (Hl _ _ Ha Hb). pose proof (Hs _ _ Ha Hb) as Hsab.
  assert (Hab : a = e_node1 e /\ b = e_node2 e \/ a = e_node2 e /\ b = e_node1 e \/
                (~ (a = e_node1 e /\ b = e_node2 e) /\ ~ (a = e_node2 e /\ b = e_node1 e))) by lia.
  destruct Hab as [[-> ->]|[[-> ->]|[N1 N2]]].
  - destruct HD as [[A B]|[A B]]; [|lia]. rewrite A, B in HP.
    destruct (e_end1 e), (e_end2 e); cbn in HP; injection HP; intros; auto; congruence.
  - destruct HD as [[A B]|[A B]]; [|lia]. rewrite A, B in HP.
    destruct (e_end1 e), (e_end2 e); cbn in HP; injection HP; intros; auto; congruence.
  - rewrite !add_edge_frame by tauto. exact HD.
Qed.

(** The only new directed edge add_edge can produce on a simple graph. *)
Lemma add_edge_gd g e : gd (add_edge g e) = gd g \/
  (gd (add_edge g e) = adjust_dpath (gn g) (gd g) (e_node1 e) (e_node2 e) /\ e_end1 e = TAIL /\ e_end2 e = ARROW /\
   (gm g (e_node1 e) (e_node2 e) = 0 /\ gm g (e_node2 e) (e_node1 e) = 0 \/
    gm g (e_node1 e) (e_node2 e) = 1 /\ gm g (e_node2 e) (e_node1 e) = 1)).
Proof.
  unfold add_edge, add_edge_full. cbn zeta.
  destruct (e_end1 e) eqn:E1, (e_end2 e) eqn:E2; cbn;
  repeat match goal with |- context [if ?b then _ else _] => destruct b eqn:? end; cbn [fst gd set_gm]; auto.
  all: right; repeat split; auto; lia.
Qed.

Lemma add_edge_sound g e : wf g -> simple g -> gsound g -> op_on (gn g) (AddEdge e) ->
  simple (add_edge g e) -> gsound (add_edge g e).
Proof.
  intros Hw Hs Hg Ho Hs'. unfold gsound.
  assert (Hm : dsound (gd g) (dedge (add_edge g e))).
  { eapply dsound_mono; [|exact Hg]. intros a b. now apply add_edge_keeps. }
  destruct (add_edge_gd g e) as [->|(-> & E1 & E2 & HC)]; [exact Hm|].
  apply adjust_sound; [|exact Hm]. apply reach_one.
  destruct Ho as (Hi & Hj & Hij). cbn in Hi, Hj, Hij.
  unfold dedge. rewrite add_edge_gn. split; [exact Hi|split; [exact Hj|]].
  pose proof (add_edge_pair g e Hij) as HP. rewrite E1, E2 in HP.
  destruct HC as [[A B]|[A B]]; rewrite A, B in HP; cbn in HP; injection HP; auto.
Qed.

Lemma remove_edge_dedge_pres g e a b : wf g -> simple g -> op_on (gn g) (RemoveEdge e) ->
  is_parent_of g (e_node1 e) (e_node2 e) = false -> is_parent_of g (e_node2 e) (e_node1 e) = false ->
  dedge g a b -> dedge (remove_edge g e) a b.
Proof.
  intros Hw Hs (Hi & Hj & Hij) P1 P2 HD. cbn in Hi, Hj, Hij.
  assert (N1 : ~ (a = e_node1 e /\ b = e_node2 e)).
  { intros [-> ->]. apply is_parent_dedge in HD; auto using simple_no44. congruence. }
  assert (N2 : ~ (a = e_node2 e /\ b = e_node1 e)).
  { intros [-> ->]. apply is_parent_dedge in HD; auto using simple_no44. congruence. }
  destruct HD as (Ha & Hb & HD). unfold dedge. rewrite remove_edge_gn, !remove_edge_frame by tauto. auto.
Qed.

Lemma remove_edge_simple g e : simple g -> op_on (gn g) (RemoveEdge e) -> simple (remove_edge g e).
Proof.
  intros Hs (Hi & Hj & Hij) a b. cbn in Hi, Hj, Hij. rewrite remove_edge_gn. intros Ha Hb.
  pose proof (remove_edge_pair g e Hij) as HP.
  pose proof (Hs _ _ Hi Hj) as S1. pose proof (Hs _ _ Hj Hi) as S2.
  assert (HQ : (gm (remove_edge g e) (e_node1 e) (e_node2 e) = 0 \/
           gm (remove_edge g e) (e_node1 e) (e_node2 e) = gm g (e_node1 e) (e_node2 e)) /\
          (gm (remove_edge g e) (e_node2 e) (e_node1 e) = 0 \/
           gm (remove_edge g e) (e_node2 e) (e_node1 e) = gm g (e_node2 e) (e_node1 e))).
  { unfold remove_pair in HP.
    destruct (Z.eqb_spec (gm g (e_node2 e) (e_node1 e)) 4); [lia|].
    destruct (Z.eqb_spec (gm g (e_node2 e) (e_node1 e)) 5); [lia|]. cbn in HP.
    destruct (_ && _); injection HP; auto. }
  assert (Hab : a = e_node1 e /\ b = e_node2 e \/ a = e_node2 e /\ b = e_node1 e \/
                (~ (a = e_node1 e /\ b = e_node2 e) /\ ~ (a = e_node2 e /\ b = e_node1 e))) by lia.
  destruct Hab as [[-> ->]|[[-> ->]|[N1 N2]]]; [lia|lia|].
  rewrite remove_edge_frame by tauto. auto.
Qed.

Lemma remove_edge_gd g e :
  (gd (remove_edge g e) = gd g /\ is_parent_of g (e_node1 e) (e_node2 e) = false /\ is_parent_of g (e_node2 e) (e_node1 e) = false) \/
  (let g' := remove_edge g e in gd g' = gd (reconstitute_dpath g' (get_graph_edges g'))).
Proof.
  unfold remove_edge. cbn zeta.
  destruct (is_parent_of g (e_node1 e) (e_node2 e) || is_parent_of g (e_node2 e) (e_node1 e)) eqn:E.
  - right. reflexivity.
  - left. apply orb_false_iff in E. cbn. tauto.
Qed.

Lemma remove_edge_sound g e : wf g -> simple g -> gsound g -> op_on (gn g) (RemoveEdge e) ->
  gsound (remove_edge g e).
Proof.
  intros Hw Hs Hg Ho. unfold gsound.
  destruct (remove_edge_gd g e) as [(-> & P1 & P2)|HE].
  - eapply dsound_mono; [|exact Hg]. intros a b. now apply remove_edge_dedge_pres.
  - cbn zeta in HE. rewrite HE. apply reconstitute_sound.
    + now apply remove_edge_wf.
    + now apply simple_no44, remove_edge_simple.
    + apply graph_edges_nodes.
Qed.

Lemma add_directed_sound g i j : wf g -> gsound g -> op_on (gn g) (AddDirected i j) ->
  (gm g i j = 0 /\ gm g j i = 0) \/ (gm g i j = -1 /\ gm g j i = -1) -> gsound (add_directed_edge g i j).
Proof.
  intros Hw Hg (Hi & Hj & Hij) Z12. cbn in Hi, Hj, Hij. unfold gsound. cbn.
  apply adjust_sound.
  - apply reach_one. unfold dedge. cbn. rewrite upd2_ij, upd2_ji by auto. auto.
  - eapply dsound_mono; [|exact Hg]. intros a b (Ha & Hb & HD).
    unfold dedge. cbn. rewrite !upd2_other; auto; intros [-> ->]; lia.
Qed.

(** Graphs obtained from the empty graph by public edits that never create parallel edges,
    use add_directed_edge only on pairs without an edge or with an undirected one, and do not use remove_connecting_edge. *)
Inductive built (n : nat) : ggraph -> Prop :=
| built_empty : built n (empty_graph n)
| built_add : forall g e, built n g -> op_on n (AddEdge e) -> simple (add_edge g e) -> built n (add_edge g e)
| built_addd : forall g i j, built n g -> op_on n (AddDirected i j) -> is_directly_connected_to g i j = false ->
    built n (add_directed_edge g i j)
| built_turn : forall g i j, built n g -> op_on n (AddDirected i j) -> gm g i j = -1 -> gm g j i = -1 ->
    built n (add_directed_edge g i j)
| built_remove : forall g e, built n g -> op_on n (RemoveEdge e) -> built n (remove_edge g e).

Lemma not_connected g i j : is_directly_connected_to g i j = false -> gm g i j = 0 /\ gm g j i = 0.
Proof. unfold is_directly_connected_to. rewrite negb_false_iff, andb_true_iff, !Z.eqb_eq. tauto. Qed.

Lemma add_directed_simple g i j : simple g -> op_on (gn g) (AddDirected i j) -> simple (add_directed_edge g i j).
Proof.
  intros Hs (Hi & Hj & Hij) a b Ha Hb'. cbn in *.
  destruct (Nat.eq_dec a i) as [->|]; [destruct (Nat.eq_dec b j) as [->|]|].
  - rewrite upd2_ij. auto.
  - rewrite upd2_other by lia. auto.
  - destruct (Nat.eq_dec a j) as [->|]; [destruct (Nat.eq_dec b i) as [->|]|].
    + rewrite upd2_ji by auto. auto.
    + rewrite upd2_other by lia. auto.
    + rewrite upd2_other by lia. auto.
Qed.
Lemma built_inv n g : built n g -> gn g = n /\ wf g /\ simple g /\ gsound g.
Proof.
  induction 1 as [|g e Hb (Hn & Hw & Hs & Hg) Ho Hs'|g i j Hb (Hn & Hw & Hs & Hg) Ho Hc|g i j Hb (Hn & Hw & Hs & Hg) Ho C1 C2|g e Hb (Hn & Hw & Hs & Hg) Ho].
  - split; [reflexivity|]. split; [apply empty_wf|]. split.
    + intros i j _ _. cbn. auto.
    + unfold gsound. cbn. apply recon_init_sound.
  - subst n. rewrite add_edge_gn. split; [reflexivity|]. split; [now apply add_edge_wf|]. split; [exact Hs'|].
    now apply add_edge_sound.
  - subst n. split; [reflexivity|]. split; [now apply add_directed_wf|].
    apply not_connected in Hc. split; [|apply add_directed_sound; auto]. now apply add_directed_simple.
  - subst n. split; [reflexivity|]. split; [now apply add_directed_wf|]. split; [|apply add_directed_sound; auto]. now apply add_directed_simple.
  - subst n. rewrite remove_edge_gn. split; [reflexivity|]. split; [now apply remove_edge_wf|].
    split; [now apply remove_edge_simple|]. now apply remove_edge_sound.
Qed.

Lemma built_ancestor_sound n g a b : built n g -> is_ancestor_of g a b = true -> reach (dedge g) a b.
Proof.
  intros Hb H. apply built_inv in Hb. destruct Hb as (_ & _ & _ & Hg).
  apply Hg. unfold is_ancestor_of in H. now apply Z.eqb_eq.
Qed.

(* ---------- completeness for child-last / parent-first insertion ---------- *)

(** Directed edges added one after another. *)
Definition add_arcs (n : nat) (arcs : list (nat * nat)) : ggraph :=
  fold_left (fun g a => add_edge g (directed_edge (fst a) (snd a))) arcs (empty_graph n).

(** Every arc joins two so-far non-adjacent nodes, and, when it is inserted, its head has no
    outgoing arc yet or its tail has no incoming arc yet. *)
Fixpoint easy_order (n : nat) (seen arcs : list (nat * nat)) : Prop :=
  match arcs with
  | [] => True
  | (i, j) :: r =>
      (i < n)%nat /\ (j < n)%nat /\ i <> j /\ ~ In (i, j) seen /\ ~ In (j, i) seen /\
      ((forall k, ~ In (j, k) seen) \/ (forall k, ~ In (k, i) seen)) /\
      easy_order n (seen ++ [(i, j)]) r
  end.

Lemma no_out_reach {A} (R : A -> A -> Prop) j : (forall k, ~ R j k) -> forall b, reach R j b -> b = j.
Proof. intros H b Hr. destruct Hr as [|a b c HR _]; [reflexivity|]. exfalso; eapply H; eauto. Qed.

Lemma no_in_reach {A} (R : A -> A -> Prop) i : (forall k, ~ R k i) -> forall a, reach R a i -> a = i.
Proof.
  intros H a Hr. remember i as t eqn:E in Hr. induction Hr as [a|a b c HR Hr IH]; [exact E|].
  specialize (IH E). subst b. exfalso; eapply H; eauto.
Qed.

Lemma easy_inv n arcs : forall seen g,
  gn g = n ->
  (forall a b, (a < n)%nat -> (b < n)%nat ->
     (gm g a b = 0 /\ gm g b a = 0 /\ ~ In (a, b) seen /\ ~ In (b, a) seen) \/
     (gm g a b = -1 /\ gm g b a = 1 /\ In (a, b) seen) \/
     (gm g a b = 1 /\ gm g b a = -1 /\ In (b, a) seen)) ->
  (forall a b, In (a, b) seen <-> dedge g a b) ->
  dsound (gd g) (dedge g) -> dcomplete n (gd g) (dedge g) ->
  easy_order n seen arcs ->
  let g' := fold_left (fun g a => add_edge g (directed_edge (fst a) (snd a))) arcs g in
  (forall a b, In (a, b) (seen ++ arcs) <-> dedge g' a b) /\ gn g' = n /\
  dsound (gd g') (dedge g') /\ dcomplete n (gd g') (dedge g').
Proof.
  induction arcs as [|[i j] arcs IH]; intros seen g Hn Hm Hin Hs Hc He; cbn zeta.
  - cbn. rewrite app_nil_r. auto.
  - cbn [fold_left fst snd]. destruct He as (Hi & Hj & Hij & N1 & N2 & Hor & He).
    set (e := directed_edge i j). set (g1 := add_edge g e).
    assert (HZ : gm g i j = 0 /\ gm g j i = 0).
    { destruct (Hm i j Hi Hj) as [(A & B & _)|[(_ & _ & A)|(_ & _ & A)]]; tauto. }
    destruct HZ as [Z1 Z2].
    assert (HP : gm g1 i j = -1 /\ gm g1 j i = 1).
    { pose proof (add_edge_pair g e Hij) as HP. cbn in HP. rewrite Z1, Z2 in HP. cbn in HP.
      injection HP. intros; split; assumption. }
    destruct HP as [P1 P2].
    assert (HF : forall a b, ~ (a = i /\ b = j) -> ~ (a = j /\ b = i) -> gm g1 a b = gm g a b)
      by (intros; now apply add_edge_frame).
    assert (Hn1 : gn g1 = n) by (unfold g1; rewrite add_edge_gn; exact Hn).
    assert (HD1 : forall a b, dedge g1 a b <-> dedge g a b \/ (a = i /\ b = j)).
    { intros a b. unfold dedge. rewrite Hn1, Hn.
      assert (Hab : a = i /\ b = j \/ a = j /\ b = i \/
                (~ (a = i /\ b = j) /\ ~ (a = j /\ b = i))) by lia.
      destruct Hab as [[-> ->]|[[-> ->]|[M1 M2]]].
      - rewrite P1, P2. split; intros; [right; auto|]. repeat split; auto.
      - rewrite P1, P2, Z1, Z2. lia.
      - rewrite !HF by tauto. tauto. }
    assert (Hd1 : gd g1 = adjust_dpath n (gd g) i j).
    { unfold g1, add_edge, add_edge_full, e, directed_edge, Edge. cbn. rewrite Z1, Z2, Hn. cbn. reflexivity. }
    assert (HDin : forall a b, In (a, b) (seen ++ [(i, j)]) <-> dedge g1 a b).
    { intros a b. rewrite HD1, in_app_iff, Hin. cbn.
      split; (intros [H|H]; [left; exact H|right]).
      - destruct H as [H|[]]. injection H. auto.
      - destruct H as [-> ->]. auto. }
    specialize (IH (seen ++ [(i, j)]) g1 Hn1).
    rewrite <- app_assoc in IH. cbn [app] in IH. apply IH; clear IH; auto.
    + intros a b Ha Hb.
      assert (Hab : a = i /\ b = j \/ a = j /\ b = i \/
                (~ (a = i /\ b = j) /\ ~ (a = j /\ b = i))) by lia.
      destruct Hab as [[-> ->]|[[-> ->]|[M1 M2]]].
      * right; left. repeat split; auto. apply in_app_iff. right; now left.
      * right; right. repeat split; auto. apply in_app_iff. right; now left.
      * rewrite !HF by tauto.
        destruct (Hm a b Ha Hb) as [(A & B & C & D)|[(A & B & C)|(A & B & C)]].
        -- left. repeat split; auto; intros H; apply in_app_iff in H; destruct H as [H|[H|[]]]; try tauto;
           injection H; lia.
        -- right; left. repeat split; auto. apply in_app_iff. now left.
        -- right; right. repeat split; auto. apply in_app_iff. now left.
    + rewrite Hd1. apply adjust_sound.
      * apply reach_one, HD1. auto.
      * eapply dsound_mono; [|exact Hs]. intros a b H. apply HD1. auto.
    + rewrite Hd1. eapply adjust_complete; eauto.
      * intros x y H. now apply HD1.
      * destruct Hor as [Hor|Hor]; [left|right].
        -- apply no_out_reach. intros k H. apply Hin in H. now apply Hor in H.
        -- apply no_in_reach. intros k H. apply Hin in H. now apply Hor in H.
Qed.

Lemma easy_order_ancestors n arcs : easy_order n [] arcs ->
  (forall a b, In (a, b) arcs <-> dedge (add_arcs n arcs) a b) /\
  (forall a b, (a < n)%nat -> (b < n)%nat ->
     (is_ancestor_of (add_arcs n arcs) a b = true <-> reach (dedge (add_arcs n arcs)) a b)).
Proof.
  intros He.
  destruct (easy_inv n arcs [] (empty_graph n)) as (H1 & H2 & H3 & H4); auto.
  - intros a b _ _. left. cbn. auto.
  - intros a b. unfold dedge. cbn. split; [tauto|]. intros (_ & _ & [[H _]|[H _]]); discriminate H.
  - cbn. apply recon_init_sound.
  - intros a b Ha Hb Hr. apply no_out_reach in Hr.
    + subst b. cbn. apply recon_init_refl, Ha.
    + intros k (_ & _ & [[H _]|[H _]]); discriminate H.
  - split; [exact H1|]. intros a b Ha Hb. unfold is_ancestor_of. rewrite Z.eqb_eq. split.
    + apply H3.
    + apply H4; auto.
Qed.
