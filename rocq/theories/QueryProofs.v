(** Lemmas about the query methods of GeneralGraph: parents, degrees, edges, ancestors. *)
From Verif Require Import Base EdgeModel EdgeProofs GraphModel GraphSpec GraphProofs SumLib.
Local Open Scope Z_scope.

Lemma in_parents g a b : (a < gn g)%nat -> (In b (get_parents g a) <-> dedge g b a).
Proof.
  intros Ha. unfold get_parents, dedge. rewrite filter_In, in_seq0, orb_true_iff, !andb_true_iff, !Z.eqb_eq. tauto.
Qed.

Lemma in_children g a b : (a < gn g)%nat -> (In b (get_children g a) <-> dedge g a b).
Proof.
  intros Ha. unfold get_children, dedge. rewrite filter_In, in_seq0, orb_true_iff, !andb_true_iff, !Z.eqb_eq. tauto.
Qed.

Lemma pair_edges_count g i j : legal_pair (gm g i j) (gm g j i) ->
  Z.of_nat (length (pair_edges g i j)) = cellw (gm g i j).
Proof.
  intros Hl. unfold pair_edges, get_edge.
  pair_cases Hl; repeat match goal with H : _ = gm _ _ _ |- _ => rewrite <- H end; reflexivity.
Qed.

Lemma num_edges_length g : wf g -> get_num_edges g = Z.of_nat (length (get_graph_edges g)).
Proof.
  intros [_ Hl]. unfold get_num_edges, get_graph_edges. rewrite length_flat_map_sum.
  apply sum_over_ext. intros i Hi. rewrite length_flat_map_sum. apply sum_over_ext. intros j Hj.
  apply in_seq in Hi, Hj. rewrite pair_edges_count; auto. apply Hl; lia.
Qed.

Lemma cellw_sym x y : legal_pair x y -> cellw x = cellw y.
Proof. intros H. pair_cases H; subst; reflexivity. Qed.

Lemma degree_sum g : wf g -> sum_over (seq 0 (gn g)) (get_degree g) = 2 * get_num_edges g.
Proof.
  intros [Hd Hl]. unfold get_degree, get_num_edges.
  apply (sum_square_sym (gn g) (fun i j => cellw (gm g i j))).
  - intros i Hi. now rewrite Hd.
  - intros i j Hi Hj. apply cellw_sym, Hl; auto.
Qed.

Lemma node_edges_length g i : wf g -> (i < gn g)%nat ->
  get_degree g i = Z.of_nat (length (get_node_edges g i)) /\ get_num_connected_edges g i = get_degree g i.
Proof.
  intros [Hd Hl] Hi. unfold get_degree, get_node_edges, get_num_connected_edges. split.
  - rewrite length_flat_map_sum. apply sum_over_ext. intros j Hj. apply in_seq in Hj.
    rewrite pair_edges_count; auto. apply Hl; lia.
  - apply sum_over_ext. intros j Hj. apply in_seq in Hj. apply cellw_sym, Hl; lia.
Qed.

(* ---------- get_ancestors ---------- *)

Section Anc.
Variable g : ggraph.
Notation n := (gn g).

(** What collecting from a list of start nodes does to the accumulator. *)
Definition collects (starts : list nat) (a l : list nat) : Prop :=
  NoDup l /\ incl a l /\ incl starts l /\ (forall x, In x l -> (x < n)%nat) /\
  (forall x, In x l -> In x a \/ exists s, In s starts /\ reach (dedge g) x s) /\
  (forall x p, In x l -> ~ In x a -> dedge g p x -> In p l).

Lemma nodup_bound l : NoDup l -> (forall x, In x l -> (x < n)%nat) -> (length l <= n)%nat.
Proof.
  intros Hd Hb. rewrite <- (seq_length n 0). apply NoDup_incl_length; [exact Hd|].
  intros x Hx. apply in_seq0. auto.
Qed.

Lemma collect_fold f : 
  (forall v a, (v < n)%nat -> NoDup a -> (forall x, In x a -> (x < n)%nat) -> (n < f + length a)%nat ->
     exists l, collect_ancestors f g v a = Some l /\ collects [v] a l) ->
  forall ps a, (forall p, In p ps -> (p < n)%nat) -> NoDup a -> (forall x, In x a -> (x < n)%nat) ->
    (n < f + length a)%nat ->
    exists l, fold_left (fun acc p => match acc with None => None | Some a => collect_ancestors f g p a end) ps (Some a) = Some l
      /\ collects ps a l.
Proof.
  intros IHf. induction ps as [|p ps IH]; intros a Hps Hd Hb Hf; cbn [fold_left].
  - exists a. split; [reflexivity|]. repeat split; auto.
    + apply incl_refl.
    + intros x [].
    + intros x p H1 H2. contradiction.
  - destruct (IHf p a) as (l1 & -> & Hd1 & Hi1 & Hs1 & Hb1 & Hr1 & Hc1); auto; [apply Hps; now left|].
    assert (Hlen : (length a <= length l1)%nat) by (apply NoDup_incl_length; auto).
    destruct (IH l1) as (l2 & -> & Hd2 & Hi2 & Hs2 & Hb2 & Hr2 & Hc2); auto; [intros; apply Hps; now right|lia|].
    exists l2. split; [reflexivity|]. repeat split; auto.
    + eapply incl_tran; eauto.
    + intros x [<-|Hx]; [apply Hi2, Hs1; now left|apply Hs2, Hx].
    + intros x Hx. destruct (Hr2 x Hx) as [Hx1|(s & Hs & Hrs)].
      * destruct (Hr1 x Hx1) as [Hxa|(s & Hs & Hrs)]; [now left|]. destruct Hs as [<-|[]].
        right. exists p. split; [now left|exact Hrs].
      * right. exists s. split; [now right|exact Hrs].
    + intros x q Hx Hxa Hq. destruct (in_dec Nat.eq_dec x l1) as [Hx1|Hx1].
      * apply Hi2. eapply Hc1; eauto.
      * eapply Hc2; eauto.
Qed.

Lemma collect_correct f : forall v a,
  (v < n)%nat -> NoDup a -> (forall x, In x a -> (x < n)%nat) -> (n < f + length a)%nat ->
  exists l, collect_ancestors f g v a = Some l /\ collects [v] a l.
Proof.
  induction f as [|f IHf]; intros v a Hv Hd Hb Hf.
  - pose proof (nodup_bound a Hd Hb). lia.
  - cbn [collect_ancestors]. destruct (existsb (Nat.eqb v) a) eqn:E.
    + apply existsb_exists in E. destruct E as (x & Hx & Hvx). apply Nat.eqb_eq in Hvx. subst x.
      exists a. split; [reflexivity|]. repeat split; auto.
      * apply incl_refl.
      * intros x [<-|[]]. exact Hx.
      * intros x p H1 H2. contradiction.
    + assert (Hva : ~ In v a).
      { intros H. assert (existsb (Nat.eqb v) a = true); [|congruence].
        apply existsb_exists. exists v. split; [exact H|apply Nat.eqb_refl]. }
      destruct (collect_fold f IHf (get_parents g v) (a ++ [v])) as (l & -> & Hd1 & Hi1 & Hs1 & Hb1 & Hr1 & Hc1).
      * intros p Hp. apply in_parents in Hp; [|exact Hv]. apply Hp.
      * apply (NoDup_Add (a := v) (l := a)); [|split; auto].
        rewrite <- (app_nil_r a) at 1. apply Add_app.
      * intros x Hx. apply in_app_iff in Hx. destruct Hx as [Hx|[<-|[]]]; auto.
      * rewrite app_length. cbn. lia.
      * exists l. split; [reflexivity|]. repeat split; auto.
        -- intros x Hx. apply Hi1, in_app_iff. now left.
        -- intros x [<-|[]]. apply Hi1, in_app_iff. right; now left.
        -- intros x Hx. destruct (Hr1 x Hx) as [Hxa|(s & Hs & Hrs)].
           ++ apply in_app_iff in Hxa. destruct Hxa as [Hxa|[<-|[]]]; [now left|].
              right. exists v. split; [now left|constructor].
           ++ right. exists v. split; [now left|]. eapply reach_trans; [exact Hrs|].
              apply reach_one. apply in_parents in Hs; auto.
        -- intros x p Hx Hxa Hp. destruct (Nat.eq_dec x v) as [->|Hxv].
           ++ apply Hs1, in_parents; auto.
           ++ eapply Hc1; eauto. intros H. apply in_app_iff in H. destruct H as [H|[H|[]]]; auto.
Qed.

Lemma get_ancestors_correct fuel vs :
  (n < fuel)%nat -> (forall v, In v vs -> (v < n)%nat) ->
  exists l, get_ancestors fuel g vs = Some l /\ NoDup l /\
    (forall x, In x l <-> exists v, In v vs /\ reach (dedge g) x v).
Proof.
  intros Hf Hv.
  destruct (collect_fold fuel (collect_correct fuel) vs []) as (l & E & Hd & _ & Hs & Hb & Hr & Hc); auto.
  - constructor.
  - intros x [].
  - cbn. lia.
  - exists l. split; [exact E|]. split; [exact Hd|]. intros x. split.
    + intros Hx. destruct (Hr x Hx) as [[]|H]. exact H.
    + intros (v & Hvv & Hrv). apply Hs in Hvv. clear E.
      induction Hrv as [|a b c Hab Hbc IH]; [exact Hvv|]. apply (Hc b a); auto; intros [].
Qed.
End Anc.
