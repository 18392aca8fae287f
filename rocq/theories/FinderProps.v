(** Properties of the edge and triple finders of CausalGraph (GraphClass.py). *)
From Verif Require Import Base EdgeModel GraphModel GraphSpec GraphProofs DsepSpec UtilsProofs CheckLib MeekModel MeekSpec MeekProofs SkelModel SkelProofs SkelSpec PCModel.
From Coq Require Import Sorted.
Local Open Scope Z_scope.

(** a <-> b *)
Definition bidirected (g : ggraph) (a b : nat) : Prop := (a < gn g)%nat /\ (b < gn g)%nat /\ gm g a b = 1 /\ gm g b a = 1.
(** Every mark of the graph is a tail or an arrowhead: no circle, no parallel edges. *)
Definition plain (g : ggraph) : Prop := forall a b, joined g a b -> gm g a b = -1 \/ gm g a b = 1.
(** [l] lists exactly the things satisfying [P], each of them once. *)
Definition lists {A : Type} (l : list A) (P : A -> Prop) : Prop := NoDup l /\ forall x, In x l <-> P x.

Lemma lists_sub {A} (l : list A) P Q : lists l P -> (forall x, P x <-> Q x) -> lists l Q.
Proof. intros [H1 H2] H. split; [exact H1|]. intros x. now rewrite H2. Qed.

Lemma NoDup_join {A} (l l' : list A) : NoDup l -> NoDup l' -> (forall x, In x l -> ~ In x l') -> NoDup (l ++ l').
Proof.
  intros H H'. induction H as [|a l Ha Hl IH]; intros K; [exact H'|]. cbn [app]. constructor.
  - rewrite in_app_iff. intros [J|J]; [auto|]. apply (K a); [now left|exact J].
  - apply IH. intros x J. apply K. now right.
Qed.
Lemma NoDup_flat {A B} (f : A -> list B) l : NoDup l -> (forall a, In a l -> NoDup (f a)) -> (forall a b x, In x (f a) -> In x (f b) -> a = b) -> NoDup (flat_map f l).
Proof.
  intros H Hf Hd. induction H as [|a l Ha Hl IH]; [constructor|]. cbn [flat_map]. apply NoDup_join.
  - apply Hf. now left.
  - apply IH. intros b Hb. apply Hf. now right.
  - intros x Hx Hy. apply in_flat_map in Hy. destruct Hy as (b & Hb & Hy). rewrite (Hd a b x Hx Hy) in Ha. auto.
Qed.
Lemma NoDup_map_on {A B} (f : A -> B) l : NoDup l -> (forall x y, In x l -> In y l -> f x = f y -> x = y) -> NoDup (map f l).
Proof.
  intros H. induction H as [|a l Ha Hl IH]; intros Hi; [constructor|]. cbn [map]. constructor.
  - intros J. apply in_map_iff in J. destruct J as (b & Eb & Hb). apply Hi in Eb; [subst; auto|now right|now left].
  - apply IH. intros x y Hx Hy. apply Hi; now right.
Qed.
Lemma cells_nodup n : NoDup (cells n).
Proof.
  unfold cells. apply NoDup_flat; [apply seq_NoDup| |].
  - intros a _. apply NoDup_map_on; [apply seq_NoDup|]. intros x y _ _ [= E]. exact E.
  - intros a b x Ha Hb. apply in_map_iff in Ha, Hb. destruct Ha as (? & <- & _), Hb as (? & [= E _] & _). auto.
Qed.
Lemma where_nodup g v : NoDup (where_code g v).
Proof.
  unfold where_code. apply NoDup_map_on; [apply NoDup_filter, cells_nodup|]. intros [a b] [c d] _ _ [= E1 E2]. cbn [fst snd] in *. congruence.
Qed.
Lemma adj_nodup g : NoDup (find_adj g).
Proof.
  unfold find_adj. apply NoDup_join; [apply where_nodup|apply where_nodup|]. intros [i j]. unfold find_tails, find_arrow_heads. rewrite !in_where. lia.
Qed.
Lemma perms2_nodup {A} (l : list A) : NoDup l -> NoDup (perms2 l).
Proof.
  intros H. unfold perms2. apply NoDup_flat; [apply seq_NoDup| |].
  - intros i _. apply NoDup_flat; [apply seq_NoDup| |].
    + intros j _. destruct (Nat.eqb i j); [constructor|]. destruct (nth_error l i), (nth_error l j); try constructor; auto; constructor.
    + intros j j' [x y] Hj Hj'. destruct (Nat.eqb i j); [easy|]. destruct (Nat.eqb i j'); [easy|].
      destruct (nth_error l i); [|easy]. destruct (nth_error l j) eqn:E1; [|easy]. destruct (nth_error l j') eqn:E2; [|easy].
      destruct Hj as [[= <- <-]|[]]. destruct Hj' as [[= <-]|[]].
      apply (proj1 (NoDup_nth_error l) H); [apply nth_error_Some; congruence|congruence].
  - intros i i' [x y] Hj Hj'. apply in_flat_map in Hj, Hj'. destruct Hj as (j & _ & Hj), Hj' as (j' & _ & Hj').
    destruct (Nat.eqb i j); [easy|]. destruct (Nat.eqb i' j'); [easy|].
    destruct (nth_error l i) eqn:E1; [|easy]. destruct (nth_error l j); [|easy]. destruct (nth_error l i') eqn:E2; [|easy]. destruct (nth_error l j'); [|easy].
    destruct Hj as [[= <- <-]|[]]. destruct Hj' as [[= <- _]|[]].
    apply (proj1 (NoDup_nth_error l) H); [apply nth_error_Some; congruence|congruence].
Qed.
Lemma ut_nodup g : NoDup (find_unshielded_triples g).
Proof.
  unfold find_unshielded_triples. apply NoDup_map_on; [apply NoDup_filter, perms2_nodup, adj_nodup|].
  intros [[a b] [c d]] [[a' b'] [c' d']] H H' [= <- <- <-]. apply filter_In in H, H'. cbn [fst snd] in *.
  destruct H as [_ H], H' as [_ H']. rewrite !andb_true_iff, !Nat.eqb_eq in H, H'. destruct H as [[-> _] _], H' as [[-> _] _]. reflexivity.
Qed.
Lemma tri_nodup g : NoDup (find_triangles g).
Proof.
  unfold find_triangles. apply NoDup_map_on; [apply NoDup_filter, perms2_nodup, adj_nodup|].
  intros [[a b] [c d]] [[a' b'] [c' d']] H H' [= <- <- <-]. apply filter_In in H, H'. cbn [fst snd] in *.
  destruct H as [_ H], H' as [_ H']. rewrite !andb_true_iff, !Nat.eqb_eq in H, H'. destruct H as [[-> _] _], H' as [[-> _] _]. reflexivity.
Qed.
Lemma kite_nodup g : NoDup (find_kites g).
Proof.
  unfold find_kites. apply NoDup_map_on; [apply NoDup_filter, perms2_nodup, tri_nodup|].
  intros [[[a b] c] [[d e] f]] [[[a' b'] c'] [[d' e'] f']] H H' [= E1 E2 E3 E4]. apply filter_In in H, H'. unfold t1, t2, t3 in *. cbn [fst snd] in *.
  destruct H as [_ H], H' as [_ H']. rewrite !andb_true_iff, !Nat.eqb_eq in H, H'. destruct H as [[[H1 H2] _] _], H' as [[[H1' H2'] _] _]. congruence.
Qed.

(** ** C77: what the finders list *)
(** find_arrow_heads lists, for every arrowhead, the edge (tail end first); find_tails likewise for tails.
    find_undirected, find_fully_directed and find_bi_directed list exactly the edges of their kind, undirected and bidirected ones in both
    directions, whatever other marks the graph has. *)
Theorem C77_marks g :
  lists (find_arrow_heads g) (fun e => (fst e < gn g)%nat /\ (snd e < gn g)%nat /\ gm g (snd e) (fst e) = 1) /\
  lists (find_tails g) (fun e => (fst e < gn g)%nat /\ (snd e < gn g)%nat /\ gm g (snd e) (fst e) = -1).
Proof. split; (split; [apply where_nodup|]); intros [i j]; cbn [fst snd]; apply in_where. Qed.

Theorem C77_edges g :
  lists (find_undirected g) (fun e => undirected g (fst e) (snd e)) /\
  lists (find_fully_directed g) (fun e => directed g (fst e) (snd e)) /\
  lists (find_bi_directed g) (fun e => bidirected g (fst e) (snd e)) /\
  (forall a b, (a < gn g)%nat -> (b < gn g)%nat ->
     (is_undirected g a b = true <-> undirected g a b) /\ (is_fully_directed g a b = true <-> directed g a b)).
Proof.
  split; [|split; [|split]].
  - split; [apply NoDup_filter, where_nodup|]. intros [i j]. cbn [fst snd]. unfold find_undirected, find_tails, undirected. rewrite filter_In, in_where, Z.eqb_eq. cbn [fst snd]. tauto.
  - split; [apply NoDup_filter, where_nodup|]. intros [i j]. cbn [fst snd]. unfold find_fully_directed, find_arrow_heads, directed. rewrite filter_In, in_where, Z.eqb_eq. cbn [fst snd]. tauto.
  - split.
    + unfold find_bi_directed. apply NoDup_map_on; [apply NoDup_filter, where_nodup|]. intros [a b] [c d] _ _ [= E1 E2]. cbn [fst snd] in *. congruence.
    + intros [i j]. cbn [fst snd]. unfold find_bi_directed, find_arrow_heads, bidirected. rewrite in_map_iff. split.
      * intros ([a b] & [= <- <-] & H). apply filter_In in H. rewrite in_where, andb_true_iff, !Z.eqb_eq in H. cbn [fst snd] in *. tauto.
      * intros H. exists (j, i). split; [reflexivity|]. rewrite filter_In, in_where, andb_true_iff, !Z.eqb_eq. cbn [fst snd]. tauto.
  - intros a b Ha Hb. unfold is_undirected, is_fully_directed, undirected, directed. rewrite !andb_true_iff, !Z.eqb_eq. tauto.
Qed.

Lemma joined_sym g a b : wf g -> joined g a b -> joined g b a.
Proof.
  intros [_ HW] (H1 & H2 & H3). split; [exact H2|]. split; [exact H1|]. intros E. specialize (HW a b H1 H2).
  unfold legal_pair, legal_pairs in HW. cbn [In] in HW. rewrite E in HW.
  repeat (destruct HW as [HW|HW]; [congruence|]). destruct HW.
Qed.
Lemma plain_adj g : wf g -> plain g -> forall i j, In (i, j) (find_adj g) <-> joined g i j.
Proof.
  intros HW HP i j. rewrite in_adj. split.
  - intros (H1 & H2 & H3). apply joined_sym; [exact HW|]. split; [exact H2|]. split; [exact H1|]. lia.
  - intros H. pose proof (joined_sym g i j HW H) as HJ. pose proof (HP j i HJ). destruct H as (H1 & H2 & _). auto.
Qed.

(** On a graph without circle marks: find_adj lists every adjacency in both directions, and the triple finders list exactly the
    unshielded triples, triangles and kites, each once. *)
Theorem C77_adjacent g : wf g -> plain g -> lists (find_adj g) (fun e => joined g (fst e) (snd e)).
Proof. intros HW HP. split; [apply adj_nodup|]. intros [i j]. cbn [fst snd]. now apply plain_adj. Qed.

Theorem C77_triples g : wf g -> plain g ->
  lists (find_unshielded_triples g) (fun t => let '(i, j, k) := t in joined g i j /\ joined g j k /\ i <> k /\ ~ joined g i k) /\
  lists (find_triangles g) (fun t => let '(i, j, k) := t in joined g i j /\ joined g j k /\ joined g i k) /\
  lists (find_kites g) (fun t => let '(i, j, k, l) := t in
     joined g i j /\ joined g i k /\ joined g i l /\ joined g j l /\ joined g k l /\ (j < k)%nat /\ ~ joined g j k).
Proof.
  intros HW HP. pose proof (plain_adj g HW HP) as HA.
  assert (HN : forall a, ~ joined g a a) by (intros a (H1 & _ & H3); apply H3; now apply HW).
  assert (HT : forall i j k, In (i, j, k) (find_triangles g) <-> joined g i j /\ joined g j k /\ joined g i k).
  { intros i j k. rewrite in_tri, !HA. split; [tauto|]. intros (H1 & H2 & H3). do 2 (split; [assumption|]). split; [intros ->; exact (HN k H3)|exact H3]. }
  split; [|split].
  - split; [apply ut_nodup|]. intros [[i j] k]. rewrite in_ut, !HA. split.
    + intros (H1 & H2 & H3 & H4). do 3 (split; [assumption|]). intros (_ & _ & H). contradiction.
    + intros (H1 & H2 & H3 & H4). do 3 (split; [assumption|]). destruct (Z.eq_dec (gm g i k) 0) as [E|E]; [exact E|]. exfalso. apply H4.
      destruct H1 as (H1 & _), H2 as (_ & H2 & _). split; [exact H1|]. split; [exact H2|exact E].
  - split; [apply tri_nodup|]. intros [[i j] k]. apply HT.
  - split; [apply kite_nodup|]. intros [[[i j] k] l]. rewrite in_kite, !HT. split.
    + intros ((H1 & H2 & H3) & (H4 & H5 & _) & H6 & H7). do 6 (split; [assumption|]). intros (_ & _ & H). contradiction.
    + intros (H1 & H2 & H3 & H4 & H5 & H6 & H7). split; [auto|]. split; [auto|]. split; [exact H6|].
      destruct (Z.eq_dec (gm g j k) 0) as [E|E]; [exact E|]. exfalso. apply H7. destruct H1 as (_ & H1 & _), H2 as (_ & H2 & _). split; [exact H1|]. split; [exact H2|exact E].
Qed.

(** find_cond_sets(i, j), as used by the maxP and definite-maxP variants: exactly the sets (increasing lists) of neighbours of i and the sets
    of neighbours of j; the two variants keep those with, respectively without, k. *)
Lemma sorted_combs k : forall l, StronglySorted lt l -> forall T, In T (combs k l) <-> StronglySorted lt T /\ incl T l /\ length T = k.
Proof.
  induction k as [|k IHk]; intros l Hl T.
  - rewrite combs_0. split.
    + intros [<-|[]]. split; [constructor|]. split; [intros x []|reflexivity].
    + intros (_ & _ & H). apply length_zero_iff_nil in H. subst. now left.
  - induction l as [|a l IHl].
    + split; [intros []|]. intros (_ & H & H'). destruct T as [|t T]; [discriminate|]. destruct (H t). now left.
    + inversion Hl as [|? ? Hl' Ha E]; subst. specialize (IHl Hl'). cbn [combs]. rewrite in_app_iff, in_map_iff. split.
      * intros [(U & <- & H)|H].
        -- apply (IHk l Hl') in H. destruct H as (H1 & H2 & H3). split; [|split].
           ++ constructor; [exact H1|]. rewrite Forall_forall in *. intros x Hx. apply Ha, H2, Hx.
           ++ intros x [<-|Hx]; [now left|]. right. now apply H2.
           ++ cbn [length]. now rewrite H3.
        -- apply IHl in H. destruct H as (H1 & H2 & H3). split; [exact H1|]. split; [|exact H3]. intros x Hx. right. now apply H2.
      * intros (H1 & H2 & H3). destruct T as [|t T]; [discriminate|]. inversion H1 as [|? ? HT Ht E]; subst. rewrite Forall_forall in Ha, Ht.
        destruct (Nat.eq_dec t a) as [->|Nt].
        -- left. exists T. split; [reflexivity|]. apply (IHk l Hl'). split; [exact HT|]. split; [|cbn [length] in H3; lia].
           intros x Hx. destruct (H2 x) as [->|J]; [now right| |exact J]. specialize (Ht x Hx). lia.
        -- right. apply IHl. split; [exact H1|]. split; [|exact H3].
           assert (Jt : In t l) by (destruct (H2 t) as [->|J]; [now left|congruence|exact J]).
           intros x [<-|Hx]; [exact Jt|]. destruct (H2 x) as [->|J]; [now right| |exact J]. specialize (Ha t Jt). specialize (Ht x Hx). lia.
Qed.
Lemma seq_sorted n : forall s, StronglySorted lt (seq s n).
Proof.
  induction n as [|n IH]; intros s; cbn [seq]; constructor; [apply IH|]. rewrite Forall_forall. intros x H. apply in_seq in H. lia.
Qed.
Lemma filter_sorted f l : StronglySorted lt l -> StronglySorted lt (filter f l).
Proof.
  intros H. induction H as [|a l Hl IH Ha]; [constructor|]. cbn [filter]. destruct (f a); [|exact IH]. constructor; [exact IH|].
  rewrite Forall_forall in *. intros x Hx. apply filter_In in Hx. now apply Ha.
Qed.
Lemma in_powerset l T : StronglySorted lt l -> In T (powerset l) <-> StronglySorted lt T /\ incl T l.
Proof.
  intros Hl. unfold powerset. rewrite in_flat_map. split.
  - intros (k & _ & H). apply (sorted_combs k l Hl) in H. tauto.
  - intros [H1 H2]. exists (length T). split; [|apply (sorted_combs _ l Hl); auto].
    apply in_seq. assert (NoDup T); [|pose proof (NoDup_incl_length H H2); lia].
    clear H2. induction H1 as [|a T HT IH Ha]; constructor; [|exact IH]. rewrite Forall_forall in Ha. intros J. specialize (Ha a J). lia.
Qed.

Definition neighbours_only (g : ggraph) (i : nat) (T : list nat) : Prop := forall z, In z T -> (z < gn g)%nat /\ gm g i z <> 0.
Theorem C77_cond_sets g i j T :
  (In T (find_cond_sets g i j) <-> StronglySorted lt T /\ (neighbours_only g i T \/ neighbours_only g j T)) /\
  (forall k, In T (find_cond_sets_with_mid g i j k) <-> In T (find_cond_sets g i j) /\ In k T) /\
  (forall k, In T (find_cond_sets_without_mid g i j k) <-> In T (find_cond_sets g i j) /\ ~ In k T).
Proof.
  assert (HN : forall v, incl T (neighbors g v) <-> neighbours_only g v T).
  { intros v. unfold incl, neighbours_only, neighbors. split; intros H z Hz; specialize (H z Hz); revert H; rewrite filter_In, in_seq0, negb_true_iff, Z.eqb_neq; auto. }
  split; [|split].
  - unfold find_cond_sets. rewrite in_app_iff. rewrite !in_powerset by apply filter_sorted, seq_sorted. rewrite !HN. tauto.
  - intros k. unfold find_cond_sets_with_mid. rewrite filter_In, memb_In. tauto.
  - intros k. unfold find_cond_sets_without_mid. rewrite filter_In, negb_true_iff, memb_not_In. tauto.
Qed.

(** Non-vacuity: 0 --> 2 <-- 1, 3 --- 0, 3 --- 1, 3 --- 2 has a kite, unshielded triples and triangles. *)
Definition kite_graph : ggraph := graph_of 4 [dir 0 2; dir 1 2; und 0 3; und 1 3; und 2 3].
Lemma C77_example : wf kite_graph /\ plain kite_graph /\ In (3, 0, 1, 2)%nat (find_kites kite_graph) /\ In (0, 2, 1)%nat (find_unshielded_triples kite_graph).
Proof.
  split; [apply wfb_sound; vm_compute; reflexivity|]. split; [|split; vm_compute; tauto].
  assert (H : forallb (fun a => forallb (fun b => (gm kite_graph a b =? 0) || (gm kite_graph a b =? -1) || (gm kite_graph a b =? 1)) (seq 0 4)) (seq 0 4) = true) by (vm_compute; reflexivity).
  intros a b (Ha & Hb & Hc). rewrite forallb_forall in H. assert (N : gn kite_graph = 4%nat) by (vm_compute; reflexivity). rewrite N in Ha, Hb.
  specialize (H a (proj2 (in_seq0 _ _) Ha)). rewrite forallb_forall in H. specialize (H b (proj2 (in_seq0 _ _) Hb)).
  rewrite !orb_true_iff, !Z.eqb_eq in H. tauto.
Qed.

(** ** C79: the same finders on a graph with circle marks (a PAG) *)
(** An edge a o-o b is reported by none of the finders; an edge a o-> b is an adjacency in one direction only. *)
Theorem C79_circles_refuted :
  (exists g, wf g /\ joined g 0 1 /\ joined g 1 0 /\ find_adj g = []) /\
  (exists g, wf g /\ joined g 0 1 /\ joined g 1 0 /\ In (0, 1)%nat (find_adj g) /\ ~ In (1, 0)%nat (find_adj g)).
Proof.
  split.
  - exists (graph_of 2 [Edge 0 1 CIRCLE CIRCLE]). split; [apply wfb_sound; vm_compute; reflexivity|].
    split; [|split]; [split; [|split]; [apply Nat.ltb_lt; vm_compute; reflexivity|apply Nat.ltb_lt; vm_compute; reflexivity|vm_compute; discriminate]..|vm_compute; reflexivity].
  - exists (graph_of 2 [Edge 0 1 CIRCLE ARROW]). split; [apply wfb_sound; vm_compute; reflexivity|].
    split; [|split]; [split; [|split]; [apply Nat.ltb_lt; vm_compute; reflexivity|apply Nat.ltb_lt; vm_compute; reflexivity|vm_compute; discriminate]..|].
    split; [vm_compute; tauto|]. vm_compute. intros [H|[]]; discriminate.
Qed.
