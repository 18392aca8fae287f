(** C208-C213: adjacency matrices of Helper.py, and the triple finders of GraphUtils.py. *)
From Verif Require Import Base EdgeModel GraphModel GraphSpec GraphProofs DsepSpec UtilsModel UtilsProofs CheckLib MeekModel MeekSpec MeekProofs PCSpec PCModel CpdagSpec MeekFull
  SkelModel SkelProofs FinderProps FCISpec FCIModel FCIProofs FCIFront HelperModel HelperSpec HelperProofs.
From Coq Require Import Permutation Sorted.
Local Open Scope Z_scope.

(** ** C208: GraphUtils.find_unshielded_triples *)
(** On a DAG it should list the unshielded triples; it lists nothing, whatever the DAG (line 306 reads the fourth node from the wrong end). *)
Lemma edge_pairs_in n g a b : mixed n g -> In (a, b) (edge_pairs g) -> joined g a b /\ a <> b.
Proof.
  intros HM H. unfold edge_pairs in H. rewrite (graph_edges_map n g HM), map_map in H. apply in_map_iff in H.
  destruct H as ((i & j) & E & H). apply in_adjacent_pairs in H. destruct H as (L & Hj & N).
  destruct (mx_edge n g HM i j ltac:(lia) Hj N) as (x & y & _ & _ & E1 & E2 & EE). unfold edge_at in E. cbn [fst snd] in E. rewrite EE in E. unfold Edge in E.
  pose proof HM as (Hn & Hw & _).
  assert (J : joined g i j) by (split; [lia|]; split; [lia|exact N]). pose proof (joined_sym g i j Hw J).
  destruct (pointing_left x y); cbn [e_node1 e_node2] in E; injection E as <- <-; (split; [assumption|lia]).
Qed.
Lemma edge_pairs_cover n g a b : mixed n g -> joined g a b -> In (a, b) (edge_pairs g) \/ In (b, a) (edge_pairs g).
Proof.
  intros HM J. pose proof HM as (Hn & Hw & _). unfold edge_pairs. rewrite (graph_edges_map n g HM), map_map.
  assert (G : forall i j, (i < j)%nat -> joined g i j ->
    In (i, j) (map (fun x => (e_node1 (edge_at g x), e_node2 (edge_at g x))) (adjacent_pairs n g)) \/
    In (j, i) (map (fun x => (e_node1 (edge_at g x), e_node2 (edge_at g x))) (adjacent_pairs n g))).
  { intros i j L (Hi & Hj & N). rewrite Hn in *. assert (HI : In (i, j) (adjacent_pairs n g)) by now apply in_adjacent_pairs.
    destruct (mx_edge n g HM i j Hi Hj N) as (x & y & _ & _ & E1 & E2 & EE).
    assert (EA : edge_at g (i, j) = Edge i j x y) by (unfold edge_at; cbn [fst snd]; now rewrite EE).
    destruct (pointing_left x y) eqn:PL; [right|left]; apply in_map_iff; exists (i, j); (split; [|exact HI]); rewrite EA; unfold Edge; rewrite PL; reflexivity. }
  destruct (Nat.lt_total a b) as [L|[-> |L]]; [now apply G| |].
  - destruct J as (Hb & _ & K). exfalso. apply K. now apply Hw.
  - destruct (G b a L (joined_sym g a b Hw J)); auto.
Qed.
(** Every edge is listed once, under one of its two orders. *)
Lemma edge_pairs_once n g : mixed n g -> NoDup (edge_pairs g) /\ forall a b, In (a, b) (edge_pairs g) -> ~ In (b, a) (edge_pairs g).
Proof.
  intros HM. unfold edge_pairs. rewrite (graph_edges_map n g HM), map_map.
  assert (G : forall p, In p (adjacent_pairs n g) -> (fst p < snd p)%nat /\
     ((e_node1 (edge_at g p), e_node2 (edge_at g p)) = p \/ (e_node1 (edge_at g p), e_node2 (edge_at g p)) = (snd p, fst p))).
  { intros [i j] H. apply in_adjacent_pairs in H. destruct H as (L & Hj & N). cbn [fst snd]. split; [exact L|].
    destruct (mx_edge n g HM i j ltac:(lia) Hj N) as (x & y & _ & _ & E1 & E2 & EE). unfold edge_at. cbn [fst snd]. rewrite EE. unfold Edge.
    destruct (pointing_left x y); [right|left]; reflexivity. }
  split.
  - apply NoDup_map_on; [apply adjacent_pairs_NoDup|]. intros [a b] [c d] H1 H2 E.
    destruct (G _ H1) as (L1 & [K1|K1]), (G _ H2) as (L2 & [K2|K2]); rewrite K1, K2 in E; cbn [fst snd] in *; injection E as E1 E2; subst; try reflexivity; lia.
  - intros a b H1 H2. apply in_map_iff in H1, H2. destruct H1 as (p & E1 & H1), H2 as (q & E2 & H2).
    destruct (G _ H1) as (L1 & [K1|K1]), (G _ H2) as (L2 & [K2|K2]); destruct p as [p1 p2], q as [q1 q2]; cbn [fst snd] in *; rewrite K1 in E1; rewrite K2 in E2;
      injection E1 as <- <-; injection E2 as E3 E4; subst; try lia.
    all: apply in_adjacent_pairs in H1, H2; try lia.
    all: rewrite K1 in K2; injection K2 as K3 K4; lia.
Qed.
Lemma dag_mixed g : dag g -> mixed (gn g) g.
Proof.
  intros (Hw & _ & Hd). split; [reflexivity|]. split; [exact Hw|]. intros i j Hi Hj.
  destruct (Z.eq_dec (gm g i j) 0) as [E|E]; [auto|]. destruct (Hd i j Hi Hj E) as [[K _]|[K _]]; auto.
Qed.
Theorem C208_never_found_refuted :
  (forall g, dag g -> gu_find_unshielded_triples g = []) /\
  exists g, dag g /\ joined g 0 1 /\ joined g 1 2 /\ ~ joined g 0 2.
Proof.
  split.
  - intros g HD. pose proof (dag_mixed g HD) as HM. unfold gu_find_unshielded_triples.
    assert (H : forall pq, In pq (perms2 (edge_pairs g)) -> gu_ut_pair g pq = []).
    { intros [[n1 n2] [n3 n4]] H. apply in_perms2 in H. destruct H as [H _]. apply (edge_pairs_in _ _ _ _ HM) in H. destruct H as ((H1 & H2 & N) & Ne).
      pose proof (joined_sym g n1 n2 (proj1 HD) (conj H1 (conj H2 N))) as (_ & _ & N'). unfold gu_ut_pair.
      destruct (Nat.eqb_spec n1 n3) as [<- |E1]; cbn [andb].
      - rewrite (proj2 (Z.eqb_neq _ _) N'), !andb_false_r. reflexivity.
      - destruct (Nat.eqb_spec n2 n3) as [<- |E2]; cbn [andb]; [|reflexivity].
        rewrite (proj2 (Z.eqb_neq _ _) N), !andb_false_r. reflexivity. }
    induction (perms2 (edge_pairs g)) as [|pq l IH]; [reflexivity|]. cbn [flat_map]. rewrite H by now left. apply IH. intros; apply H; now right.
  - exists (graph_of 3 [dir 0 1; dir 1 2]). split; [apply (dagb_sound (fun v => v)); vm_compute; reflexivity|].
    assert (N : gn (graph_of 3 [dir 0 1; dir 1 2]) = 3%nat) by (vm_compute; reflexivity).
    split; [|split].
    + split; [rewrite N; lia|]. split; [rewrite N; lia|]. vm_compute. discriminate.
    + split; [rewrite N; lia|]. split; [rewrite N; lia|]. vm_compute. discriminate.
    + intros (_ & _ & K). apply K. vm_compute. reflexivity.
Qed.

(** ** C209: GraphUtils.find_triangles and find_kites *)
(** On a graph without parallel edges, whatever its marks: every ordered triple of pairwise adjacent nodes, once; every kite (i, j, k, l) with
    j before k, once. *)
Section Triangles.
Variable g : ggraph.
Hypothesis HW : wf g.
Hypothesis HS : simple g.
Let HM : mixed (gn g) g := conj eq_refl (conj HW HS).
Lemma adj_joined a b : (a < gn g)%nat -> (b < gn g)%nat -> is_adjacent_to g a b = true <-> joined g a b.
Proof.
  intros Ha Hb. unfold is_adjacent_to. rewrite negb_true_iff, Z.eqb_neq. split.
  - intros N. apply (joined_sym g b a HW). split; [exact Hb|]. split; [exact Ha|exact N].
  - intros J. apply (joined_sym g a b HW) in J. apply J.
Qed.
Lemma joined_neq a b : joined g a b -> a <> b.
Proof. intros (Ha & _ & N) ->. apply N. now apply HW. Qed.
(** What a pair of edges contributes. *)
Lemma tri_pair a b c d x y z : In (a, b) (edge_pairs g) -> In (c, d) (edge_pairs g) -> In (x, y, z) (gu_tri_pair g ((a, b), (c, d))) ->
  joined g x y /\ joined g y z /\ joined g x z /\ ((a, b) = (x, y) \/ (a, b) = (y, x)) /\ ((c, d) = (y, z) \/ (c, d) = (z, y)).
Proof.
  intros H1 H2 H. apply (edge_pairs_in _ _ _ _ HM) in H1, H2. destruct H1 as [J1 N1], H2 as [J2 N2].
  pose proof (joined_sym g _ _ HW J1). pose proof (joined_sym g _ _ HW J2).
  pose proof J1 as (Ha & Hb & _). pose proof J2 as (Hc & Hd & _). unfold gu_tri_pair in H.
  destruct (Nat.eqb_spec a c) as [<- |E1]; [destruct (is_adjacent_to g b d) eqn:A1|]; cbn [andb] in H.
  { destruct H as [[= <- <- <-]|[]]. apply adj_joined in A1; auto 10. }
  - destruct (Nat.eqb_spec a d) as [<- |E2]; [destruct (is_adjacent_to g b a) eqn:A2|]; cbn [andb] in H.
    { contradiction. }
    { contradiction. }
    destruct (Nat.eqb_spec b a) as [<- |E3]; [contradiction|]. cbn [andb] in H.
    destruct (Nat.eqb_spec b d) as [<- |E4]; cbn [andb] in H; [|destruct H].
    destruct (is_adjacent_to g a a) eqn:A2; [|destruct H]. apply adj_joined in A2; auto. apply joined_neq in A2. contradiction.
  - destruct (Nat.eqb_spec a d) as [<- |E2]; [destruct (is_adjacent_to g b c) eqn:A2|]; cbn [andb] in H.
    { destruct H as [[= <- <- <-]|[]]. apply adj_joined in A2; auto 10. }
    + destruct (Nat.eqb_spec b c) as [<- |E3]; cbn [andb] in H.
      * destruct (is_adjacent_to g a a) eqn:A3; [apply adj_joined in A3; auto; apply joined_neq in A3; contradiction|].
        rewrite (proj2 (Nat.eqb_neq b a)) in H by auto. destruct H.
      * rewrite (proj2 (Nat.eqb_neq b a)) in H by auto. destruct H.
    + destruct (Nat.eqb_spec b c) as [<- |E3]; [destruct (is_adjacent_to g a d) eqn:A3|]; cbn [andb] in H.
      { destruct H as [[= <- <- <-]|[]]. apply adj_joined in A3; auto 10. }
      { rewrite (proj2 (Nat.eqb_neq b d)) in H by auto. destruct H. }
      destruct (Nat.eqb_spec b d) as [<- |E4]; [destruct (is_adjacent_to g a c) eqn:A4|]; cbn [andb] in H; try destruct H as [[= <- <- <-]|[]].
      * apply adj_joined in A4; auto 10.
      * destruct H.
      * destruct H.
Qed.
Lemma tri_pair_full x y z p q : joined g x y -> joined g y z -> joined g x z -> p = (x, y) \/ p = (y, x) -> q = (y, z) \/ q = (z, y) ->
  gu_tri_pair g (p, q) = [(x, y, z)].
Proof.
  intros J1 J2 J3 Hp Hq. pose proof (joined_neq _ _ J1). pose proof (joined_neq _ _ J2). pose proof (joined_neq _ _ J3).
  pose proof J1 as (Hx & Hy & _). pose proof J2 as (_ & Hz & _). pose proof (proj2 (adj_joined x z Hx Hz) J3) as A.
  destruct Hp as [-> | ->], Hq as [-> | ->]; unfold gu_tri_pair; rewrite ?Nat.eqb_refl, ?A;
    repeat match goal with |- context [Nat.eqb ?a ?b] => rewrite (proj2 (Nat.eqb_neq a b)) by auto end; reflexivity.
Qed.
Theorem C209_triangles : lists (gu_find_triangles g) (fun t => let '(i, j, k) := t in joined g i j /\ joined g j k /\ joined g i k).
Proof.
  destruct (edge_pairs_once (gn g) g HM) as [ND1 ND2]. split.
  - apply NoDup_flat_map; [now apply perms2_nodup| |].
    + intros [[a b] [c d]] _. unfold gu_tri_pair. repeat match goal with |- NoDup (if ?c then _ else _) => destruct c end; repeat constructor; intros [].
    + intros [[a b] [c d]] [[a' b'] [c' d']] [[x y] z] P1 P2 H1 H2. apply in_perms2 in P1, P2. destruct P1 as [P1 P1'], P2 as [P2 P2'].
      apply (tri_pair _ _ _ _ _ _ _ P1 P1') in H1. apply (tri_pair _ _ _ _ _ _ _ P2 P2') in H2.
      destruct H1 as (_ & _ & _ & U1 & V1), H2 as (_ & _ & _ & U2 & V2). f_equal.
      * destruct U1 as [U1|U1], U2 as [U2|U2]; try congruence; exfalso; rewrite U1 in P1; rewrite U2 in P2; exact (ND2 _ _ P1 P2).
      * destruct V1 as [V1|V1], V2 as [V2|V2]; try congruence; exfalso; rewrite V1 in P1'; rewrite V2 in P2'; exact (ND2 _ _ P1' P2').
  - intros [[i j] k]. unfold gu_find_triangles. rewrite in_flat_map. split.
    + intros ([[a b] [c d]] & P & H). apply in_perms2 in P. destruct P as [P P']. pose proof (tri_pair _ _ _ _ _ _ _ P P' H). tauto.
    + intros (J1 & J2 & J3).
      assert (E1 : exists p, In p (edge_pairs g) /\ (p = (i, j) \/ p = (j, i))) by (destruct (edge_pairs_cover _ g i j HM J1); eauto).
      assert (E2 : exists q, In q (edge_pairs g) /\ (q = (j, k) \/ q = (k, j))) by (destruct (edge_pairs_cover _ g j k HM J2); eauto).
      destruct E1 as (p & P1 & P2), E2 as (q & Q1 & Q2). exists (p, q). split; [|rewrite (tri_pair_full i j k); auto; now left].
      apply perms2_in; auto. pose proof (joined_neq _ _ J1). pose proof (joined_neq _ _ J2). pose proof (joined_neq _ _ J3).
      destruct P2 as [-> | ->], Q2 as [-> | ->]; intros E; congruence.
Qed.
Theorem C209_kites : lists (gu_find_kites g) (fun t => let '(i, j, k, l) := t in
  joined g i j /\ joined g i k /\ joined g i l /\ joined g j l /\ joined g k l /\ (j < k)%nat /\ ~ joined g j k).
Proof.
  pose proof C209_triangles as [NT HT]. split.
  - unfold gu_find_kites. apply NoDup_map_on; [now apply NoDup_filter, perms2_nodup|].
    intros [[[a b] c] [[d e] f]] [[[a' b'] c'] [[d' e'] f']] H H' [= E1 E2 E3 E4]. apply filter_In in H, H'. unfold t1, t2, t3 in *. cbn [fst snd] in *.
    destruct H as [_ H], H' as [_ H']. rewrite !andb_true_iff, !Nat.eqb_eq in H, H'. destruct H as [[[H1 H2] _] _], H' as [[[H1' H2'] _] _]. congruence.
  - intros [[[i j] k] l]. unfold gu_find_kites. rewrite in_map_iff. split.
    + intros ((((a & b) & c) & ((d & e) & f)) & [= <- <- <- <-] & H). apply filter_In in H. unfold t1, t2, t3 in *. cbn [fst snd] in *. destruct H as [Hp H].
      rewrite !andb_true_iff, !Nat.eqb_eq, Nat.ltb_lt, Z.eqb_eq in H. destruct H as [[[<- <-] L] E]. apply in_perms2 in Hp. destruct Hp as [P Q].
      apply HT in P, Q. destruct P as (P1 & P2 & P3), Q as (Q1 & Q2 & Q3). do 6 (split; [assumption|]). intros (_ & _ & K). contradiction.
    + intros (H1 & H2 & H3 & H4 & H5 & L & NJ). exists ((i, j, l), (i, k, l)). split; [reflexivity|]. apply filter_In. unfold t1, t2, t3. cbn [fst snd]. split.
      * apply perms2_in; [apply HT; auto|apply HT; auto|]. intros [= ->]. lia.
      * rewrite !andb_true_iff, !Nat.eqb_eq, Nat.ltb_lt, Z.eqb_eq. repeat split; auto.
        destruct (Z.eq_dec (gm g j k) 0) as [E|E]; [exact E|]. exfalso. apply NJ. split; [apply H4|]. split; [apply H5|exact E].
Qed.
End Triangles.
Lemma C209_example : wf kite_graph /\ simple kite_graph /\ In (3, 0, 1, 2)%nat (gu_find_kites kite_graph) /\ In (0, 3, 2)%nat (gu_find_triangles kite_graph).
Proof. split; [apply wfb_sound; vm_compute; reflexivity|]. split; [apply simpleb_sound; vm_compute; reflexivity|]. split; vm_compute; tauto. Qed.

(** ** C210: dag2pattern *)
(** For every matrix that draws a DAG, dag2pattern stops, after at most n * n + 1 rounds, and the matrix it returns draws the completed
    partially directed graph of that DAG. *)
Theorem C210_completed n A D : draws n A D -> dag D ->
  exists P C, (forall fuel, (n * n < fuel)%nat -> dag2pattern fuel n A = Some P) /\ draws n P C /\ completed D C.
Proof. intros HA HD. exact (start_completes n A D HA HD). Qed.
(** Non-vacuity: 0 --> 2 <-- 1, 2 --> 3, 4 --> 0; the drawing keeps the collider and 2 --> 3, and 4 --- 0 loses its direction. *)
Definition five : ggraph := graph_of 5 [dir 0 2; dir 1 2; dir 2 3; dir 4 0].
Definition matrix_of (g : ggraph) : mat := fun i j => if gm g j i =? 1 then 1 else if gm g j i =? -1 then 0 else -1.
Lemma matrix_draws g : wf g -> (forall i j, (i < gn g)%nat -> (j < gn g)%nat -> gm g i j = -1 \/ gm g i j = 0 \/ gm g i j = 1) -> draws (gn g) (matrix_of g) g.
Proof.
  intros HW H. split; [reflexivity|]. intros i j Hi Hj. unfold matrix_of. pose proof (H j i Hj Hi).
  destruct (Z.eqb_spec (gm g j i) 1); [lia|]. destruct (Z.eqb_spec (gm g j i) (-1)); lia.
Qed.
Lemma C210_example : dag five /\ draws (gn five) (matrix_of five) five /\
  option_map (fun P => map (fun ij => P (fst ij) (snd ij)) [(0, 2); (2, 0); (1, 2); (2, 3); (3, 2); (4, 0); (0, 4); (0, 1)]%nat) (dag2pattern 26 5 (matrix_of five))
    = Some [1; 0; 1; 1; 0; 0; 0; -1].
Proof.
  assert (HD : dag five) by (apply (dagb_sound (fun v => match v with 4 => 0 | 0 => 1 | 1 => 1 | 2 => 2 | _ => 3 end%nat)); vm_compute; reflexivity).
  split; [exact HD|]. split; [|vm_compute; reflexivity]. apply matrix_draws; [apply HD|]. intros i j Hi Hj.
  destruct (Z.eq_dec (gm five i j) 0); [auto|]. destruct (proj2 (proj2 HD) i j Hi Hj ltac:(assumption)) as [[]|[]]; auto.
Qed.
