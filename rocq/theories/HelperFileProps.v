(** C211-C213: the finders of Helper.py, TETRAD files, networkx graphs and column order. *)
From Verif Require Import Base EdgeModel GraphModel GraphSpec GraphProofs DsepSpec DsepProofs UtilsModel UtilsProofs CheckLib MeekModel MeekSpec MeekProofs PCSpec PCModel
  SkelModel SkelProofs FinderProps HelperModel HelperSpec HelperProofs.
From Coq Require Import Permutation Sorted.
Local Open Scope Z_scope.

(** ** C211: the finders *)
(** Of two different adjacent nodes exactly one of the four relations holds; of any others none. *)
Theorem C211_kinds n A i j : adjmat n A -> (i < n)%nat -> (j < n)%nat ->
  (his_adj A i j = true <-> linked n A i j) /\
  (linked n A i j <-> linked n A j i) /\
  (linked n A i j ->
     (his_undirected A i j = true /\ his_directed A i j = false /\ his_directed A j i = false /\ his_bidirected A i j = false) \/
     (his_undirected A i j = false /\ his_directed A i j = true /\ his_directed A j i = false /\ his_bidirected A i j = false) \/
     (his_undirected A i j = false /\ his_directed A i j = false /\ his_directed A j i = true /\ his_bidirected A i j = false) \/
     (his_undirected A i j = false /\ his_directed A i j = false /\ his_directed A j i = false /\ his_bidirected A i j = true)).
Proof.
  intros HA Hi Hj. pose proof (HA i j Hi Hj) as [H1 H2]. pose proof (HA j i Hj Hi) as [H3 H4]. unfold linked, his_adj, his_directed, his_undirected, his_bidirected.
  assert (G : i = j /\ A i j <> 0 /\ A i j <> 1 \/
              A i j = -1 /\ A j i = -1 \/ (A i j = 0 \/ A i j = 1) /\ (A j i = 0 \/ A j i = 1)).
  { destruct (Nat.eq_dec i j) as [E|N]; [left; auto|right]. destruct (H2 N) as [V1 V2], (H4 (not_eq_sym N)) as [V3 _]. clear - V1 V2 V3. lia. }
  clear H1 H2 H3 H4 HA. destruct G as [(-> & G1 & G2)|[(G1 & G2)|(G1 & G2)]].
  - rewrite (proj2 (Z.eqb_neq _ _) G1), (proj2 (Z.eqb_neq _ _) G2). cbn [andb orb]. split; [split; [discriminate|tauto]|]. split; [tauto|tauto].
  - rewrite G1, G2. cbn. split; [split; [discriminate|intros (_ & _ & [K|K]); lia]|]. split; [tauto|]. intros (_ & _ & [K|K]); lia.
  - destruct G1 as [-> | ->], G2 as [-> | ->]; cbn; tauto.
Qed.
(** Each finder lists the edges, triples and kites of its kind, each once (undirected and bidirected edges in both directions); find_uc lists
    each unshielded collider x --> y <-- z under x < z only. *)
Theorem C211_edges n A :
  lists (hfind_undirected n A) (fun e => (fst e < n)%nat /\ (snd e < n)%nat /\ his_undirected A (fst e) (snd e) = true) /\
  lists (hfind_directed n A) (fun e => (fst e < n)%nat /\ (snd e < n)%nat /\ his_directed A (fst e) (snd e) = true) /\
  lists (hfind_bidirected n A) (fun e => (fst e < n)%nat /\ (snd e < n)%nat /\ his_bidirected A (fst e) (snd e) = true) /\
  lists (hfind_adj n A) (fun e => linked n A (fst e) (snd e)).
Proof.
  split; [|split; [|split]]; (split; [try apply hadj_nodup; apply NoDup_filter, hwhere_nodup|]); intros [i j]; cbn [fst snd];
    rewrite ?in_hundirected, ?in_hdirected, ?in_hbidirected, ?in_hadj; unfold his_undirected, his_directed, his_bidirected; rewrite ?andb_true_iff, ?Z.eqb_eq; tauto.
Qed.
Theorem C211_triples n A : adjmat n A ->
  lists (hfind_ut n A) (fun t => let '(i, j, k) := t in linked n A i j /\ linked n A j k /\ i <> k /\ ~ linked n A i k) /\
  lists (hfind_tri n A) (fun t => let '(i, j, k) := t in linked n A i j /\ linked n A j k /\ linked n A i k) /\
  lists (hfind_kites n A) (fun t => let '(i, j, k, l) := t in
     linked n A i j /\ linked n A i k /\ linked n A i l /\ linked n A j l /\ linked n A k l /\ (j < k)%nat /\ ~ linked n A j k) /\
  lists (find_uc n A) (fun t => let '(x, y, z) := t in
     (x < z)%nat /\ (z < n)%nat /\ (y < n)%nat /\ his_directed A x y = true /\ his_directed A z y = true /\ ~ linked n A x z).
Proof.
  intros HA.
  assert (HL : forall i j, (i < n)%nat -> (j < n)%nat -> i <> j -> A i j = -1 <-> ~ linked n A i j).
  { intros i j Hi Hj N. pose proof (HA i j Hi Hj) as [_ H2]. unfold linked. specialize (H2 N). lia. }
  assert (HN : forall i, ~ linked n A i i).
  { intros i (Hi & _ & H). pose proof (HA i i Hi Hi) as [H1 _]. specialize (H1 eq_refl). lia. }
  assert (HT : forall i j k, In (i, j, k) (hfind_tri n A) <-> linked n A i j /\ linked n A j k /\ linked n A i k).
  { intros i j k. rewrite in_htri. split; [tauto|]. intros (H1 & H2 & H3). do 2 (split; [assumption|]). split; [intros ->; exact (HN k H3)|exact H3]. }
  split; [|split; [|split]].
  - split; [apply hut_nodup|]. intros [[i j] k]. rewrite in_hut. split; intros (H1 & H2 & H3 & H4); do 3 (split; [assumption|]); apply HL; auto; try apply H1; apply H2.
  - split; [apply htri_nodup|]. intros [[i j] k]. apply HT.
  - split; [apply hkite_nodup|]. intros [[[i j] k] l]. rewrite in_hkite, !HT. split.
    + intros ((H1 & H2 & H3) & (H4 & H5 & _) & H6 & H7). do 6 (split; [assumption|]). apply HL; auto; [apply H2|apply H5|lia].
    + intros (H1 & H2 & H3 & H4 & H5 & H6 & H7). split; [auto|]. split; [auto|]. split; [exact H6|]. apply HL; auto; [apply H4|apply H5|lia].
  - split; [apply uc_nodup|]. intros [[x y] z]. rewrite in_uc, !in_hdirected. unfold his_directed. rewrite !andb_true_iff, !Z.eqb_eq. split.
    + intros ((H1 & H2 & H3) & (H4 & _ & H5) & L & E). do 5 (split; [assumption|]). apply HL; auto; lia.
    + intros (L & Hz & Hy & H3 & H5 & E). split; [split; [lia|tauto]|]. split; [tauto|]. split; [exact L|]. apply HL; auto; lia.
Qed.
(** neighbors(A, i) lists the nodes with an edge to i, each once; degree_graph is the largest number of them. *)
Theorem C211_degree n A :
  (forall i, (i < n)%nat -> lists (hneighbors n A i) (fun j => linked n A i j)) /\
  (forall i, (i < n)%nat -> (length (hneighbors n A i) <= degree_graph n A)%nat) /\
  (n <> 0%nat -> exists i, (i < n)%nat /\ degree_graph n A = length (hneighbors n A i)).
Proof.
  split; [|].
  - intros i Hi. split.
    + apply NoDup_join; [apply NoDup_filter, seq_NoDup|apply NoDup_filter, seq_NoDup|]. intros x. rewrite !filter_In, !Z.eqb_eq. lia.
    + intros j. unfold hneighbors, linked. rewrite in_app_iff, !filter_In, !in_seq0, !Z.eqb_eq. tauto.
  - unfold degree_graph. set (f := fun m i => let d := length (hneighbors n A i) in if Nat.ltb m d then d else m).
    assert (G : forall l m, (m <= fold_left f l m)%nat /\ (forall i, In i l -> (length (hneighbors n A i) <= fold_left f l m)%nat) /\
       (fold_left f l m = m \/ exists i, In i l /\ fold_left f l m = length (hneighbors n A i))).
    { induction l as [|a l IH]; intros m; [split; [cbn; lia|]; split; [intros i []|now left]|]. cbn [fold_left]. destruct (IH (f m a)) as (K1 & K2 & K3).
      assert (F : (m <= f m a)%nat /\ (length (hneighbors n A a) <= f m a)%nat /\ (f m a = m \/ f m a = length (hneighbors n A a))).
      { unfold f. cbn zeta. destruct (Nat.ltb_spec m (length (hneighbors n A a))); auto with arith. }
      destruct F as (F1 & F2 & F3). split; [lia|]. split.
      - intros i [<- |Hi]; [lia|auto].
      - destruct K3 as [K3|(i & Hi & K3)]; [|right; exists i; split; [now right|exact K3]].
        destruct F3 as [F3|F3]; [left; congruence|right; exists a; split; [now left|congruence]]. }
    destruct (G (seq 0 n) 0%nat) as (_ & G2 & G3). split.
    + intros i Hi. apply G2. now apply in_seq0.
    + intros N. destruct G3 as [G3|(i & Hi & G3)].
      * exists 0%nat. split; [lia|]. specialize (G2 0%nat ltac:(apply in_seq0; lia)). rewrite G3 in *. lia.
      * exists i. split; [now apply in_seq0|exact G3].
Qed.
(** The conditioning sets: every set of neighbours of x, and every set of neighbours of y, appears (in some order of its members), and nothing
    else does; the variants keep those with, respectively without, the given node. *)
Lemma powerset_sound l T : NoDup l -> In T (powerset l) -> NoDup T /\ incl T l.
Proof. intros Hl H. unfold powerset in H. apply in_flat_map in H. destruct H as (k & _ & H). apply combs_in in H. tauto. Qed.
Lemma powerset_covers l U : NoDup l -> NoDup U -> incl U l -> exists T, In T (powerset l) /\ Permutation T U.
Proof.
  intros Hl HU HI. exists (filter (fun x => memb x U) l). split.
  - unfold powerset. apply in_flat_map. exists (length (filter (fun x => memb x U) l)). split; [|apply combs_filter].
    apply in_seq. pose proof (DsepProofs.filter_len (fun x => memb x U) l). lia.
  - apply NoDup_Permutation; [now apply NoDup_filter|exact HU|]. intros x. rewrite filter_In, memb_In. split; [tauto|]. auto.
Qed.
Theorem C211_conditioning_sets n A x y z : (x < n)%nat -> (y < n)%nat ->
  NoDup (find_all_conditioning_sets n A x y) /\
  (forall T, In T (find_all_conditioning_sets n A x y) ->
     NoDup T /\ ((forall v, In v T -> linked n A x v) \/ (forall v, In v T -> linked n A y v))) /\
  (forall U, NoDup U -> (forall v, In v U -> linked n A x v) \/ (forall v, In v U -> linked n A y v) ->
     exists T, In T (find_all_conditioning_sets n A x y) /\ Permutation T U) /\
  (forall T, In T (find_conditioning_sets_with_middle n A x y z) <-> In T (find_all_conditioning_sets n A x y) /\ In z T) /\
  (forall T, In T (find_conditioning_sets_without_middle n A x y z) <-> In T (find_all_conditioning_sets n A x y) /\ ~ In z T).
Proof.
  intros Hx Hy. destruct (C211_degree n A) as (HL & _). destruct (HL x Hx) as [N1 L1], (HL y Hy) as [N2 L2].
  split; [apply NoDup_nodup|]. split; [|split; [|split]].
  - intros T H. unfold find_all_conditioning_sets in H. apply nodup_In, in_app_iff in H. destruct H as [H|H]; apply powerset_sound in H; auto; destruct H as [H1 H2].
    + split; [exact H1|]. left. intros v Hv. apply L1. auto.
    + split; [exact H1|]. right. intros v Hv. apply L2. auto.
  - intros U HU [H|H].
    + destruct (powerset_covers (hneighbors n A x) U N1 HU) as (T & T1 & T2); [intros v Hv; apply L1; auto|]. exists T. split; [|exact T2]. apply nodup_In, in_app_iff. now left.
    + destruct (powerset_covers (hneighbors n A y) U N2 HU) as (T & T1 & T2); [intros v Hv; apply L2; auto|]. exists T. split; [|exact T2]. apply nodup_In, in_app_iff. now right.
  - intros T. unfold find_conditioning_sets_with_middle. rewrite filter_In, memb_In. tauto.
  - intros T. unfold find_conditioning_sets_without_middle. rewrite filter_In, negb_true_iff, memb_not_In. tauto.
Qed.
(** The same set can appear twice, under two orders of its members: 0 --- 2, 0 --> 3, 1 --> 2, 1 --- 3. *)
Definition mixed_marks : mat := fun i j =>
  match i, j with 0%nat, 2%nat => 0 | 2%nat, 0%nat => 0 | 0%nat, 3%nat => 1 | 3%nat, 0%nat => 0 | 1%nat, 2%nat => 1 | 2%nat, 1%nat => 0 | 1%nat, 3%nat => 0 | 3%nat, 1%nat => 0 | _, _ => -1 end.
Theorem C211_same_set_twice_refuted : exists n A x y, adjmat n A /\ (x < n)%nat /\ (y < n)%nat /\
  exists T U, T <> U /\ Permutation T U /\ In T (find_all_conditioning_sets n A x y) /\ In U (find_all_conditioning_sets n A x y).
Proof.
  exists 4%nat, mixed_marks, 0%nat, 1%nat. split.
  - intros i j Hi Hj. destruct i as [|[|[|[|i]]]]; [..|lia]; destruct j as [|[|[|[|j]]]]; try lia; cbn; intuition (try lia; try discriminate).
  - split; [lia|]. split; [lia|]. exists [2; 3]%nat, [3; 2]%nat. split; [discriminate|]. split; [apply perm_swap|]. split; vm_compute; tauto.
Qed.
(** Non-vacuity: 0 --> 1 <-- 2 with 3 --- 1. *)
Definition vee : mat := fun i j =>
  match i, j with 0%nat, 1%nat => 1 | 1%nat, 0%nat => 0 | 2%nat, 1%nat => 1 | 1%nat, 2%nat => 0 | 1%nat, 3%nat => 0 | 3%nat, 1%nat => 0 | _, _ => -1 end.
Lemma C211_example : adjmat 4 vee /\ find_uc 4 vee = [(0, 1, 2)]%nat /\ In (0, 1, 3)%nat (hfind_ut 4 vee) /\ degree_graph 4 vee = 3%nat.
Proof.
  split; [|split; [vm_compute; reflexivity|split; [vm_compute; tauto|vm_compute; reflexivity]]].
  intros i j Hi Hj. destruct i as [|[|[|[|i]]]]; [..|lia]; destruct j as [|[|[|[|j]]]]; try lia; cbn; intuition (try lia; try discriminate).
Qed.

(** ** C212: TETRAD text files *)
(** The line says that the entry (i, j) is v. *)
Definition states (t : tline) (i j : nat) (v : Z) : Prop :=
  let '(l, m, r) := t in
  (l = i /\ r = j /\ v = match m with TArrow => 1 | TLine => 0 | TBi => 1 end) \/
  (l = j /\ r = i /\ v = match m with TArrow => 0 | TLine => 0 | TBi => 1 end).
(** No line joins a node to itself and no two lines disagree. *)
Definition consistent (L : list tline) : Prop :=
  (forall l m r, In (l, m, r) L -> l <> r) /\
  forall t u i j v w, In t L -> In u L -> states t i j v -> states u i j w -> v = w.
(** The matrix has at (i, j) what a line says of it, and -1 where no line says anything; the diagonal is NaN. *)
Definition reads (L : list tline) (A : mat) : Prop :=
  (forall i, A i i = nan) /\
  forall i j, i <> j -> (exists t, In t L /\ states t i j (A i j)) \/ (A i j = -1 /\ forall t v, In t L -> ~ states t i j v).
Lemma states_sym t i j v : states t i j v -> exists w, states t j i w.
Proof. destruct t as [[l m] r]. intros [(-> & -> & _)|(-> & -> & _)]; eexists; [right|left]; repeat split; reflexivity. Qed.
Lemma states_not t i j v : states t i j v -> v <> -1.
Proof. destruct t as [[l m] r]. intros [(_ & _ & ->)|(_ & _ & ->)]; destruct m; discriminate. Qed.
Lemma tetrad_line_step L A t : consistent L -> reads L A ->
  match tetrad_line A t with
  | Some B => consistent (L ++ [t]) /\ reads (L ++ [t]) B
  | None => ~ consistent (L ++ [t])
  end.
Proof.
  intros HC [HD HR]. destruct t as [[l m] r]. unfold tetrad_line.
  assert (Hin : In (l, m, r) (L ++ [(l, m, r)])) by (apply in_app_iff; right; now left).
  destruct (Nat.eq_dec l r) as [<- |N].
  - rewrite HD. cbn [Z.eqb nan negb andb]. assert (F : nan =? fwd m = false) by (destruct m; reflexivity). cbn in F. rewrite F. cbn [negb orb].
    intros [K _]. exact (K l m l Hin eq_refl).
  - assert (Sf : states (l, m, r) l r (fwd m)) by (left; auto). assert (Sb : states (l, m, r) r l (bwd m)) by (right; auto).
    destruct (HR l r N) as [(t & Ht & St)|(E1 & F1)].
    + assert (E2 : exists u, In u L /\ states u r l (A r l)).
      { destruct (HR r l (not_eq_sym N)) as [K|(_ & K)]; [exact K|]. destruct (states_sym _ _ _ _ St) as (w & Sw). exfalso. exact (K t w Ht Sw). }
      destruct E2 as (u & Hu & Su). pose proof (states_not _ _ _ _ St) as N1. pose proof (states_not _ _ _ _ Su) as N2.
      rewrite (proj2 (Z.eqb_neq _ _) N1), (proj2 (Z.eqb_neq _ _) N2). cbn [negb andb].
      destruct (Z.eqb_spec (A l r) (fwd m)) as [G1|G1]; [destruct (Z.eqb_spec (A r l) (bwd m)) as [G2|G2]|]; cbn [negb orb].
      * assert (HS : forall i j v, states (l, m, r) i j v -> v = A i j).
        { intros i j v [(<- & <- & ->)|(<- & <- & ->)]; [exact (eq_sym G1)|exact (eq_sym G2)]. }
        assert (HA : forall t i j v, In t L -> i <> j -> states t i j v -> v = A i j).
        { intros t0 i j v Ht0 Nij S0. destruct (HR i j Nij) as [(t' & Ht' & St')|(_ & K)]; [|exfalso; exact (K _ _ Ht0 S0)]. exact (proj2 HC t0 t' i j _ _ Ht0 Ht' S0 St'). }
        split.
        -- split.
           ++ intros l' m' r' H. apply in_app_iff in H. destruct H as [H|[[= <- <- <-]|[]]]; [exact (proj1 HC _ _ _ H)|exact N].
           ++ assert (HV : forall t i j v, In t (L ++ [(l, m, r)]) -> states t i j v -> v = A i j).
              { intros t0 i j v H S0. apply in_app_iff in H. destruct H as [H|[<- |[]]]; [|now apply HS].
                apply (HA t0); auto. destruct t0 as [[a b] c]. pose proof (proj1 HC _ _ _ H). destruct S0 as [(<- & <- & _)|(<- & <- & _)]; auto. }
              intros t0 u0 i j v w H1 H2 S1 S2. rewrite (HV _ _ _ _ H1 S1), (HV _ _ _ _ H2 S2). reflexivity.
        -- split; [exact HD|]. intros i j Nij. destruct (HR i j Nij) as [(t' & Ht' & St')|(K1 & K2)].
           ++ left. exists t'. split; [apply in_app_iff; now left|exact St'].
           ++ right. split; [exact K1|]. intros t' v H S0. apply in_app_iff in H. destruct H as [H|[<- |[]]]; [exact (K2 _ _ H S0)|].
              pose proof (states_not _ _ _ _ S0). apply HS in S0. congruence.
      * intros [_ K]. apply G2. apply (K u (l, m, r) r l); auto. apply in_app_iff. now left.
      * intros [_ K]. apply G1. apply (K t (l, m, r) l r); auto. apply in_app_iff. now left.
    + rewrite E1. cbn [Z.eqb negb andb Pos.eqb].
      assert (F2 : forall t v, In t L -> ~ states t r l v). { intros t v Ht S0. destruct (states_sym _ _ _ _ S0) as (w & Sw). exact (F1 t w Ht Sw). }
      assert (HB : forall i j, upd (upd A l r (fwd m)) r l (bwd m) i j =
        if Nat.eqb i r && Nat.eqb j l then bwd m else if Nat.eqb i l && Nat.eqb j r then fwd m else A i j) by reflexivity.
      split.
      * split.
        -- intros l' m' r' H. apply in_app_iff in H. destruct H as [H|[[= <- <- <-]|[]]]; [exact (proj1 HC _ _ _ H)|exact N].
        -- intros t u i j v w H1 H2 S1 S2. apply in_app_iff in H1, H2.
           assert (HF : forall t0 v0 w0, In t0 L -> states t0 i j v0 -> states (l, m, r) i j w0 -> False).
           { intros t0 v0 w0 H S0 [(-> & -> & _)|(-> & -> & _)]; [exact (F1 _ _ H S0)|exact (F2 _ _ H S0)]. }
           destruct H1 as [H1|[<- |[]]], H2 as [H2|[<- |[]]].
           ++ exact (proj2 HC t u i j v w H1 H2 S1 S2).
           ++ exfalso. eauto.
           ++ exfalso. eauto.
           ++ destruct S1 as [(-> & -> & ->)|(-> & -> & ->)], S2 as [(K1 & K2 & ->)|(K1 & K2 & ->)]; congruence || reflexivity.
      * split.
        -- intros i. rewrite HB. destruct (Nat.eqb_spec i r) as [E2|E2], (Nat.eqb_spec i l) as [E3|E3]; cbn [andb]; try congruence; apply HD.
        -- intros i j Nij. rewrite HB. destruct (Nat.eqb i r && Nat.eqb j l) eqn:Q1.
           { apply andb_true_iff in Q1. rewrite !Nat.eqb_eq in Q1. destruct Q1 as [-> ->]. left. eauto. }
           destruct (Nat.eqb i l && Nat.eqb j r) eqn:Q2.
           { apply andb_true_iff in Q2. rewrite !Nat.eqb_eq in Q2. destruct Q2 as [-> ->]. left. eauto. }
           destruct (HR i j Nij) as [(t' & Ht' & St')|(K1 & K2)].
           ++ left. exists t'. split; [apply in_app_iff; now left|exact St'].
           ++ right. split; [exact K1|]. intros t' v H S0. apply in_app_iff in H. destruct H as [H|[<- |[]]]; [exact (K2 _ _ H S0)|].
              rewrite andb_false_iff, !Nat.eqb_neq in Q1, Q2. destruct S0 as [(<- & <- & _)|(<- & <- & _)]; tauto.
Qed.
Lemma consistent_prefix L M : consistent (L ++ M) -> consistent L.
Proof.
  intros [H1 H2]. split.
  - intros l m r H. apply (H1 l m r). apply in_app_iff. now left.
  - intros t u i j v w Ht Hu. apply H2; apply in_app_iff; now left.
Qed.
(** tetrad2adjmat of a file with at least two nodes: the matrix the lines describe when they are consistent, ValueError otherwise.
    (Node numbers are taken to be those of the file's nodes.) *)
Theorem C212_reads n L : (2 <= n)%nat ->
  (consistent L -> exists A, tetrad2adjmat (n, L) = Some (n, A) /\ reads L A) /\
  (~ consistent L -> tetrad2adjmat (n, L) = None).
Proof.
  intros Hn. unfold tetrad2adjmat. cbn [fst snd]. rewrite (proj2 (Nat.leb_gt n 1)) by lia.
  set (f := fun s t => match s with Some A => tetrad_line A t | None => None end).
  assert (FN : forall M, fold_left f M None = None) by (induction M; [reflexivity|assumption]).
  assert (G : forall M P A, consistent P -> reads P A ->
    (consistent (P ++ M) /\ exists B, fold_left f M (Some A) = Some B /\ reads (P ++ M) B) \/ (~ consistent (P ++ M) /\ fold_left f M (Some A) = None)).
  { induction M as [|t M IH]; intros P A HC HR; [left; rewrite app_nil_r; split; [exact HC|]; exists A; auto|].
    cbn [fold_left]. pose proof (tetrad_line_step P A t HC HR) as HS. cbn [f]. destruct (tetrad_line A t) as [B|].
    - destruct HS as [HC' HR']. specialize (IH (P ++ [t]) B HC' HR'). rewrite <- app_assoc in IH. exact IH.
    - right. split; [|apply FN]. intros HC'. apply HS. apply (consistent_prefix _ M). now rewrite <- app_assoc. }
  assert (C0 : consistent []) by (split; [intros l m r []|intros t u i j v w []]).
  assert (R0 : reads [] tetrad_start).
  { split; [intros i; unfold tetrad_start; now rewrite Nat.eqb_refl|]. intros i j N. right. split; [|intros t v []]. unfold tetrad_start. now rewrite (proj2 (Nat.eqb_neq i j)). }
  destruct (G L [] tetrad_start C0 R0) as [(K1 & B & K2 & K3)|(K1 & K2)]; cbn [app] in *; rewrite K2; (split; [|]).
  - intros _. exists B. auto.
  - tauto.
  - tauto.
  - reflexivity.
Qed.
(** Writing a matrix and reading the file gives the matrix back, off the diagonal; the diagonal becomes NaN. *)
Definition edges_agree (n : nat) (A : mat) : Prop :=
  forall i j, (i < n)%nat -> (j < n)%nat -> i <> j -> (A i j = -1 \/ A i j = 0 \/ A i j = 1) /\ (A i j = -1 <-> A j i = -1).
Lemma written n A : edges_agree n A -> forall t, In t (snd (adjmat2tetrad n A)) ->
  (let '(l, _, r) := t in (l < n)%nat /\ (r < n)%nat /\ l <> r) /\ forall i j v, states t i j v -> v = A i j.
Proof.
  intros HA t H. unfold adjmat2tetrad in H. cbn [snd] in H. rewrite !in_app_iff, !in_map_iff in H.
  destruct H as [((i & j) & <- & H)|[((i & j) & <- & H)|((i & j) & <- & H)]]; cbn [fst snd].
  - apply in_hdirected in H. destruct H as (Hi & Hj & E1 & E2). assert (N : i <> j) by (intros ->; lia). split; [auto|].
    intros a b v [(<- & <- & ->)|(<- & <- & ->)]; auto.
  - apply filter_In in H. rewrite in_hundirected in H. cbn [fst snd] in H. rewrite Nat.ltb_lt in H. destruct H as ((Hi & Hj & E1 & E2) & L). split; [split; [auto|split; [auto|lia]]|].
    intros a b v [(<- & <- & ->)|(<- & <- & ->)]; auto.
  - apply filter_In in H. unfold find_circ_arrow in H. rewrite in_hwhere in H. cbn [fst snd] in H. rewrite andb_true_iff, Z.eqb_eq, Nat.ltb_lt in H.
    destruct H as ((Hi & Hj & E1) & E2 & L). split; [split; [auto|split; [auto|lia]]|].
    intros a b v [(<- & <- & ->)|(<- & <- & ->)]; auto.
Qed.
Lemma written_all n A i j : edges_agree n A -> (i < n)%nat -> (j < n)%nat -> i <> j -> A i j <> -1 ->
  exists t, In t (snd (adjmat2tetrad n A)) /\ states t i j (A i j).
Proof.
  intros HA Hi Hj N E. destruct (HA i j Hi Hj N) as [V1 V2]. destruct (HA j i Hj Hi (not_eq_sym N)) as [V3 _]. unfold adjmat2tetrad. cbn [snd].
  assert (W1 : A i j = 0 \/ A i j = 1) by tauto. assert (W2 : A j i = 0 \/ A j i = 1) by tauto.
  assert (HD : forall a b, (a < n)%nat -> (b < n)%nat -> A a b = 1 -> A b a = 0 -> In (a, TArrow, b) (map (fun e => (fst e, TArrow, snd e)) (hfind_directed n A))).
  { intros a b Ha Hb E1 E2. apply in_map_iff. exists (a, b). split; [reflexivity|]. apply in_hdirected. auto. }
  assert (HU : forall a b, (a < n)%nat -> (b < n)%nat -> (a < b)%nat -> A a b = 0 -> A b a = 0 ->
    In (a, TLine, b) (map (fun e => (fst e, TLine, snd e)) (filter (fun e => Nat.ltb (fst e) (snd e)) (hfind_undirected n A)))).
  { intros a b Ha Hb L E1 E2. apply in_map_iff. exists (a, b). split; [reflexivity|]. apply filter_In. rewrite in_hundirected. cbn [fst snd]. rewrite Nat.ltb_lt. auto. }
  assert (HB : forall a b, (a < n)%nat -> (b < n)%nat -> (a < b)%nat -> A a b = 1 -> A b a = 1 ->
    In (a, TBi, b) (map (fun e => (fst e, TBi, snd e)) (filter (fun e => (A (snd e) (fst e) =? 1) && Nat.ltb (fst e) (snd e)) (find_circ_arrow n A)))).
  { intros a b Ha Hb L E1 E2. apply in_map_iff. exists (a, b). split; [reflexivity|]. apply filter_In. unfold find_circ_arrow. rewrite in_hwhere. cbn [fst snd].
    rewrite andb_true_iff, Z.eqb_eq, Nat.ltb_lt. auto. }
  destruct W1 as [W1|W1], W2 as [W2|W2]; rewrite W1.
  - destruct (Nat.lt_total i j) as [L|[L|L]]; [exists (i, TLine, j)|contradiction|exists (j, TLine, i)]; rewrite !in_app_iff; (split; [auto|]); [left|right]; auto.
  - exists (j, TArrow, i). rewrite !in_app_iff. split; [auto|]. right. auto.
  - exists (i, TArrow, j). rewrite !in_app_iff. split; [auto|]. left. auto.
  - destruct (Nat.lt_total i j) as [L|[L|L]]; [exists (i, TBi, j)|contradiction|exists (j, TBi, i)]; rewrite !in_app_iff; (split; [auto|]); [left|right]; auto.
Qed.
Theorem C212_round_trip n A : (2 <= n)%nat -> edges_agree n A ->
  exists B, tetrad2adjmat (adjmat2tetrad n A) = Some (n, B) /\
    (forall i j, (i < n)%nat -> (j < n)%nat -> i <> j -> B i j = A i j) /\ (forall i, B i i = nan).
Proof.
  intros Hn HA. pose proof (written n A HA) as HW.
  assert (HC : consistent (snd (adjmat2tetrad n A))).
  { split.
    - intros l m r H. apply HW in H. tauto.
    - intros t u i j v w Ht Hu S1 S2. apply HW in Ht, Hu. rewrite (proj2 Ht i j v S1), (proj2 Hu i j w S2). reflexivity. }
  destruct (proj1 (C212_reads n (snd (adjmat2tetrad n A)) Hn) HC) as (B & E & HD & HR). exists B. split; [exact E|]. split; [|exact HD].
  intros i j Hi Hj N. destruct (HR i j N) as [(t & Ht & St)|(K1 & K2)]; [exact (proj2 (HW t Ht) i j _ St)|].
  rewrite K1. destruct (Z.eq_dec (A i j) (-1)) as [|NE]; [auto|]. destruct (written_all n A i j HA Hi Hj N NE) as (t & Ht & St). exfalso. exact (K2 t _ Ht St).
Qed.
(** A graph with one node reads back as a graph with none. *)
Theorem C212_one_node_refuted A : exists B, tetrad2adjmat (adjmat2tetrad 1 A) = Some (0%nat, B).
Proof.
  unfold tetrad2adjmat. change (fst (adjmat2tetrad 1 A)) with 1%nat. cbn [Nat.leb].
  assert (E : snd (adjmat2tetrad 1 A) = []).
  { unfold adjmat2tetrad, hfind_directed, hfind_undirected, find_circ_arrow, find_tail, hwhere, cells. cbn.
    destruct (Z.eqb_spec (A 0%nat 0%nat) 1) as [E1|E1]; cbn.
    - destruct (Z.eqb_spec (A 0%nat 0%nat) 0); [lia|]. cbn. rewrite E1. reflexivity.
    - destruct (Z.eqb_spec (A 0%nat 0%nat) 0) as [E0|E0]; cbn; [rewrite E0|]; reflexivity. }
  rewrite E. cbn [fold_left]. eauto.
Qed.
Lemma C212_example : edges_agree 4 vee /\ length (snd (adjmat2tetrad 4 vee)) = 3%nat /\
  tetrad2adjmat (3, [(0, TArrow, 1); (1, TArrow, 0)])%nat = None /\ consistent [(0, TArrow, 1); (2, TLine, 1); (0, TArrow, 1)]%nat.
Proof.
  split; [|split; [vm_compute; reflexivity|split; [vm_compute; reflexivity|]]].
  - intros i j Hi Hj N. exact (proj2 (proj1 C211_example i j Hi Hj) N).
  - split.
    + intros l m r [[= <- <- <-]|[[= <- <- <-]|[[= <- <- <-]|[]]]]; lia.
    + intros t u i j v w [<- |[<- |[<- |[]]]] [<- |[<- |[<- |[]]]] [(K1 & K2 & ->)|(K1 & K2 & ->)] [(K3 & K4 & ->)|(K3 & K4 & ->)]; lia.
Qed.

(** ** C213: networkx graphs and column order *)
(** adjmat2digraph: an undirected edge becomes two green arcs, a directed edge one blue arc along it, a bidirected edge two red arcs; no arc is
    given two colours. *)
Theorem C213_digraph n A : 
  let g := adjmat2digraph n A in
  (forall a, In a (fst g) <-> exists i, a = LInt i /\ (i < n)%nat) /\
  NoDup (map fst (snd g)) /\
  forall i j c, In (i, j, c) (snd g) <-> (i < n)%nat /\ (j < n)%nat /\
    match c with Green => his_undirected A i j = true | Blue => his_directed A i j = true | Red => his_bidirected A i j = true end.
Proof.
  cbn zeta. unfold adjmat2digraph. cbn [fst snd]. split; [|split].
  - intros a. rewrite in_map_iff. split; [intros (i & <- & H); exists i; split; [reflexivity|now apply in_seq0]|intros (i & -> & H); exists i; split; [reflexivity|now apply in_seq0]].
  - rewrite !map_app, !map_map, !map_id. destruct (C211_edges n A) as ((N1 & _) & (N2 & _) & (N3 & _) & _).
    apply NoDup_join; [exact N1|apply NoDup_join; [exact N2|exact N3|]|]; intros [i j]; rewrite ?in_app_iff, ?in_hundirected, ?in_hdirected, ?in_hbidirected; lia.
  - intros i j c. rewrite !in_app_iff, !in_map_iff. unfold his_undirected, his_directed, his_bidirected.
    split.
    + intros [((a & b) & [= -> -> <-] & H)|[((a & b) & [= -> -> <-] & H)|((a & b) & [= -> -> <-] & H)]]; rewrite ?in_hundirected, ?in_hdirected, ?in_hbidirected in H; rewrite andb_true_iff, !Z.eqb_eq; tauto.
    + destruct c; rewrite andb_true_iff, !Z.eqb_eq; intros H; [left|right; left|right; right]; exists (i, j); (split; [reflexivity|]); rewrite ?in_hundirected, ?in_hdirected, ?in_hbidirected; tauto.
Qed.
(** is_dsep on such a graph always fails: it asks networkx about strings, and the nodes are integers. *)
Theorem C213_is_dsep_fails_refuted sep n A x y Z : is_dsep sep (adjmat2digraph n A) x y Z = None.
Proof.
  unfold is_dsep, adjmat2digraph. cbn [fst forallb map].
  assert (H : existsb (label_eqb (LStr x)) (map LInt (seq 0 n)) = false).
  { apply not_true_is_false. rewrite existsb_exists. intros (a & Ha & E). apply in_map_iff in Ha. destruct Ha as (i & <- & _). discriminate. }
  now rewrite H.
Qed.
(** rearrange_columns: [vars] is the order of the columns; the entry of the matrix for the columns at positions i and j moves to the place of
    their variables. *)
Theorem C213_rearrange A vars : Permutation vars (seq 0 (length vars)) ->
  forall i j, (i < length vars)%nat -> (j < length vars)%nat -> rearrange_columns A vars (nth i vars 0%nat) (nth j vars 0%nat) = A i j.
Proof.
  intros HP. assert (ND : NoDup vars) by (apply (Permutation_NoDup (Permutation_sym HP)), seq_NoDup).
  assert (H : forall i, (i < length vars)%nat -> new_indices vars (nth i vars 0%nat) = i).
  { intros i Hi. unfold new_indices. set (f := fun f i v => if Nat.eqb v (nth i vars 0%nat) then i else f v).
    assert (G : forall l h v, (exists k, In k l /\ v = nth k vars 0%nat /\ fold_left f l h v = k) \/ ((forall k, In k l -> v <> nth k vars 0%nat) /\ fold_left f l h v = h v)).
    { induction l as [|k l IH]; intros h v; [right; split; [intros k []|reflexivity]|]. cbn [fold_left]. destruct (IH (f h k) v) as [(k' & K1 & K2 & K3)|(K1 & K2)].
      - left. exists k'. split; [now right|auto].
      - rewrite K2. unfold f. destruct (Nat.eqb_spec v (nth k vars 0%nat)) as [E|E].
        + left. exists k. split; [now left|auto].
        + right. split; [|reflexivity]. intros k' [<- |H]; auto. }
    destruct (G (seq 1 (length vars - 1)) (fun _ => 0%nat) (nth i vars 0%nat)) as [(k & K1 & K2 & K3)|(K1 & K2)].
    - rewrite K3. apply in_seq in K1. symmetry. apply (proj1 (NoDup_nth vars 0%nat) ND); auto. lia.
    - rewrite K2. destruct (Nat.eq_dec i 0) as [-> |N]; [reflexivity|]. exfalso. apply (K1 i); [apply in_seq; lia|reflexivity]. }
  intros i j Hi Hj. unfold rearrange_columns. now rewrite !H.
Qed.
Lemma C213_example : Permutation [2; 0; 1]%nat (seq 0 (length [2; 0; 1]%nat)) /\ length (snd (adjmat2digraph 4 vee)) = 4%nat.
Proof. split; [|vm_compute; reflexivity]. apply perm_trans with [0; 2; 1]%nat; [apply perm_swap|apply perm_skip, perm_swap]. Qed.
