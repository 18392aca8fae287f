(** Lemmas about the orientation model. *)
From Verif Require Import Base EdgeModel EdgeProofs GraphModel GraphSpec GraphProofs DpathProofs DsepSpec DsepProofs
  NamedModel KnowledgeModel KnowledgeProps MeekModel MeekSpec.
Local Open Scope Z_scope.

(* ---------- lists ---------- *)
Lemma in_cells n r c : In (r, c) (cells n) <-> (r < n)%nat /\ (c < n)%nat.
Proof.
  unfold cells. rewrite in_flat_map. split.
  - intros (x & Hx & H). apply in_map_iff in H. destruct H as (y & [= <- <-] & Hy).
    apply in_seq0 in Hx, Hy. auto.
  - intros [H1 H2]. exists r. rewrite in_seq0. split; [exact H1|]. apply in_map_iff. exists c. now rewrite in_seq0.
Qed.
Lemma cells_length n : length (cells n) = (n * n)%nat.
Proof.
  unfold cells. assert (H : forall l, length (flat_map (fun r : nat => map (fun c : nat => (r, c)) (seq 0 n)) l) = (length l * n)%nat).
  { induction l as [|a l IH]; cbn; [reflexivity|]. rewrite app_length, map_length, seq_length, IH. lia. }
  now rewrite H, seq_length.
Qed.
Lemma in_where g v i j : In (i, j) (where_code g v) <-> (i < gn g)%nat /\ (j < gn g)%nat /\ gm g j i = v.
Proof.
  unfold where_code. rewrite in_map_iff. split.
  - intros ((r & c) & [= <- <-] & H). apply filter_In in H. cbn [fst snd] in H. rewrite in_cells, Z.eqb_eq in H. tauto.
  - intros (H1 & H2 & H3). exists (j, i). split; [reflexivity|]. apply filter_In. cbn [fst snd].
    rewrite in_cells, Z.eqb_eq. tauto.
Qed.
Lemma in_adj g i j : In (i, j) (find_adj g) <-> (i < gn g)%nat /\ (j < gn g)%nat /\ (gm g j i = -1 \/ gm g j i = 1).
Proof. unfold find_adj, find_tails, find_arrow_heads. rewrite in_app_iff, !in_where. tauto. Qed.

Lemma in_perms2 {A} (l : list A) x y : In (x, y) (perms2 l) ->  In x l /\ In y l.
Proof.
  unfold perms2. rewrite in_flat_map. intros (i & _ & H). apply in_flat_map in H. destruct H as (j & _ & H).
  destruct (Nat.eqb i j); [easy|].
  destruct (nth_error l i) eqn:E1; [|easy]. destruct (nth_error l j) eqn:E2; [|easy].
  destruct H as [[= -> ->]|[]]. split; eapply nth_error_In; eauto.
Qed.
Lemma perms2_in {A} (l : list A) x y : In x l -> In y l -> x <> y -> In (x, y) (perms2 l).
Proof.
  intros Hx Hy Hne. apply In_nth_error in Hx, Hy. destruct Hx as [i Hi], Hy as [j Hj].
  unfold perms2. apply in_flat_map. exists i. split.
  { apply in_seq0. apply nth_error_Some. congruence. }
  apply in_flat_map. exists j. split.
  { apply in_seq0. apply nth_error_Some. congruence. }
  destruct (Nat.eqb_spec i j) as [->|]; [congruence|]. rewrite Hi, Hj. now left.
Qed.

Lemma in_ut g i j k : In (i, j, k) (find_unshielded_triples g) <->
  In (i, j) (find_adj g) /\ In (j, k) (find_adj g) /\ i <> k /\ gm g i k = 0.
Proof.
  unfold find_unshielded_triples. rewrite in_map_iff. split.
  - intros (((a & b) & (c & d)) & [= <- <- <-] & H). apply filter_In in H. cbn [fst snd] in H.
    destruct H as [H1 H2]. apply in_perms2 in H1. rewrite !andb_true_iff, negb_true_iff, Nat.eqb_eq, Nat.eqb_neq, Z.eqb_eq in H2.
    destruct H2 as [[-> H2] H3]. tauto.
  - intros (H1 & H2 & H3 & H4). exists ((i, j), (j, k)). split; [reflexivity|]. apply filter_In. cbn [fst snd]. split.
    + apply perms2_in; auto. congruence.
    + rewrite !andb_true_iff, negb_true_iff, Nat.eqb_eq, Nat.eqb_neq, Z.eqb_eq. auto.
Qed.
Lemma in_tri g i j k : In (i, j, k) (find_triangles g) <->
  In (i, j) (find_adj g) /\ In (j, k) (find_adj g) /\ i <> k /\ In (i, k) (find_adj g).
Proof.
  unfold find_triangles, pmem2. rewrite in_map_iff. split.
  - intros (((a & b) & (c & d)) & [= <- <- <-] & H). apply filter_In in H. cbn [fst snd] in H.
    destruct H as [H1 H2]. apply in_perms2 in H1. rewrite !andb_true_iff, negb_true_iff, Nat.eqb_eq, Nat.eqb_neq, pmem_In in H2.
    destruct H2 as [[-> H2] H3]. tauto.
  - intros (H1 & H2 & H3 & H4). exists ((i, j), (j, k)). split; [reflexivity|]. apply filter_In. cbn [fst snd]. split.
    + apply perms2_in; auto. congruence.
    + rewrite !andb_true_iff, negb_true_iff, Nat.eqb_eq, Nat.eqb_neq, pmem_In. auto.
Qed.
Lemma in_kite g i j k l : In (i, j, k, l) (find_kites g) <->
  In (i, j, l) (find_triangles g) /\ In (i, k, l) (find_triangles g) /\ (j < k)%nat /\ gm g j k = 0.
Proof.
  unfold find_kites. rewrite in_map_iff. split.
  - intros ((((a & b) & c) & ((d & e) & f)) & [= <- <- <- <-] & H). apply filter_In in H. cbn [fst snd t1 t2 t3] in H.
    destruct H as [H1 H2]. apply in_perms2 in H1. unfold t1, t2, t3 in *. cbn [fst snd] in *.
    rewrite !andb_true_iff, !Nat.eqb_eq, Nat.ltb_lt, Z.eqb_eq in H2.
    destruct H2 as [[[-> ->] H3] H4]. tauto.
  - intros (H1 & H2 & H3 & H4). exists ((i, j, l), (i, k, l)). split; [reflexivity|]. apply filter_In. unfold t1, t2, t3. cbn [fst snd]. split.
    + apply perms2_in; auto. intros [= ->]. lia.
    + rewrite !andb_true_iff, !Nat.eqb_eq, Nat.ltb_lt, Z.eqb_eq. auto.
Qed.

(* ---------- one orientation ---------- *)
Definition dirg (g : ggraph) (a b : nat) : ggraph :=
  mkG (gn g) (upd2 (upd2 (gm g) a b 0 0) a b 1 (-1)) (adjust_dpath (gn g) (gd g) a b).

Lemma is_undirected_iff g a b : (a < gn g)%nat -> (b < gn g)%nat -> is_undirected g a b = true <-> undirected g a b.
Proof. intros. unfold is_undirected, undirected. rewrite andb_true_iff, !Z.eqb_eq. tauto. Qed.
Lemma is_directed_iff g a b : (a < gn g)%nat -> (b < gn g)%nat -> is_fully_directed g a b = true <-> directed g a b.
Proof. intros. unfold is_fully_directed, directed. rewrite andb_true_iff, !Z.eqb_eq. tauto. Qed.

Lemma undirected_neq g a b : wf g -> undirected g a b -> a <> b.
Proof. intros [Hd _] (H1 & H2 & H3 & H4) ->. rewrite Hd in H3 by auto. discriminate. Qed.
Lemma undirected_sym g a b : undirected g a b -> undirected g b a.
Proof. unfold undirected. tauto. Qed.

Lemma orient_is g a b : wf g -> undirected g a b ->
  get_edge g a b = Ok (Some (Edge a b TAIL TAIL)) /\
  add_edge (remove_edge g (Edge a b TAIL TAIL)) (Edge a b TAIL ARROW) = dirg g a b.
Proof.
  intros Hw Hu. pose proof (undirected_neq _ _ _ Hw Hu) as Hne. destruct Hu as (Ha & Hb & E1 & E2).
  unfold get_edge. rewrite E1, E2. cbn [Z.eqb]. split; [reflexivity|].
  unfold remove_edge, Edge. cbn [pointing_left ep_eqb ev Z.eqb e_node1 e_node2 e_num1 e_num2 andb orb].
  unfold is_parent_of. rewrite E1, E2. cbn [Z.eqb andb orb Pos.eqb].
  unfold add_edge, add_edge_full, set_gm, dirg. cbn [e_node1 e_node2 e_end1 e_end2 gm gn gd].
  rewrite upd2_ij, upd2_ji by exact Hne. cbn [Z.eqb andb orb negb fst]. reflexivity.
Qed.

Section One.
Variable block : nat -> nat -> bool.
Lemma orient_cases s a b : wf (fst s) -> undirected (fst s) a b ->
  (orient block s a b = s /\ (block a b = true \/ is_ancestor_of (fst s) b a = true)) \/
  (block a b = false /\ is_ancestor_of (fst s) b a = false /\ orient block s a b = (dirg (fst s) a b, true)).
Proof.
  intros Hw Hu. unfold orient. destruct (block a b); [auto|].
  destruct (orient_is _ _ _ Hw Hu) as [-> ->].
  destruct (is_ancestor_of (fst s) b a) eqn:E; auto.
Qed.
End One.

Lemma dirg_ab g a b : gm (dirg g a b) a b = -1.
Proof. apply upd2_ij. Qed.
Lemma dirg_ba g a b : a <> b -> gm (dirg g a b) b a = 1.
Proof. intros. now apply upd2_ji. Qed.
Lemma dirg_other g a b x y : ~ (x = a /\ y = b) -> ~ (x = b /\ y = a) -> gm (dirg g a b) x y = gm g x y.
Proof. intros. cbn. now rewrite !upd2_other. Qed.

Lemma dirg_wf g a b : wf g -> undirected g a b -> wf (dirg g a b).
Proof.
  intros Hw Hu. pose proof (undirected_neq _ _ _ Hw Hu) as Hne. pose proof Hu as (Ha & Hb & _ & _).
  apply wf_pair_update with (g := g) (i := a) (j := b); auto.
  - intros x y H1 H2. now apply dirg_other.
  - rewrite dirg_ab, dirg_ba by exact Hne. unfold legal_pair, legal_pairs. cbn. tauto.
Qed.
Lemma dirg_directed g a b x y : wf g -> undirected g a b ->
  directed (dirg g a b) x y <-> (x = a /\ y = b) \/ directed g x y.
Proof.
  intros Hw Hu. pose proof (undirected_neq _ _ _ Hw Hu) as Hne. destruct Hu as (Ha & Hb & E1 & E2).
  unfold directed. cbn [gn dirg].
  destruct (Nat.eq_dec x a) as [->|Hx]; [destruct (Nat.eq_dec y b) as [->|Hy]|].
  - rewrite dirg_ab, dirg_ba by exact Hne. tauto.
  - rewrite !dirg_other by lia. intuition lia.
  - destruct (Nat.eq_dec x b) as [->|Hx']; [destruct (Nat.eq_dec y a) as [->|Hy]|].
    + rewrite dirg_ab, dirg_ba by exact Hne. intuition lia.
    + rewrite !dirg_other by lia. intuition lia.
    + rewrite !dirg_other by lia. intuition lia.
Qed.
Lemma dirg_undirected g a b x y : wf g -> undirected g a b ->
  undirected (dirg g a b) x y <-> undirected g x y /\ ~ (x = a /\ y = b) /\ ~ (x = b /\ y = a).
Proof.
  intros Hw Hu. pose proof (undirected_neq _ _ _ Hw Hu) as Hne. destruct Hu as (Ha & Hb & E1 & E2).
  unfold undirected. cbn [gn dirg].
  destruct (Nat.eq_dec x a) as [->|Hx]; [destruct (Nat.eq_dec y b) as [->|Hy]|].
  - rewrite dirg_ab, dirg_ba by exact Hne. intuition lia.
  - rewrite !dirg_other by lia. intuition lia.
  - destruct (Nat.eq_dec x b) as [->|Hx']; [destruct (Nat.eq_dec y a) as [->|Hy]|].
    + rewrite dirg_ab, dirg_ba by exact Hne. intuition lia.
    + rewrite !dirg_other by lia. intuition lia.
    + rewrite !dirg_other by lia. intuition lia.
Qed.

Lemma orients_refl g : only_orients g g.
Proof. split; [reflexivity|]. auto. Qed.
Lemma orients_dirg g0 g a b : wf g -> only_orients g0 g -> undirected g a b -> only_orients g0 (dirg g a b).
Proof.
  intros Hw [Hn H] Hu. pose proof (undirected_neq _ _ _ Hw Hu) as Hne. pose proof Hu as (Ha & Hb & E1 & E2).
  split; [cbn; exact Hn|]. intros x y Hx Hy.
  assert (Hxy : (x = a /\ y = b) \/ (x = b /\ y = a) \/ (~ (x = a /\ y = b) /\ ~ (x = b /\ y = a))) by lia.
  assert (Hu0 : undirected g0 a b).
  { rewrite Hn in Ha, Hb. destruct (H a b Ha Hb) as [[K1 K2]|[K _]]; [|exact K]. unfold undirected. rewrite <- K1, <- K2. auto. }
  destruct Hxy as [[-> ->]|[[-> ->]|[N1 N2]]].
  - right. split; [exact Hu0|]. left. apply dirg_directed; auto.
  - right. split; [now apply undirected_sym|]. right. apply dirg_directed; auto.
  - rewrite !dirg_other by tauto. destruct (H x y Hx Hy) as [K|[K1 K2]]; [left; exact K|].
    right. split; [exact K1|]. rewrite !dirg_directed by auto. tauto.
Qed.
Lemma orients_undirected g0 g a b : only_orients g0 g -> undirected g a b -> undirected g0 a b.
Proof.
  intros [Hn H] (Ha & Hb & E1 & E2). rewrite Hn in Ha, Hb.
  destruct (H a b Ha Hb) as [[K1 K2]|[K _]]; [|exact K]. unfold undirected. rewrite <- K1, <- K2. auto.
Qed.
Lemma orients_zero g0 g a b : only_orients g0 g -> (a < gn g0)%nat -> (b < gn g0)%nat -> gm g0 a b = 0 -> gm g a b = 0.
Proof. intros [Hn H] Ha Hb E. destruct (H a b Ha Hb) as [[-> _]|[(_ & _ & K & _) _]]; [exact E|lia]. Qed.

Lemma dirg_gsound g a b : wf g -> undirected g a b -> gsound g -> gsound (dirg g a b).
Proof.
  intros Hw Hu Hg. pose proof (undirected_neq _ _ _ Hw Hu) as Hne. pose proof Hu as (Ha & Hb & E1 & E2).
  assert (Hk : forall x y, dedge g x y -> dedge (dirg g a b) x y).
  { intros x y (Hx & Hy & HD). split; [exact Hx|]. split; [exact Hy|].
    rewrite !dirg_other; auto; intros [-> ->]; lia. }
  unfold gsound. cbn [gd dirg]. apply adjust_sound.
  - apply reach_one. split; [exact Ha|]. split; [exact Hb|]. rewrite dirg_ab, dirg_ba by exact Hne. auto.
  - eapply dsound_mono; [exact Hk|exact Hg].
Qed.

(* ---------- counting undirected cells: the termination measure ---------- *)
Definition ucount (g : ggraph) : nat :=
  length (filter (fun rc => is_undirected g (fst rc) (snd rc)) (cells (gn g))).
Lemma filter_le {A} (f h : A -> bool) l : (forall x, In x l -> f x = true -> h x = true) ->
  (length (filter f l) <= length (filter h l))%nat.
Proof.
  induction l as [|x l IH]; intros H; cbn; [lia|].
  assert (IH' : (length (filter f l) <= length (filter h l))%nat) by (apply IH; intros; apply H; cbn; auto).
  destruct (f x) eqn:E; [rewrite (H x); cbn; auto; lia|]. destruct (h x); cbn; lia.
Qed.
Lemma filter_lt {A} (f h : A -> bool) l x : (forall x, In x l -> f x = true -> h x = true) ->
  In x l -> f x = false -> h x = true -> (length (filter f l) < length (filter h l))%nat.
Proof.
  intros H Hx Hf Hh. apply in_split in Hx. destruct Hx as (l1 & l2 & ->). rewrite !filter_app, !app_length. cbn.
  rewrite Hf, Hh. cbn.
  assert ((length (filter f l1) <= length (filter h l1))%nat) by (apply filter_le; intros; apply H; auto; apply in_or_app; auto).
  assert ((length (filter f l2) <= length (filter h l2))%nat) by (apply filter_le; intros; apply H; auto; apply in_or_app; cbn; auto).
  lia.
Qed.
Lemma ucount_bound g : (ucount g <= gn g * gn g)%nat.
Proof. unfold ucount. etransitivity; [apply filter_len|]. now rewrite cells_length. Qed.
Lemma ucount_dirg g a b : wf g -> undirected g a b -> (ucount (dirg g a b) < ucount g)%nat.
Proof.
  intros Hw Hu. pose proof Hu as (Ha & Hb & _ & _). unfold ucount. cbn [gn dirg].
  apply filter_lt with (x := (a, b)).
  - intros (r & c) Hin. apply in_cells in Hin. destruct Hin as [Hr Hc]. cbn [fst snd].
    rewrite !is_undirected_iff by (cbn; auto). intros K. apply dirg_undirected in K; tauto.
  - apply in_cells. auto.
  - cbn [fst snd]. apply not_true_is_false. rewrite is_undirected_iff by (cbn; auto). rewrite dirg_undirected by auto. tauto.
  - cbn [fst snd]. apply is_undirected_iff; auto.
Qed.

(* ---------- invariants through a round ---------- *)
Section Round.
Variable block : nat -> nat -> bool.
Variable g0 : ggraph.
Hypothesis Hw0 : wf g0.

Definition sinv (s : ggraph * bool) : Prop := wf (fst s) /\ only_orients g0 (fst s).

Lemma sinv_dirg s a b : sinv s -> undirected (fst s) a b -> sinv (dirg (fst s) a b, true).
Proof. intros [H1 H2] Hu. split; cbn; [now apply dirg_wf | now apply orients_dirg]. Qed.

(** Shape of a rule: it leaves the state or makes one permitted orientation its configuration calls for. *)
Definition fires (why : ggraph -> nat -> nat -> Prop) (s s' : ggraph * bool) : Prop :=
  s' = s \/
  exists a b, undirected (fst s) a b /\ why (fst s) a b /\ block a b = false /\
              is_ancestor_of (fst s) b a = false /\ s' = (dirg (fst s) a b, true).

Lemma adj_bounds i j : In (i, j) (find_adj g0) -> (i < gn g0)%nat /\ (j < gn g0)%nat.
Proof. rewrite in_adj. tauto. Qed.

Lemma fires_orient (why : ggraph -> nat -> nat -> Prop) s a b :
  wf (fst s) -> undirected (fst s) a b -> why (fst s) a b -> fires why s (orient block s a b).
Proof.
  intros Hw Hu Hy. destruct (orient_cases block s a b Hw Hu) as [[-> _]|(H1 & H2 & ->)]; [left; reflexivity|].
  right. exists a, b. auto.
Qed.

Lemma rule1_fires s t : sinv s -> In t (find_unshielded_triples g0) -> fires calls_for s (rule1 block s t).
Proof.
  intros [Hw Ho] Hin. destruct t as [[i j] k]. apply in_ut in Hin. destruct Hin as (H1 & H2 & H3 & H4).
  apply adj_bounds in H1, H2. destruct H1, H2. pose proof (proj1 Ho) as Hn.
  unfold rule1. destruct (is_fully_directed _ _ _ && _) eqn:E; [|left; reflexivity].
  apply andb_true_iff in E. destruct E as [E1 E2].
  apply is_directed_iff in E1; [|lia|lia]. apply is_undirected_iff in E2; [|lia|lia].
  apply fires_orient; auto. apply calls1 with (i := i); auto.
  eapply orients_zero; eauto; lia.
Qed.
Lemma tri_bounds i j k : In (i, j, k) (find_triangles g0) -> (i < gn g0)%nat /\ (j < gn g0)%nat /\ (k < gn g0)%nat.
Proof. rewrite in_tri, !in_adj. tauto. Qed.
Lemma rule2_fires s t : sinv s -> In t (find_triangles g0) -> fires calls_for s (rule2 block s t).
Proof.
  intros [Hw Ho] Hin. destruct t as [[i j] k]. apply tri_bounds in Hin. destruct Hin as (H1 & H2 & H3).
  pose proof (proj1 Ho) as Hn.
  unfold rule2. destruct (is_fully_directed (fst s) i j && _ && _) eqn:E; [|left; reflexivity].
  rewrite !andb_true_iff in E. destruct E as [[E1 E2] E3].
  apply is_directed_iff in E1; [|lia|lia]. apply is_directed_iff in E2; [|lia|lia]. apply is_undirected_iff in E3; [|lia|lia].
  apply fires_orient; auto. apply calls2 with (j := j); auto.
Qed.
Lemma rule3_fires s t : sinv s -> In t (find_kites g0) -> fires calls_for s (rule3 block s t).
Proof.
  intros [Hw Ho] Hin. destruct t as [[[i j] k] l]. apply in_kite in Hin. destruct Hin as (H1 & H2 & H3 & H4).
  apply tri_bounds in H1, H2. destruct H1 as (? & ? & ?), H2 as (_ & ? & _).
  pose proof (proj1 Ho) as Hn.
  unfold rule3. destruct (is_undirected (fst s) i j && _ && _ && _ && _) eqn:E; [|left; reflexivity].
  rewrite !andb_true_iff in E. destruct E as [[[[E1 E2] E3] E4] E5].
  apply is_undirected_iff in E1; [|lia|lia]. apply is_undirected_iff in E2; [|lia|lia].
  apply is_directed_iff in E3; [|lia|lia]. apply is_directed_iff in E4; [|lia|lia]. apply is_undirected_iff in E5; [|lia|lia].
  apply fires_orient; auto. apply calls3 with (j := j) (k := k); auto; [lia|].
  eapply orients_zero; eauto; lia.
Qed.

(** An invariant preserved by every permitted orientation survives a whole round. *)
Lemma fires_inv (why : ggraph -> nat -> nat -> Prop) (P : ggraph -> Prop) s s' :
  (forall g a b, wf g -> only_orients g0 g -> P g -> undirected g a b -> why g a b -> block a b = false ->
     is_ancestor_of g b a = false -> P (dirg g a b)) ->
  fires why s s' -> sinv s -> P (fst s) -> sinv s' /\ P (fst s').
Proof.
  intros HP [->|(a & b & Hu & Hy & Hb & Ha & ->)] Hs Hp; [auto|].
  split; [now apply sinv_dirg|]. cbn. apply HP; auto; apply Hs.
Qed.
Lemma round_inv (P : ggraph -> Prop) g :
  (forall g a b, wf g -> only_orients g0 g -> P g -> undirected g a b -> calls_for g a b -> block a b = false ->
     is_ancestor_of g b a = false -> P (dirg g a b)) ->
  wf g -> only_orients g0 g -> P g ->
  let s := meek_round block (find_unshielded_triples g0) (find_triangles g0) (find_kites g0) g in
  sinv s /\ P (fst s).
Proof.
  intros HP Hw Ho Hp. unfold meek_round. cbn zeta.
  apply (fold_left_inv (rule3 block) (fun s => sinv s /\ P (fst s))).
  - apply (fold_left_inv (rule2 block) (fun s => sinv s /\ P (fst s))).
    + apply (fold_left_inv (rule1 block) (fun s => sinv s /\ P (fst s))).
      * split; [split; auto|exact Hp].
      * intros s t Hin [Hs Hps]. eapply fires_inv; eauto. now apply rule1_fires.
    + intros s t Hin [Hs Hps]. eapply fires_inv; eauto. now apply rule2_fires.
  - intros s t Hin [Hs Hps]. eapply fires_inv; eauto. now apply rule3_fires.
Qed.

(** The flag: a round that reports progress has fewer undirected edges left; one that does not changed nothing. *)
Definition finv (g : ggraph) (s : ggraph * bool) : Prop :=
  (snd s = true -> (ucount (fst s) < ucount g)%nat) /\ (snd s = false -> fst s = g).
Lemma fires_flag why g s s' : wf (fst s) -> fires why s s' -> finv g s -> finv g s'.
Proof.
  intros Hw [->|(a & b & Hu & Hy & Hb & Ha & ->)] Hf; [exact Hf|].
  split; cbn [fst snd]; [intros _|discriminate]. pose proof (ucount_dirg _ _ _ Hw Hu).
  destruct Hf as [F1 F2]. destruct (snd s); [specialize (F1 eq_refl); lia|].
  rewrite F2 in H |- * by reflexivity. exact H.
Qed.
Lemma fires_sinv why s s' : sinv s -> fires why s s' -> sinv s'.
Proof. intros Hs [->|(a & b & Hu & _ & _ & _ & ->)]; [exact Hs|now apply sinv_dirg]. Qed.
Lemma round_flag g : wf g -> only_orients g0 g ->
  finv g (meek_round block (find_unshielded_triples g0) (find_triangles g0) (find_kites g0) g).
Proof.
  intros Hw Ho. unfold meek_round.
  apply (fold_left_inv (rule3 block) (fun s => sinv s /\ finv g s)).
  - apply (fold_left_inv (rule2 block) (fun s => sinv s /\ finv g s)).
    + apply (fold_left_inv (rule1 block) (fun s => sinv s /\ finv g s)).
      * split; [split; auto|split; cbn; auto; discriminate].
      * intros s t Hin [Hs Hf]. pose proof (rule1_fires _ _ Hs Hin). split; [eapply fires_sinv; eauto|]. eapply fires_flag; eauto. apply Hs.
    + intros s t Hin [Hs Hf]. pose proof (rule2_fires _ _ Hs Hin). split; [eapply fires_sinv; eauto|]. eapply fires_flag; eauto. apply Hs.
  - intros s t Hin [Hs Hf]. pose proof (rule3_fires _ _ Hs Hin). split; [eapply fires_sinv; eauto|]. eapply fires_flag; eauto. apply Hs.
Qed.

(** If a round reports no progress, no rule application in it changed the state. *)
Lemma fold_quiet {A} (r : ggraph * bool -> A -> ggraph * bool) (l : list A) : 
  (forall s t, snd s = true -> snd (r s t) = true) ->
  (forall s t, snd (r s t) = false -> r s t = s) ->
  forall s, snd (fold_left r l s) = false -> fold_left r l s = s /\ forall t, In t l -> r s t = s.
Proof.
  intros Hm Hq. induction l as [|x l IH]; intros s Hf; [split; [reflexivity|intros ? []]|].
  cbn in *. destruct (snd (r s x)) eqn:E.
  - exfalso. assert (K : forall l s', snd s' = true -> snd (fold_left r l s') = true).
    { clear -Hm. induction l as [|y l IH2]; intros s' Hs; cbn; [exact Hs|]. apply IH2. now apply Hm. }
    rewrite K in Hf; congruence.
  - pose proof (Hq s x E) as Ex. rewrite Ex in Hf |- *.
    destruct (IH s) as [I1 I2]; auto. split; [exact I1|]. intros t [->|Ht]; [exact Ex|auto].
Qed.
Lemma orient_flag s a b : snd s = true -> snd (orient block s a b) = true.
Proof.
  intros H. unfold orient. destruct (block a b); [exact H|]. destruct (get_edge _ _ _) as [[e|]|]; auto.
  destruct (is_ancestor_of _ _ _); auto.
Qed.
Lemma orient_quiet s a b : snd (orient block s a b) = false -> orient block s a b = s.
Proof.
  unfold orient. destruct (block a b); [reflexivity|]. destruct (get_edge _ _ _) as [[e|]|]; auto.
  destruct (is_ancestor_of _ _ _); [reflexivity|]. discriminate.
Qed.
Lemma rule1_flag s t : snd s = true -> snd (rule1 block s t) = true.
Proof. intros H. destruct t as [[i j] k]. cbn. destruct (_ && _); [now apply orient_flag|exact H]. Qed.
Lemma rule1_quiet s t : snd (rule1 block s t) = false -> rule1 block s t = s.
Proof. destruct t as [[i j] k]. cbn. destruct (_ && _); [apply orient_quiet|reflexivity]. Qed.
Lemma rule2_flag s t : snd s = true -> snd (rule2 block s t) = true.
Proof. intros H. destruct t as [[i j] k]. cbn. destruct (_ && _); [now apply orient_flag|exact H]. Qed.
Lemma rule2_quiet s t : snd (rule2 block s t) = false -> rule2 block s t = s.
Proof. destruct t as [[i j] k]. cbn. destruct (_ && _); [apply orient_quiet|reflexivity]. Qed.
Lemma rule3_flag s t : snd s = true -> snd (rule3 block s t) = true.
Proof. intros H. destruct t as [[[i j] k] l]. cbn. destruct (_ && _); [now apply orient_flag|exact H]. Qed.
Lemma rule3_quiet s t : snd (rule3 block s t) = false -> rule3 block s t = s.
Proof. destruct t as [[[i j] k] l]. cbn. destruct (_ && _); [apply orient_quiet|reflexivity]. Qed.

Lemma round_quiet UT Tri Kite g g' : meek_round block UT Tri Kite g = (g', false) ->
  g' = g /\ (forall t, In t UT -> rule1 block (g, false) t = (g, false)) /\
  (forall t, In t Tri -> rule2 block (g, false) t = (g, false)) /\
  (forall t, In t Kite -> rule3 block (g, false) t = (g, false)).
Proof.
  unfold meek_round. intros E.
  set (s1 := fold_left (rule1 block) UT (g, false)) in *.
  set (s2 := fold_left (rule2 block) Tri s1) in *.
  destruct (fold_quiet (rule3 block) Kite (rule3_flag) (rule3_quiet) s2) as [Q3 R3].
  { now rewrite E. }
  rewrite Q3 in E. assert (F2 : snd s2 = false) by now rewrite E. unfold s2 in F2, E, R3.
  destruct (fold_quiet (rule2 block) Tri (rule2_flag) (rule2_quiet) s1) as [Q2 R2].
  { exact F2. }
  rewrite Q2 in E, R3. assert (F1 : snd s1 = false) by now rewrite E. unfold s1 in F1, E, R3, R2.
  destruct (fold_quiet (rule1 block) UT (rule1_flag) (rule1_quiet) (g, false)) as [Q1 R1].
  { exact F1. }
  rewrite Q1 in E, R2, R3. injection E as <-. auto.
Qed.
Lemma orient_blocked g a b f : wf g -> undirected g a b -> orient block (g, f) a b = (g, f) ->
  block a b = true \/ is_ancestor_of g b a = true.
Proof.
  intros Hw Hu E. destruct (orient_cases block (g, f) a b Hw Hu) as [[_ H]|(_ & _ & H)]; [exact H|].
  rewrite E in H. injection H as H1 _. cbn in H1. exfalso.
  pose proof (ucount_dirg _ _ _ Hw Hu). rewrite <- H1 in H. lia.
Qed.

(** Loop: invariants, termination and the situation at exit. *)
Lemma loop_inv (P : ggraph -> Prop) fuel : forall g g',
  (forall g a b, wf g -> only_orients g0 g -> P g -> undirected g a b -> calls_for g a b -> block a b = false ->
     is_ancestor_of g b a = false -> P (dirg g a b)) ->
  wf g -> only_orients g0 g -> P g ->
  meek_loop block fuel (find_unshielded_triples g0) (find_triangles g0) (find_kites g0) g = Some g' ->
  wf g' /\ only_orients g0 g' /\ P g' /\
  meek_round block (find_unshielded_triples g0) (find_triangles g0) (find_kites g0) g' = (g', false).
Proof.
  induction fuel as [|f IH]; intros g g' HP Hw Ho Hp E; [discriminate|]. cbn in E.
  pose proof (round_inv P g HP Hw Ho Hp) as HR. cbn zeta in HR.
  destruct (meek_round block _ _ _ g) as [g1 lp] eqn:ER. destruct HR as [[H1 H2] H3]. cbn in H1, H2, H3.
  destruct lp; [now apply (IH g1)|].
  injection E as <-. pose proof (round_quiet _ _ _ _ _ ER) as [-> _]. auto.
Qed.
Lemma loop_total fuel : forall g, wf g -> only_orients g0 g -> (ucount g < fuel)%nat ->
  exists g', meek_loop block fuel (find_unshielded_triples g0) (find_triangles g0) (find_kites g0) g = Some g'.
Proof.
  induction fuel as [|f IH]; intros g Hw Ho Hf; [lia|]. cbn.
  pose proof (round_flag g Hw Ho) as [F1 F2].
  pose proof (round_inv (fun _ => True) g (fun _ _ _ _ _ _ _ _ _ _ => I) Hw Ho I) as HR. cbn zeta in HR.
  destruct (meek_round block _ _ _ g) as [g1 lp]. destruct HR as [[H1 H2] _]. cbn in *.
  destruct lp; [|eauto]. apply IH; auto. specialize (F1 eq_refl). lia.
Qed.
End Round.

(** Any orientation a rule configuration calls for is present in every consistent extension. *)
Lemma dag_dedge D a b : dag D -> dedge D a b <-> directed D a b.
Proof.
  intros [Hw [Ha Hd]]. unfold directed. split.
  - intros (H1 & H2 & [[H3 H4]|[H3 H4]]); [auto|]. destruct (Hd a b H1 H2); lia.
  - intros (H1 & H2 & H3 & H4). split; [exact H1|]. split; [exact H2|]. auto.
Qed.
Lemma ext_joined_dir g D a b : wf g -> extension g D -> (a < gn g)%nat -> (b < gn g)%nat -> gm g a b <> 0 ->
  directed D a b \/ directed D b a.
Proof.
  intros Hw (Hn & Hdag & Hj & _ & _) Ha Hb E. assert (J : joined D a b) by (apply Hj; split; auto).
  destruct J as (H1 & H2 & H3). destruct Hdag as (_ & _ & Hd).
  destruct (Hd a b H1 H2 H3) as [[]|[]]; [left|right]; unfold directed; auto.
Qed.
Lemma dag_no_cycle2 D a b : dag D -> directed D a b -> directed D b a -> False.
Proof. intros _ (_ & _ & H1 & _) (_ & _ & _ & H2). lia. Qed.
Lemma dag_no_cycle3 D a b c : dag D -> directed D a b -> directed D b c -> directed D c a -> False.
Proof.
  intros Hd H1 H2 H3. rewrite <- dag_dedge in H1, H2, H3 by exact Hd. destruct Hd as (_ & Ha & _).
  apply (Ha a). exists b. split; [exact H1|]. eapply reach_step; [exact H2|]. now apply reach_one.
Qed.

Lemma calls_sound g0 g D a b : wf g0 -> wf g -> only_orients g0 g -> extension g0 D ->
  (forall x y, directed g x y -> directed D x y) ->
  calls_for g a b -> directed D a b.
Proof.
  intros Hw0 Hw Ho HX Hk Hc.
  pose proof HX as (Hn & Hdag & Hj & Hd & Hu).
  assert (Hsk : forall x y, undirected g x y -> directed D x y \/ directed D y x).
  { intros x y Hxy. pose proof (orients_undirected _ _ _ _ Ho Hxy) as (Hx & Hy & E1 & E2).
    apply ext_joined_dir with (g := g0); auto. lia. }
  assert (Hncol : forall x y z, undirected g x y -> directed D x y -> directed D z y -> x <> z ->
     gm g x z = 0 \/ gm g z x = 0 -> False).
  { intros x y z Hxy D1 D2 Hne Hz.
    assert (K : ucollider D x y z).
    { destruct D1 as (X1 & X2 & X3 & X4), D2 as (X5 & X6 & X7 & X8).
      unfold ucollider. repeat (split; [first [assumption|lia]|]).
      destruct (Z.eq_dec (gm D x z) 0) as [|N]; [assumption|]. exfalso.
      assert (J : joined D x z) by (split; auto).
      apply Hj in J. destruct J as (J1 & J2 & J3).
      destruct Ho as [HnO Ho]. destruct (Ho x z J1 J2) as [[K1 K2]|[(_ & _ & K1 & K2) _]].
      - destruct Hw0 as [_ Hl]. specialize (Hl x z J1 J2).
        destruct Hz as [Hz|Hz]; [congruence|]. rewrite K2 in Hz. rewrite Hz in Hl.
        apply J3. clear -Hl. unfold legal_pair, legal_pairs in Hl. cbn in Hl. intuition congruence.
      - destruct (Ho x z J1 J2) as [[K3 K4]|[_ [K|K]]].
        + lia.
        + destruct K as (_ & _ & K3 & K4). lia.
        + destruct K as (_ & _ & K3 & K4). lia. }
    apply Hu in K. destruct K as (_ & _ & _ & _ & K & _). pose proof (orients_undirected _ _ _ _ Ho Hxy) as (_ & _ & E1 & E2). lia. }
  destruct Hc as [i a b Hia Hab Hib Hne | a j b Haj Hjb Hab | a j k b Haj Hak Hjb Hkb Hab Hne Hjk].
  - destruct (Hsk _ _ Hab) as [|Hba]; [assumption|]. exfalso.
    apply (Hncol b a i); auto. now apply undirected_sym.
  - destruct (Hsk _ _ Hab) as [|Hba]; [assumption|]. exfalso.
    apply (dag_no_cycle3 D a j b); auto.
  - destruct (Hsk _ _ Hab) as [|Hba]; [assumption|]. exfalso.
    assert (Dj : directed D j a).
    { destruct (Hsk _ _ Haj); [|assumption]. exfalso. apply (dag_no_cycle3 D a j b); auto. }
    assert (Dk : directed D k a).
    { destruct (Hsk _ _ Hak); [|assumption]. exfalso. apply (dag_no_cycle3 D a k b); auto. }
    apply (Hncol j a k); auto. now apply undirected_sym.
Qed.
