(** C179 Dag.subgraph, C180 Dag.dag2pag. *)
From Verif Require Import Base EdgeModel EdgeProofs GraphModel GraphSpec GraphProofs NamedModel NamedProofs NamedProps UtilsModel UtilsProofs DsepSpec DsepProofs CheckLib DconnLib DagMoreModel.
Local Open Scope Z_scope.

(* ---------- C179 ---------- *)
Lemma del_length i k k' : del_at i k = Ok k' -> S (length k') = length k.
Proof. unfold del_at. destruct (Nat.ltb_spec i (length k)); [|discriminate]. intros Q. assert (Q' : firstn i k ++ skipn (S i) k = k') by congruence. rewrite <- Q'. rewrite app_length, firstn_length, skipn_length. lia. Qed.
Lemma sub_rows_shrink G l is : forall k k', fold_left (fun acc i => res_bind acc (fun k => if memb (nth i (nodes G) 0%nat) l then Ok k else del_at i k)) is (Ok k) = Ok k' ->
  (length k' <= length k)%nat /\ ((exists i, In i is /\ memb (nth i (nodes G) 0%nat) l = false) -> (length k' < length k)%nat).
Proof.
  induction is as [|i is IH]; intros k k'; cbn [fold_left res_bind].
  - intros [= <-]. split; [lia|]. intros (? & [] & _).
  - destruct (memb (nth i (nodes G) 0%nat) l) eqn:M.
    + intros H. destruct (IH _ _ H) as [H1 H2]. split; [exact H1|]. intros (j & [<-|Hj] & E); [congruence|]. apply H2. eauto.
    + destruct (del_at i k) as [k1|] eqn:E.
      * intros H. destruct (IH _ _ H) as [H1 _]. apply del_length in E. split; [lia|]. intros _. lia.
      * rewrite fold_res_absorb; [discriminate|reflexivity].
Qed.

(** Removing the last node together with any other node always raises. *)
Theorem C179_last_and_another_refuted : forall G l v u i, api_graph G -> nth_error (nodes G) i = Some u -> nth_error (nodes G) (length (nodes G) - 1) = Some v ->
  (i < length (nodes G) - 1)%nat -> ~ In u l -> ~ In v l -> dag_subgraph G l = Raise.
Proof.
  intros G l v u i [HC HW] Hu Hv Hi Nu Nv. unfold dag_subgraph. assert (E : dag_sub_rows G l = Raise); [|now rewrite E].
  unfold dag_sub_rows. destruct HC as (_ & Hn & _). rewrite Hn. set (n := length (nodes G)) in *.
  assert (Sq : seq 0 n = seq 0 (n - 1) ++ [(n - 1)%nat]) by (replace n with (S (n - 1)) at 1 by lia; rewrite seq_S; reflexivity).
  rewrite Sq at 1. rewrite fold_left_app. cbn [fold_left].
  destruct (fold_left _ (seq 0 (n - 1)) _) as [k|] eqn:F; [|reflexivity]. cbn [res_bind].
  rewrite (nth_error_nth _ _ _ Hv). destruct (memb v l) eqn:M; [apply memb_In in M; contradiction|].
  apply sub_rows_shrink in F. destruct F as [_ F]. rewrite seq_length in F.
  unfold del_at. destruct (Nat.ltb_spec (n - 1) (length k)); [|reflexivity]. exfalso.
  assert (length k < n)%nat; [|lia]. apply F. exists i. split; [apply in_seq; lia|]. rewrite (nth_error_nth _ _ _ Hu). now apply memb_not_In.
Qed.

(** Chain 10 --> 11 --> 12 --> 13: removing the first two nodes does not fail, but 12 and 13 are no longer joined. *)
Definition exChain : ngraph :=
  mkNG [10; 11; 12; 13]%nat (enumerate_map [10; 11; 12; 13]%nat) (graph_of 4 [dir 0 1; dir 1 2; dir 2 3]).
Theorem C179_wrong_edges_refuted : dag_get_edge exChain 12 13 = Ok (Some (Edge 12 13 TAIL ARROW)) /\
  exists T, dag_subgraph exChain [12; 13]%nat = Ok T /\ nodes T = [12; 13]%nat /\ dag_get_edge T 12 13 = Ok None.
Proof. split; [reflexivity|]. eexists. split; [reflexivity|]. split; reflexivity. Qed.


Lemma rows_all G l is : forall k, (forall i, In i is -> memb (nth i (nodes G) 0%nat) l = true) ->
  fold_left (fun acc i => res_bind acc (fun k => if memb (nth i (nodes G) 0%nat) l then Ok k else del_at i k)) is (Ok k) = Ok k.
Proof. induction is as [|i is IH]; intros k H; cbn [fold_left res_bind]; [reflexivity|]. rewrite (H i (or_introl eq_refl)). apply IH. intros; apply H; now right. Qed.
Lemma seq_cut n i : (i < n)%nat -> seq 0 n = seq 0 i ++ i :: seq (S i) (n - S i).
Proof. intros H. replace n with (i + S (n - S i))%nat at 1 by lia. rewrite seq_app. reflexivity. Qed.
Lemma del_seq n i : (i < n)%nat -> del_at i (seq 0 n) = Ok (seq 0 i ++ seq (S i) (n - S i)).
Proof.
  intros H. unfold del_at. rewrite seq_length. destruct (Nat.ltb_spec i n); [|lia]. rewrite (seq_cut n i H).
  rewrite firstn_app, skipn_app, seq_length, firstn_all2, skipn_all2 by (rewrite seq_length; lia).
  rewrite Nat.sub_diag. replace (S i - i)%nat with 1%nat by lia. cbn [firstn skipn app]. now rewrite app_nil_r.
Qed.
Lemma filter_all {A} (f : A -> bool) l : (forall x, In x l -> f x = true) -> filter f l = l.
Proof. induction l as [|a l IH]; intros H; cbn; [reflexivity|]. rewrite (H a (or_introl eq_refl)), IH; [reflexivity|]. intros; apply H; now right. Qed.
Lemma filter_length_iff {A} (f : A -> bool) l : (length (filter f l) <= length l)%nat.
Proof. induction l as [|a l IH]; cbn; [lia|]. destruct (f a); cbn; lia. Qed.
(** A filter that drops at most one element. *)
Lemma filter_one {A} (f : A -> bool) l : (length l <= S (length (filter f l)))%nat ->
  (forall x, In x l -> f x = true) \/ exists l1 x l2, l = l1 ++ x :: l2 /\ f x = false /\ (forall y, In y l1 \/ In y l2 -> f y = true).
Proof.
  induction l as [|a l IH]; cbn; intros H; [left; intros ? []|]. destruct (f a) eqn:E; cbn in H.
  - destruct IH as [IH|(l1 & x & l2 & -> & Ex & IH)]; [lia| |].
    + left. intros x [<-|Hx]; auto.
    + right. exists (a :: l1), x, l2. split; [reflexivity|]. split; [exact Ex|]. intros y [[<-|Hy]|Hy]; auto.
  - right. exists [], a, l. split; [reflexivity|]. split; [exact E|].
    assert (F : forall (l : list A), (length l <= length (filter f l))%nat -> forall y, In y l -> f y = true).
    { clear. induction l as [|a l IH]; cbn; [intros _ y []|]. destruct (f a) eqn:E; cbn.
      - intros H y [<-|Hy]; [exact E|]. apply IH; [lia|exact Hy].
      - intros H. pose proof (filter_length_iff f l). lia. }
    intros y [[]|Hy]. apply (F l); [lia|exact Hy].
Qed.
Lemma memb_existsb x l : memb x l = existsb (Nat.eqb x) l.
Proof. reflexivity. Qed.
Lemma filter_map_nth (f : nat -> bool) (ns : list nat) : length (filter (fun i => f (nth i ns 0%nat)) (seq 0 (length ns))) = length (filter f ns).
Proof.
  transitivity (length (filter f (map (fun i => nth i ns 0%nat) (seq 0 (length ns))))); [|now rewrite map_nth_seq]. generalize (seq 0 (length ns)). intros s. induction s as [|x s IH]; cbn; [reflexivity|]. destruct (f (nth x ns 0%nat)); cbn; now rewrite IH.
Qed.
Lemma rows_kept G l : gn (ng G) = length (nodes G) -> (length (nodes G) <= S (length (filter (fun v => memb v l) (nodes G))))%nat -> dag_sub_rows G l = Ok (kept G l).
Proof.
  intros Hn H. unfold dag_sub_rows, kept. rewrite Hn. rewrite <- filter_map_nth in H. rewrite <- (seq_length (length (nodes G)) 0) in H at 1.
  apply filter_one in H. destruct H as [H|(l1 & x & l2 & E & Ex & H)].
  - rewrite rows_all by exact H. rewrite filter_all; [reflexivity|exact H].
  - assert (L : (x < length (nodes G))%nat). { assert (In x (seq 0 (length (nodes G)))) by (rewrite E; apply in_elt). now apply in_seq0 in H0. }
    assert (E' := seq_cut _ _ L). assert (E1 : l1 = seq 0 x /\ l2 = seq (S x) (length (nodes G) - S x)).
    { rewrite E in E'. assert (N : NoDup (l1 ++ x :: l2)) by (rewrite <- E; apply seq_NoDup). clear - E' N.
      assert (T : forall (a b c d : list nat) x, a ++ x :: b = c ++ x :: d -> ~ In x a -> ~ In x c -> a = c /\ b = d).
      { clear. induction a as [|y a IH]; intros b [|z c] d x E Na Nc; cbn in E, Na, Nc.
        - injection E as E. auto.
        - injection E as -> _. exfalso. tauto.
        - injection E as -> _. exfalso. tauto.
        - injection E as -> E. destruct (IH b c d x E ltac:(tauto) ltac:(tauto)) as [-> ->]. auto. }
      apply T in E'; [exact E'| |].
      - intros I. apply NoDup_remove_2 in N. apply N. apply in_or_app. now left.
      - intros I. apply in_seq in I. lia. }
    destruct E1 as [-> ->]. rewrite E' at 1 3. rewrite fold_left_app. rewrite rows_all by (intros; apply H; now left). cbn [fold_left res_bind]. rewrite Ex.
    rewrite (del_seq _ _ L). rewrite rows_all by (intros; apply H; now right). f_equal.
    rewrite filter_app. cbn [filter]. rewrite <- memb_existsb, Ex. rewrite !filter_all; [reflexivity| |]; intros; apply H; auto.
Qed.

Lemma legal_zero x y : legal_pair x y -> (x = 0 <-> y = 0) /\ (exists a, endpoint_of x = Ok a) /\ exists b, endpoint_of y = Ok b.
Proof. unfold legal_pair, legal_pairs. cbn [In]. intros H. repeat destruct H as [[= <- <-]|H]; try (split; [lia|split; eexists; reflexivity]). destruct H. Qed.
Lemma dag_get_legal G a b : (forall i j, (i < gn (ng G))%nat -> (j < gn (ng G))%nat -> legal_pair (gm (ng G) i j) (gm (ng G) j i)) -> dag_get_edge G a b = nget_edge G a b.
Proof.
  intros HL. unfold dag_get_edge, nget_edge. destruct (dget (node_map G) a) as [i|]; [|reflexivity]. destruct (dget (node_map G) b) as [j|]; [|reflexivity].
  unfold rd. destruct (Nat.ltb_spec i (gn (ng G))), (Nat.ltb_spec j (gn (ng G))); cbn [andb res_bind]; try reflexivity.
  destruct (legal_zero _ _ (HL i j ltac:(assumption) ltac:(assumption))) as [Z _].
  destruct (Z.eqb_spec (gm (ng G) i j) 0) as [E|E]; [|reflexivity]. rewrite (proj1 Z E). reflexivity.
Qed.
Lemma dag_edges_ok G : consistent G -> (forall i j, (i < gn (ng G))%nat -> (j < gn (ng G))%nat -> legal_pair (gm (ng G) i j) (gm (ng G) j i)) ->
  exists es, dag_graph_edges G = Ok es /\ forall e, In e es -> In (e_node1 e) (nodes G) /\ In (e_node2 e) (nodes G).
Proof.
  intros HC HL. unfold dag_graph_edges.
  apply (fold_left_inv _ (fun r => exists es, r = Ok es /\ forall e, In e es -> In (e_node1 e) (nodes G) /\ In (e_node2 e) (nodes G))); [exists []; split; [reflexivity|intros ? []]|].
  intros r0 i Hi H0. apply in_seq0 in Hi.
  apply (fold_left_inv _ (fun r => exists es, r = Ok es /\ forall e, In e es -> In (e_node1 e) (nodes G) /\ In (e_node2 e) (nodes G))); [exact H0|].
  intros r j Hj (es & -> & H). apply in_seq in Hj. cbn [res_bind]. destruct (gm (ng G) j i =? 0) eqn:E; [eauto|].
  assert (Ni : nth_error (nodes G) i = Some (nth i (nodes G) 0%nat)) by (apply nth_error_nth'; destruct HC as (_ & <- & _); lia).
  assert (Nj : nth_error (nodes G) j = Some (nth j (nodes G) 0%nat)) by (apply nth_error_nth'; destruct HC as (_ & <- & _); lia).
  rewrite (dag_get_legal G _ _ HL), (nget_edge_idx G _ _ i j HC Ni Nj). destruct (legal_zero _ _ (HL i j ltac:(lia) ltac:(lia))) as (Zz & (a & Ea) & b & Eb).
  destruct (Z.eqb_spec (gm (ng G) i j) 0) as [Z|Z]; [apply Zz in Z; rewrite Z in E; discriminate|]. rewrite Ea, Eb. cbn [res_bind].
  eexists. split; [reflexivity|]. intros e He. apply in_app_or in He. destruct He as [He|[<-|[]]]; [auto|].
  apply nth_error_In in Ni, Nj. unfold Edge. destruct (pointing_left a b); cbn; auto.
Qed.
Lemma dag_recon_ok G es : consistent G -> (forall e, In e es -> In (e_node1 e) (nodes G) /\ In (e_node2 e) (nodes G)) ->
  exists d, dag_reconstitute G es = Ok (mkNG (nodes G) (node_map G) (mkG (gn (ng G)) (gm (ng G)) d)).
Proof.
  intros HC HE. unfold dag_reconstitute.
  enough (H : forall d0, exists d, fold_left (fun acc e => res_bind acc (fun d => match dget (node_map G) (e_node1 e), dget (node_map G) (e_node2 e) with
      | Some i, Some j => Ok (adjust_dpath (gn (ng G)) d i j) | _, _ => Raise end)) (rev es) (Ok d0) = Ok d).
  { destruct (H (fold_left (fun d i => adjust_dpath (gn (ng G)) d i i) (seq 0 (gn (ng G))) (gd (ng G)))) as (d & E). rewrite E. exists d. reflexivity. }
  assert (HR : forall e, In e (rev es) -> In (e_node1 e) (nodes G) /\ In (e_node2 e) (nodes G)) by (intros e He; apply HE; now apply in_rev).
  revert HR. generalize (rev es) as r. induction r as [|e r IH]; intros HR d0; cbn [fold_left res_bind]; [eauto|].
  destruct (HR e (or_introl eq_refl)) as [I J]. destruct (consistent_in G _ HC I) as (i & -> & _), (consistent_in G _ HC J) as (j & -> & _). apply IH. intros; apply HR; now right.
Qed.

(** With the nodes in the graph's own order and at most one node left out, the subgraph has exactly the edges between the nodes. *)
Theorem C179_one_node_removed_partial : forall G l, api_graph G -> l = filter (fun v => existsb (Nat.eqb v) l) (nodes G) -> (length (nodes G) <= S (length l))%nat ->
  exists T, dag_subgraph G l = Ok T /\ nodes T = l /\ consistent T /\ forall a b, In a l -> In b l -> dag_get_edge T a b = dag_get_edge G a b.
Proof.
  intros G l HG Hl Hlen. destruct (C42_subgraph_in_order_partial G l HG Hl) as (_ & HS & HE). destruct HG as [HC HW].
  assert (RK : dag_sub_rows G l = Ok (kept G l)). { apply rows_kept; [apply HC|]. change (fun v => memb v l) with (fun v => existsb (Nat.eqb v) l). rewrite <- Hl. exact Hlen. }
  unfold dag_subgraph. rewrite RK. cbn [res_bind]. set (T := mkNG _ _ _).
  assert (CT : consistent T). { destruct HS as (H1 & H2 & H3). split; [exact H1|]. split; [exact H2|exact H3]. }
  assert (LK : length (kept G l) = length l). { unfold kept. destruct HC as (_ & -> & _). rewrite (filter_map_nth (fun v => existsb (Nat.eqb v) l)). now rewrite <- Hl. }
  assert (LT : forall i j, (i < gn (ng T))%nat -> (j < gn (ng T))%nat -> legal_pair (gm (ng T) i j) (gm (ng T) j i)).
  { intros i j Hi Hj. cbn in Hi, Hj |- *. apply HW.
    - rewrite <- LK in Hi. apply (nth_In _ 0%nat) in Hi. unfold kept in Hi at 2. apply filter_In in Hi. destruct Hi as [Hi _]. now apply in_seq0 in Hi.
    - rewrite <- LK in Hj. apply (nth_In _ 0%nat) in Hj. unfold kept in Hj at 2. apply filter_In in Hj. destruct Hj as [Hj _]. now apply in_seq0 in Hj. }
  destruct (dag_edges_ok T CT LT) as (es & E & HEs). rewrite E. cbn [res_bind]. destruct (dag_recon_ok T es CT HEs) as (d & ->).
  eexists. split; [reflexivity|]. split; [reflexivity|]. split; [destruct CT as (H1 & H2 & H3); split; [exact H1|]; split; [exact H2|exact H3]|].
  intros a b Ha Hb. rewrite (dag_get_legal G) by apply HW. rewrite <- (HE a b Ha Hb).
  transitivity (dag_get_edge T a b); [reflexivity|]. rewrite (dag_get_legal T a b LT). reflexivity.
Qed.
Example C179_nonvacuous : api_graph exChain /\ [10; 12; 13]%nat = filter (fun v => existsb (Nat.eqb v) [10; 12; 13]%nat) (nodes exChain).
Proof.
  split; [|reflexivity]. split; [split; [|split; reflexivity]|].
  - cbn. repeat constructor; cbn; lia.
  - eapply (proj1 (A := wf _)). apply (dagb_sound (fun v => v)). reflexivity.
Qed.

(* ---------- C180 ---------- *)
Lemma upd_id m i j v a b : upd m i j v a b = if (Nat.eqb a i && Nat.eqb b j)%bool then v else m a b.
Proof. reflexivity. Qed.
Lemma add_edge_other g e x y : ~ (e_node1 e = x /\ e_node2 e = y) -> ~ (e_node1 e = y /\ e_node2 e = x) -> gm (add_edge g e) x y = gm g x y.
Proof.
  intros N1 N2. unfold add_edge, add_edge_full.
  assert (U : forall a b, upd2 (gm g) (e_node1 e) (e_node2 e) a b x y = gm g x y).
  { intros a b. unfold upd2. rewrite !upd_id. destruct (Nat.eqb_spec x (e_node1 e)), (Nat.eqb_spec y (e_node2 e)), (Nat.eqb_spec x (e_node2 e)), (Nat.eqb_spec y (e_node1 e)); cbn; subst; try reflexivity; exfalso; tauto. }
  assert (V : forall a b, upd (upd (gm g) (e_node2 e) (e_node1 e) a) (e_node1 e) (e_node2 e) b x y = gm g x y).
  { intros a b. rewrite !upd_id. destruct (Nat.eqb_spec x (e_node1 e)), (Nat.eqb_spec y (e_node2 e)), (Nat.eqb_spec x (e_node2 e)), (Nat.eqb_spec y (e_node1 e)); cbn; subst; try reflexivity; exfalso; tauto. }
  destruct (e_end1 e), (e_end2 e);
    repeat match goal with |- context[if ?c then _ else _] => lazymatch c with context[if _ then _ else _] => fail | _ => destruct c end end; cbn [fst gm set_gm]; try reflexivity; first [apply U|apply V].
Qed.
Lemma pairs2_in l a b : In (a, b) (pairs2 l) -> In a l /\ In b l.
Proof. induction l as [|c l IH]; cbn; [tauto|]. intros H. apply in_app_or in H. destruct H as [H|H]; [apply in_map_iff in H; destruct H as (d & [= -> ->] & H); auto|]. destruct (IH H). auto. Qed.
Lemma pairs2_all l a b : In a l -> In b l -> a <> b -> In (a, b) (pairs2 l) \/ In (b, a) (pairs2 l).
Proof.
  induction l as [|c l IH]; cbn; [tauto|]. intros [->|Ha] [->|Hb] N; try congruence.
  - left. apply in_or_app. left. apply in_map_iff. eauto.
  - right. apply in_or_app. left. apply in_map_iff. eauto.
  - destruct (IH Ha Hb N); [left|right]; apply in_or_app; auto.
Qed.
Lemma edge_ends a b p q : (e_node1 (Edge a b p q) = a /\ e_node2 (Edge a b p q) = b) \/ (e_node1 (Edge a b p q) = b /\ e_node2 (Edge a b p q) = a).
Proof. unfold Edge. destruct (pointing_left p q); cbn; auto. Qed.
Lemma add_edge_off g a b p q x y : ~ (a = x /\ b = y) -> ~ (a = y /\ b = x) -> gm (add_edge g (Edge a b p q)) x y = gm g x y.
Proof. intros N1 N2. apply add_edge_other; intros [H1 H2]; destruct (edge_ends a b p q) as [[E1 E2]|[E1 E2]]; rewrite E1, E2 in *; subst; tauto. Qed.
Lemma dag_dget D i j : dag D -> (i < gn D)%nat -> (j < gn D)%nat -> dget_edge D i j = get_edge D i j.
Proof.
  intros HD Hi Hj. unfold dget_edge, get_edge. destruct (legal_zero _ _ (proj2 (proj1 HD) i j Hi Hj)) as [Z _].
  destruct (Z.eqb_spec (gm D i j) 0) as [E|E]; [rewrite (proj1 Z E)|]; reflexivity.
Qed.
Lemma parents_in D u p : In p (dag_parents D u) <-> (p < gn D)%nat /\ gm D u p = 1.
Proof. unfold dag_parents. rewrite filter_In, in_seq0, Z.eqb_eq. tauto. Qed.
Lemma children_in D u c : In c (dag_children D u) <-> (c < gn D)%nat /\ gm D c u = 1.
Proof. unfold dag_children. rewrite filter_In, in_seq0, Z.eqb_eq. tauto. Qed.
Lemma dag_arrow D u p : dag D -> (u < gn D)%nat -> (p < gn D)%nat -> gm D u p = 1 -> dedge D p u.
Proof. intros HD Hu Hp E. destruct HD as (_ & _ & H). specialize (H u p Hu Hp ltac:(lia)). unfold dedge. destruct H as [[H _]|[_ H]]; [lia|]. auto. Qed.

(** Two observed nodes that are not adjacent, and that no unobserved node connects directly, make the method raise.  In particular it raises
    on every DAG that is not complete when all nodes are observed. *)
Theorem C180_raises_refuted : forall D obs x y, dag D -> In x obs -> In y obs -> x <> y -> (x < gn D)%nat -> (y < gn D)%nat -> ~ adjacent D x y ->
  (forall w, (w < gn D)%nat -> ~ In w obs -> ~ (dedge D w x /\ dedge D w y) /\ ~ (dedge D x w /\ dedge D w y) /\ ~ (dedge D y w /\ dedge D w x)) ->
  dag_dag2pag D obs = Raise.
Proof.
  intros D obs x y HD Ix Iy N Hx Hy NA HW. unfold dag_dag2pag.
  assert (Z0 : gm D x y = 0 /\ gm D y x = 0).
  { destruct (legal_zero _ _ (proj2 (proj1 HD) x y Hx Hy)) as [Z _]. destruct (Z.eq_dec (gm D x y) 0) as [E|E]; [tauto|]. exfalso. apply NA. destruct HD as (_ & _ & H). unfold adjacent, dedge. destruct (H x y Hx Hy E) as [[H1 H2]|[H1 H2]]; [left|right]; auto. }
  set (I := fun G : ggraph => gm G x y = 0 /\ gm G y x = 0).
  destruct (d2p_copy D) as [G0|] eqn:E0; [|reflexivity]. cbn [res_bind].
  assert (I0 : I G0).
  { revert E0. unfold d2p_copy. set (r := fold_left _ _ _). assert (J : forall G, r = Ok G -> I G); [|intros; now apply J]. unfold r.
    apply (fold_left_inv _ (fun r => forall G, r = Ok G -> I G)); [intros G [= <-]; now split|].
    intros [G1|] [a b] Hp IH G E; cbn [res_bind fst snd] in E; [|discriminate]. specialize (IH G1 eq_refl). destruct (dget_edge D a b) as [[e|]|] eqn:Ed; cbn [res_bind] in E; [| |discriminate]; injection E as <-; [|exact IH].
    unfold dget_edge in Ed. destruct ((gm D a b =? 0) && (gm D b a =? 0)) eqn:Zb; [discriminate|].
    destruct (endpoint_of (gm D a b)) as [p|]; [|discriminate]. destruct (endpoint_of (gm D b a)) as [q|]; [|discriminate]. cbn [res_bind] in Ed. injection Ed as <-.
    assert (K : ~ (a = x /\ b = y) /\ ~ (a = y /\ b = x)). { destruct Z0 as [Z1 Z2]. split; intros [-> ->]; rewrite Z1, Z2 in Zb; discriminate. }
    destruct IH as [H1 H2]. split; (rewrite add_edge_off; [assumption| |]; tauto). }
  assert (I1 : I (fold_left (d2p_latent D obs) (seq 0 (gn D)) G0)).
  { apply (fold_left_inv _ I); [exact I0|]. intros G u Hu IG. apply in_seq0 in Hu. unfold d2p_latent. destruct (memb u obs) eqn:M; [exact IG|].
    assert (Mu : ~ In u obs) by (intros Q; apply memb_In in Q; congruence). destruct (HW u Hu Mu) as (W1 & W2 & W3).
    apply (fold_left_inv _ I).
    - apply (fold_left_inv _ I); [exact IG|]. intros G1 [p c] Hpc IH. apply in_prod_iff in Hpc. destruct Hpc as [Hp Hc]. apply parents_in in Hp. apply children_in in Hc. destruct Hp as [Hp Ep], Hc as [Hc Ec].
      apply (dag_arrow D u p HD Hu Hp) in Ep. apply (dag_arrow D c u HD Hc Hu) in Ec. cbn [fst snd]. destruct IH as [H1 H2].
      assert (K : ~ (p = x /\ c = y) /\ ~ (p = y /\ c = x)) by (split; intros [-> ->]; tauto). split; (rewrite add_edge_off; [assumption| |]; tauto).
    - intros G1 [a b] Hab IH. apply pairs2_in in Hab. destruct Hab as [Ha Hb]. apply children_in in Ha, Hb. destruct Ha as [Ha Ea], Hb as [Hb Eb].
      apply (dag_arrow D a u HD Ha Hu) in Ea. apply (dag_arrow D b u HD Hb Hu) in Eb. cbn [fst snd]. destruct IH as [H1 H2].
      assert (K : ~ (a = x /\ b = y) /\ ~ (a = y /\ b = x)) by (split; intros [-> ->]; tauto). split; (rewrite add_edge_off; [assumption| |]; tauto). }
  unfold d2p_restrict. apply fold_res_hit; [reflexivity|]. destruct I1 as [H1 H2]. destruct (pairs2_all obs x y Ix Iy N) as [P|P].
  - exists (x, y). split; [exact P|]. intros [Q|]; [|reflexivity]. cbn [res_bind fst snd]. unfold get_edge. rewrite H1. reflexivity.
  - exists (y, x). split; [exact P|]. intros [Q|]; [|reflexivity]. cbn [res_bind fst snd]. unfold get_edge. rewrite H2. reflexivity.
Qed.

(** 0 <-- 2 <-- 3 --> 1 with 2 and 3 unobserved: 0 and 1 are connected given every set of observed nodes, and the method raises all the same. *)
Definition two_latents : ggraph := graph_of 4 [dir 2 0; dir 3 2; dir 3 1].
Lemma two_latents_dag : dag two_latents.
Proof. apply (dagb_sound (fun v => match v with 3 => 0 | 2 => 1 | _ => 2 end)%nat); reflexivity. Qed.
Theorem C180_two_latents_refuted : dag two_latents /\ dconnected two_latents 0 1 [] /\ dag_dag2pag two_latents [0; 1]%nat = Raise.
Proof.
  split; [apply two_latents_dag|]. split; [|reflexivity].
  apply dconn_spec; [apply two_latents_dag|cbn; lia|discriminate|vm_compute; reflexivity].
Qed.
(** 0 --> 1 with an unobserved common cause 2: the two adjacent nodes are not adjacent in the result. *)
Definition confounded : ggraph := graph_of 3 [dir 0 1; dir 2 0; dir 2 1].
Theorem C180_confounded_edge_refuted : dag confounded /\ dedge confounded 0 1 /\
  exists P, dag_dag2pag confounded [0; 1]%nat = Ok P /\ gm P 0%nat 1%nat = 0 /\ gm P 1%nat 0%nat = 0.
Proof.
  split; [apply (dagb_sound (fun v => match v with 2 => 0 | 0 => 1 | _ => 2 end)%nat); reflexivity|].
  split; [unfold dedge; cbn; lia|]. eexists. split; [reflexivity|]. split; reflexivity.
Qed.

Definition no_circle (g : ggraph) : Prop := forall a b, gm g a b <> 2.
Lemma add_edge_no_circle g e : no_circle g -> e_end1 e <> CIRCLE -> e_end2 e <> CIRCLE -> no_circle (add_edge g e).
Proof.
  intros H N1 N2 a b. unfold add_edge, add_edge_full.
  assert (U : forall p q, p <> 2 -> q <> 2 -> upd2 (gm g) (e_node1 e) (e_node2 e) p q a b <> 2).
  { intros p q Hp Hq. unfold upd2. rewrite !upd_id. destruct (_ && _); [assumption|]. destruct (_ && _); [assumption|]. apply H. }
  assert (V : forall p q, p <> 2 -> q <> 2 -> upd (upd (gm g) (e_node2 e) (e_node1 e) p) (e_node1 e) (e_node2 e) q a b <> 2).
  { intros p q Hp Hq. rewrite !upd_id. destruct (_ && _); [assumption|]. destruct (_ && _); [assumption|]. apply H. }
  destruct (e_end1 e), (e_end2 e); try congruence;
    repeat match goal with |- context[if ?c then _ else _] => lazymatch c with context[if _ then _ else _] => fail | _ => destruct c end end; cbn [fst gm set_gm]; try apply H; first [apply U|apply V]; lia.
Qed.
Lemma edge_no_circle a b p q : p <> CIRCLE -> q <> CIRCLE -> e_end1 (Edge a b p q) <> CIRCLE /\ e_end2 (Edge a b p q) <> CIRCLE.
Proof. unfold Edge. destruct (pointing_left p q); cbn; auto. Qed.
Lemma ep_no_circle x p : endpoint_of x = Ok p -> x <> 2 -> p <> CIRCLE.
Proof. unfold endpoint_of. repeat match goal with |- context[x =? ?c] => destruct (Z.eqb_spec x c) end; intros [= <-]; congruence. Qed.
(** The result never has a circle: marks which the observed separations do not determine are oriented all the same. *)
Theorem C180_no_circles_refuted : forall D obs P, dag D -> dag_dag2pag D obs = Ok P -> forall a b, gm P a b <> 2.
Proof.
  intros D obs P HD E. change (no_circle P). revert E. unfold dag_dag2pag. destruct (d2p_copy D) as [G0|] eqn:E0; [|discriminate]. cbn [res_bind].
  assert (I0 : no_circle G0).
  { revert E0. unfold d2p_copy. set (r := fold_left _ _ _). assert (J : forall G, r = Ok G -> no_circle G); [|intros; now apply J]. unfold r.
    apply (fold_left_inv _ (fun r => forall G, r = Ok G -> no_circle G)); [intros G [= <-] a b; cbn; unfold zeros; lia|].
    intros [G1|] [a b] Hp IH G E; cbn [res_bind fst snd] in E; [|discriminate]. specialize (IH G1 eq_refl). destruct (dget_edge D a b) as [[e|]|] eqn:Ed; cbn [res_bind] in E; [| |discriminate]; injection E as <-; [|exact IH].
    unfold dget_edge in Ed. destruct ((gm D a b =? 0) && (gm D b a =? 0)) eqn:Zb; [discriminate|].
    destruct (endpoint_of (gm D a b)) as [p|] eqn:Ep; [|discriminate]. destruct (endpoint_of (gm D b a)) as [q|] eqn:Eq; [|discriminate]. cbn [res_bind] in Ed. injection Ed as <-.
    apply pairs2_in in Hp. destruct Hp as [Ha Hb]. apply in_seq0 in Ha, Hb.
    assert (NC : forall a b, (a < gn D)%nat -> (b < gn D)%nat -> gm D a b <> 2) by (intros u v Hu Hv Q; destruct HD as (_ & _ & H); destruct (H u v Hu Hv ltac:(lia)); lia).
    apply ep_no_circle in Ep, Eq; try (now apply NC). apply add_edge_no_circle; [exact IH| |]; now apply edge_no_circle. }
  assert (I1 : no_circle (fold_left (d2p_latent D obs) (seq 0 (gn D)) G0)).
  { apply (fold_left_inv _ no_circle); [exact I0|]. intros G u _ IG. unfold d2p_latent. destruct (memb u obs); [exact IG|].
    apply (fold_left_inv _ no_circle); [apply (fold_left_inv _ no_circle); [exact IG|]|]; intros G1 p _ IH; apply add_edge_no_circle; try exact IH; apply edge_no_circle; discriminate. }
  revert I1. generalize (fold_left (d2p_latent D obs) (seq 0 (gn D)) G0). intros G HG. unfold d2p_restrict. set (r := fold_left _ _ _). assert (J : forall G, r = Ok G -> no_circle G); [|intros; now apply J]. unfold r.
  apply (fold_left_inv _ (fun r => forall G, r = Ok G -> no_circle G)); [intros Q [= <-] a b; cbn; unfold zeros; lia|].
  intros [G1|] [a b] Hp IH Q E; cbn [res_bind fst snd] in E; [|discriminate]. specialize (IH G1 eq_refl). destruct (get_edge G a b) as [[e|]|] eqn:Ed; cbn [res_bind] in E; [|discriminate|discriminate]. injection E as <-.
  unfold get_edge in Ed. destruct (gm G a b =? 0); [discriminate|]. destruct (endpoint_of (gm G a b)) as [p|] eqn:Ep; [|discriminate]. destruct (endpoint_of (gm G b a)) as [q|] eqn:Eq; [|discriminate]. cbn [res_bind] in Ed. injection Ed as <-.
  apply ep_no_circle in Ep, Eq; try apply HG. apply add_edge_no_circle; [exact IH| |]; now apply edge_no_circle.
Qed.
(** 0 --> 1 alone: the result is 0 --> 1, whereas no orientation of it follows from the separations. *)
Example C180_example : dag (graph_of 2 [dir 0 1]) /\ exists P, dag_dag2pag (graph_of 2 [dir 0 1]) [0; 1]%nat = Ok P /\ gm P 0%nat 1%nat = -1 /\ gm P 1%nat 0%nat = 1.
Proof. split; [apply (dagb_sound (fun v => v)); reflexivity|]. eexists. split; [reflexivity|]. split; reflexivity. Qed.
(** The hypotheses of C180_raises_refuted: 0 --> 1 --> 2 with all nodes observed. *)
Example C180_nonvacuous : let D := graph_of 3 [dir 0 1; dir 1 2] in dag D /\ ~ adjacent D 0 2 /\ forall w, (w < gn D)%nat -> In w [0; 1; 2]%nat.
Proof.
  cbn zeta. split; [apply (dagb_sound (fun v => v)); reflexivity|]. split; [intros [(_ & _ & H)|(_ & _ & H)]; vm_compute in H; destruct H as [[? ?]|[? ?]]; discriminate|]. intros w Hw. cbn in Hw |- *. lia.
Qed.
