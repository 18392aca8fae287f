(** C236, C237: transfer_nodes_and_edges; node lists shared between graphs. *)
From Verif Require Import Base EdgeModel GraphModel GraphSpec GraphProofs NamedModel NamedProofs NamedProps CpdagProofs TransferModel.
Local Open Scope Z_scope.

(** * The nodes *)
Lemma add_nodes l : forall H, consistent H -> NoDup (nodes H ++ l) -> (forall i j, gm (ng H) i j = 0) -> let K := fold_left (fun K v => fst (nadd_node K v)) l H in
  consistent K /\ nodes K = nodes H ++ l /\ forall i j, gm (ng K) i j = 0.
Proof.
  induction l as [|v l IH]; intros H HC ND Z; cbn [fold_left]; [rewrite app_nil_r; auto|].
  assert (Hv : existsb (Nat.eqb v) (nodes H) = false).
  { apply not_true_is_false. rewrite existsb_In. intros Q. apply NoDup_remove_2 in ND. apply ND. apply in_or_app. now left. }
  pose proof (add_consistent H v HC) as HC'. set (H' := fst (nadd_node H v)) in *.
  assert (E1 : nodes H' = nodes H ++ [v]) by (unfold H', nadd_node; rewrite Hv; reflexivity).
  assert (E2 : forall i j, gm (ng H') i j = 0) by (intros i j; unfold H', nadd_node; rewrite Hv; cbn [fst ng gm]; unfold pad; destruct (_ && _); auto).
  destruct (IH H' HC') as (A & B & C); [rewrite E1, <- app_assoc; exact ND|exact E2|]. cbv zeta. split; [exact A|]. split; [|exact C]. rewrite B, E1, <- app_assoc. reflexivity.
Qed.
(** * The edges *)
Lemma fold_edges_frame es : forall g i j, (forall e, In e es -> ~ (e_node1 e = i /\ e_node2 e = j) /\ ~ (e_node1 e = j /\ e_node2 e = i)) -> gm (fold_left add_edge es g) i j = gm g i j.
Proof.
  induction es as [|e es IH]; intros g i j H; [reflexivity|]. cbn [fold_left]. rewrite IH by (intros; apply H; now right).
  destruct (H e (or_introl eq_refl)). apply add_edge_frame; intros [-> ->]; tauto.
Qed.
Lemma pair_nodes g i j e : In e (pair_edges g i j) -> (e_node1 e = i /\ e_node2 e = j) \/ (e_node1 e = j /\ e_node2 e = i).
Proof.
  assert (Q : forall a b e, e = Edge i j a b -> (e_node1 e = i /\ e_node2 e = j) \/ (e_node1 e = j /\ e_node2 e = i)) by (intros a b e' ->; unfold Edge; destruct (pointing_left a b); cbn; auto).
  unfold pair_edges, get_edge. destruct (_ || _).
  - destruct (gm g i j =? 0); [intros []|]. destruct (endpoint_of (gm g i j)) as [a|]; [|intros []]. cbn [res_bind]. destruct (endpoint_of (gm g j i)) as [b|]; [|intros []]. cbn [res_bind In]. intros [<-|[]]. now apply (Q a b).
  - repeat match goal with |- context [if ?b then _ else _] => destruct b end; cbn [In]; intros HI; repeat destruct HI as [<-|HI]; try contradiction; eapply Q; reflexivity.
Qed.
Definition lost (x y : Z) : bool := (x =? 2) && (y =? -1).
Lemma pair_restored g h i j : i <> j -> legal_pair (gm g i j) (gm g j i) -> gm h i j = 0 -> gm h j i = 0 ->
  let r := fold_left add_edge (pair_edges g i j) h in
  gm r i j = (if lost (gm g i j) (gm g j i) then 0 else gm g i j) /\ gm r j i = (if lost (gm g i j) (gm g j i) then 0 else gm g j i).
Proof.
  intros N L H1 H2. cbv zeta.
  assert (P : forall e k, (e_node1 e = i /\ e_node2 e = j) \/ (e_node1 e = j /\ e_node2 e = i) ->
    (gm (add_edge k e) i j, gm (add_edge k e) j i) = if Nat.eqb (e_node1 e) i then add_pair (e_end1 e) (e_end2 e) (gm k i j) (gm k j i) else let q := add_pair (e_end1 e) (e_end2 e) (gm k j i) (gm k i j) in (snd q, fst q)).
  { intros e k He. assert (NE : e_node1 e <> e_node2 e) by (destruct He as [[-> ->] | [-> ->]]; congruence). pose proof (add_edge_pair k e NE) as Q.
    destruct He as [[E1 E2] | [E1 E2]]; rewrite E1, E2 in *; [rewrite Nat.eqb_refl; exact Q|]. rewrite (proj2 (Nat.eqb_neq j i)) by congruence. rewrite <- Q. reflexivity. }
  assert (PN : forall e, In e (pair_edges g i j) -> (e_node1 e = i /\ e_node2 e = j) \/ (e_node1 e = j /\ e_node2 e = i)) by apply pair_nodes.
  unfold pair_edges, get_edge in *. remember (gm g i j) as x eqn:Ex. remember (gm g j i) as y eqn:Ey. clear Ex Ey. pair_cases L; subst x y; cbn [Z.eqb Pos.eqb orb andb] in *; unfold endpoint_of in *; cbn [Z.eqb Pos.eqb res_bind] in *; cbn [fold_left];
  try (unfold lost; cbn [Z.eqb Pos.eqb andb]; rewrite H1, H2; split; reflexivity);
  match goal with
  | |- gm (add_edge (add_edge h ?e1) ?e2) i j = _ /\ _ => pose proof (P e1 h (PN e1 (or_introl eq_refl))) as Q1; pose proof (P e2 (add_edge h e1) (PN e2 (or_intror (or_introl eq_refl)))) as Q2;
      rewrite H1, H2 in Q1; set (k := add_edge h e1) in *; set (k2 := add_edge k e2) in *
  | |- gm (add_edge h ?e1) i j = _ /\ _ => pose proof (P e1 h (PN e1 (or_introl eq_refl))) as Q1; rewrite H1, H2 in Q1; set (k := add_edge h e1) in *
  end; clear P PN; unfold Edge, pointing_left, ep_eqb in *; cbn [ev Z.eqb Pos.eqb andb orb e_node1 e_node2 e_end1 e_end2] in *; rewrite ?Nat.eqb_refl, ?(proj2 (Nat.eqb_neq j i)) in * by congruence;
  unfold lost; cbn in Q1 |- *; injection Q1; intros W1 W2.
  all: try (rewrite W1, W2; split; reflexivity).
  all: rewrite W1, W2 in Q2; cbn in Q2; injection Q2; intros W3 W4; rewrite W3, W4; split; reflexivity.
Qed.
Definition pairs_of (n : nat) : list (nat * nat) := flat_map (fun i => map (fun j => (i, j)) (seq (S i) (n - S i))) (seq 0 n).
Lemma in_pairs n i j : In (i, j) (pairs_of n) <-> (i < j /\ j < n)%nat.
Proof.
  unfold pairs_of. rewrite in_flat_map. split.
  - intros (k & Hk & H). apply in_map_iff in H. destruct H as (l & [= -> ->] & H). apply in_seq in Hk, H. lia.
  - intros [H1 H2]. exists i. split; [apply in_seq; lia|]. apply in_map_iff. exists j. split; [reflexivity|apply in_seq; lia].
Qed.
Lemma edges_pairs g : get_graph_edges g = flat_map (fun p => pair_edges g (fst p) (snd p)) (pairs_of (gn g)).
Proof.
  unfold get_graph_edges, pairs_of. induction (seq 0 (gn g)) as [|i l IH]; [reflexivity|]. cbn [flat_map]. rewrite flat_map_app, <- IH. f_equal.
  induction (seq (S i) (gn g - S i)) as [|j m IHm]; [reflexivity|]. cbn [map flat_map fst snd]. rewrite IHm. reflexivity.
Qed.
Lemma NoDup_pairs n : NoDup (pairs_of n).
Proof.
  unfold pairs_of. generalize (seq_NoDup n 0). induction (seq 0 n) as [|i l IH]; intros ND; [constructor|]. cbn [flat_map]. inversion ND as [|? ? Ni Nl]; subst.
  apply CpdagProofs.NoDup_app_intro; [apply FinFun.Injective_map_NoDup; [intros a b [= ->]; reflexivity|apply seq_NoDup]|auto|].
  intros [a b] Ha Hb. apply in_map_iff in Ha. destruct Ha as (c & [= <- <-] & _). apply in_flat_map in Hb. destruct Hb as (k & Hk & Hb). apply in_map_iff in Hb. destruct Hb as (d & [= -> ->] & _). contradiction.
Qed.
Lemma fold_pairs g ps : forall h i j, wf g -> (forall p, In p ps -> (fst p < snd p /\ snd p < gn g)%nat) -> NoDup ps -> (i < j)%nat -> gm h i j = 0 -> gm h j i = 0 ->
  let r := fold_left add_edge (flat_map (fun p => pair_edges g (fst p) (snd p)) ps) h in
  In (i, j) ps -> gm r i j = (if lost (gm g i j) (gm g j i) then 0 else gm g i j) /\ gm r j i = (if lost (gm g i j) (gm g j i) then 0 else gm g j i).
Proof.
  induction ps as [|[a b] ps IH]; intros h i j W LT ND Hij H1 H2; cbv zeta; [intros []|]. inversion ND as [|? ? Na Np]; subst.
  cbn [flat_map fst snd]. rewrite fold_left_app. destruct (LT (a, b) (or_introl eq_refl)) as [Lab Lb]. cbn [fst snd] in *. intros [E|HI].
  - injection E as -> ->. set (k := fold_left add_edge (pair_edges g i j) h).
    assert (F : forall x y, (x = i /\ y = j) \/ (x = j /\ y = i) -> gm (fold_left add_edge (flat_map (fun p => pair_edges g (fst p) (snd p)) ps) k) x y = gm k x y).
    { intros x y Hxy. apply fold_edges_frame. intros e He. apply in_flat_map in He. destruct He as ([c d] & Hp & He). cbn [fst snd] in He. apply pair_nodes in He.
      destruct (LT (c, d) (or_intror Hp)) as [Lcd _]. cbn [fst snd] in Lcd. split; intros [Q1 Q2]; assert (c = i /\ d = j) as [-> ->] by lia; contradiction. }
    rewrite !F by auto. destruct W as [Wd Wl]. apply pair_restored; [lia|apply Wl; lia|exact H1|exact H2].
  - assert (F : forall x y, (x = i /\ y = j) \/ (x = j /\ y = i) -> gm (fold_left add_edge (pair_edges g a b) h) x y = gm h x y).
    { intros x y Hxy. apply fold_edges_frame. intros e He. apply pair_nodes in He. split; intros [Q1 Q2]; assert (a = i /\ b = j) as [-> ->] by lia; contradiction. }
    apply IH; auto; [intros p Hp; apply LT; now right|rewrite F by auto; exact H1|rewrite F by auto; exact H2].
Qed.
Lemma fold_diag g ps : forall h i, (forall p, In p ps -> (fst p < snd p)%nat) -> gm (fold_left add_edge (flat_map (fun p => pair_edges g (fst p) (snd p)) ps) h) i i = gm h i i.
Proof.
  intros h i LT. apply fold_edges_frame. intros e He. apply in_flat_map in He. destruct He as ([c d] & Hp & He). cbn [fst snd] in He. apply pair_nodes in He. specialize (LT _ Hp). cbn [fst snd] in LT. lia.
Qed.
Lemma fold_gn es : forall h, gn (fold_left add_edge es h) = gn h.
Proof. induction es as [|e es IH]; intros h; [reflexivity|]. cbn [fold_left]. now rewrite IH, add_edge_gn. Qed.
Lemma fold_named G K : consistent G -> consistent K -> nodes K = nodes G -> forall es H, (forall e, In e es -> (e_node1 e < length (nodes G) /\ e_node2 e < length (nodes G))%nat) ->
  fold_left (fun R e => res_bind R (fun K => nadd_edge K e)) (map (fun e => mkE (nth (e_node1 e) (nodes G) 0%nat) (nth (e_node2 e) (nodes G) 0%nat) (e_end1 e) (e_end2 e) (e_num1 e) (e_num2 e)) es) (Ok (mkNG (nodes K) (node_map K) H)) =
  Ok (mkNG (nodes K) (node_map K) (fold_left add_edge es H)).
Proof.
  intros CG CK EN. induction es as [|e es IH]; intros H HE; [reflexivity|]. cbn [map fold_left res_bind]. destruct (HE e (or_introl eq_refl)) as [L1 L2].
  assert (G1 : forall i, (i < length (nodes G))%nat -> dget (node_map K) (nth i (nodes G) 0%nat) = Some i) by (intros i Hi; apply (consistent_get K); [exact CK|]; rewrite EN; now apply nth_error_nth').
  unfold nadd_edge at 2. cbn [node_map e_node1 e_node2 e_end1 e_end2 e_num1 e_num2 ng nodes]. rewrite !G1 by assumption. replace (mkE (e_node1 e) (e_node2 e) (e_end1 e) (e_end2 e) (e_num1 e) (e_num2 e)) with e by (destruct e; reflexivity).
  apply IH. intros; apply HE; now right.
Qed.
(** Into a new graph: the same nodes in the same order, and every edge except those from a circle at the earlier node to a tail at the later one. *)
Theorem C236_transfer_partial : forall G, api_graph G -> exists K, transfer (new_ngraph []) G = Ok K /\ nodes K = nodes G /\ consistent K /\
  forall i j, (i < j < gn (ng G))%nat -> if lost (gm (ng G) i j) (gm (ng G) j i) then gm (ng K) i j = 0 /\ gm (ng K) j i = 0 else gm (ng K) i j = gm (ng G) i j /\ gm (ng K) j i = gm (ng G) j i.
Proof.
  intros G [HC W]. destruct (add_nodes (nodes G) (new_ngraph [])) as (CK & EN & Z); [apply new_consistent; constructor|cbn; apply HC|intros i j; unfold new_ngraph, empty_graph; cbn [ng]; rewrite reconstitute_gm; reflexivity|].
  unfold transfer. set (K := fold_left _ (nodes G) (new_ngraph [])) in *. change (nodes (new_ngraph [])) with (@nil nat) in EN. cbn [app] in EN. clearbody K.
  assert (LN : forall e, In e (get_graph_edges (ng G)) -> (e_node1 e < length (nodes G) /\ e_node2 e < length (nodes G))%nat).
  { intros e He. rewrite edges_pairs in He. apply in_flat_map in He. destruct He as ([a b] & Hp & He). apply in_pairs in Hp. apply pair_nodes in He. cbn [fst snd] in He. destruct HC as (_ & Hn & _). rewrite <- Hn. lia. }
  pose proof (fold_named G K HC CK EN (get_graph_edges (ng G)) (ng K) LN) as F. destruct K as [nk mk gk]. cbn [nodes node_map ng] in *. unfold named_edges. rewrite F.
  eexists. split; [reflexivity|]. split; [exact EN|]. split.
  { destruct CK as (A & B & C). split; [exact A|]. split; [|exact C]. cbn [ng nodes] in *. rewrite fold_gn. exact B. }
  intros i j Hij. cbn [ng]. rewrite edges_pairs.
  destruct (fold_pairs (ng G) (pairs_of (gn (ng G))) gk i j W) as [A B]; [intros [a b] Hp; apply in_pairs in Hp; exact Hp|apply NoDup_pairs|lia|apply Z|apply Z|apply in_pairs; lia|].
  destruct (lost _ _); auto.
Qed.
Definition exO : ngraph := mkNG [5; 7]%nat (enumerate_map [5; 7]%nat) (mkG 2 (upd2 zeros 0 1 (-1) 2) zeros).
Theorem C236_circle_tail_refuted : exists K, api_graph exO /\ nget_edge exO 5 7 = Ok (Some (Edge 5 7 CIRCLE TAIL)) /\ transfer (new_ngraph []) exO = Ok K /\ nget_edge K 5 7 = Ok None.
Proof.
  eexists. split; [|split; [reflexivity|split; [vm_compute; reflexivity|vm_compute; reflexivity]]]. split.
  - split; [|split]; [|reflexivity|reflexivity]. cbn. repeat constructor; cbn; intuition lia.
  - split; cbn.
    + intros i Hi. assert (i = 0 \/ i = 1)%nat as [-> | ->] by lia; reflexivity.
    + intros i j Hi Hj. assert (i = 0 \/ i = 1)%nat as [-> | ->] by lia; assert (j = 0 \/ j = 1)%nat as [-> | ->] by lia; unfold legal_pair, legal_pairs; cbn; tauto.
Qed.

(** * C237 *)
(** Graphs over lists of their own do not notice each other. *)
Theorem C237_separate_partial : forall h G1 G2 v, sh_list G1 <> sh_list G2 ->
  view (fst (fst (shared_add_node h G1 v))) G2 = view h G2 /\ (forall h' G1', shared_remove_node h G1 v = Ok (h', G1') -> view h' G2 = view h G2).
Proof.
  intros h G1 G2 v N. split.
  - unfold shared_add_node. destruct (nadd_node (view h G1) v). cbn [fst]. unfold view, store. now rewrite (proj2 (Nat.eqb_neq (sh_list G2) (sh_list G1))) by congruence.
  - unfold shared_remove_node. destruct (nremove_node (view h G1) v); [|discriminate]. cbn [res_bind]. intros h' G1' [= <- _]. unfold view, store. now rewrite (proj2 (Nat.eqb_neq (sh_list G2) (sh_list G1))) by congruence.
Qed.
(** The graph itself behaves as C40 says. *)
Theorem C237_own_partial : forall h G v, let '(h', G', r) := shared_add_node h G v in view h' G' = fst (nadd_node (view h G) v) /\ r = snd (nadd_node (view h G) v).
Proof. intros h G v. unfold shared_add_node. destruct (nadd_node (view h G) v) as [[l m g] r]. cbn. unfold view, store. cbn. now rewrite Nat.eqb_refl. Qed.
(** Two graphs built from one list: a node added to the first is among the nodes of the second, which can neither use it nor be given it. *)
Theorem C237_shared_refuted : forall h p v, NoDup (h p) -> ~ In v (h p) -> let G1 := construct h p in let G2 := construct h p in
  let h' := fst (fst (shared_add_node h G1 v)) in
  h' p = h p ++ [v] /\ In v (nodes (view h' G2)) /\ (forall u, nget_edge (view h' G2) v u = Raise) /\ nadd_node (view h' G2) v = (view h' G2, false) /\ ~ consistent (view h' G2).
Proof.
  intros h p v ND Nv. cbv zeta. assert (E : existsb (Nat.eqb v) (h p) = false) by (apply not_true_is_false; now rewrite existsb_In).
  assert (EH : fst (fst (shared_add_node h (construct h p) v)) p = h p ++ [v]).
  { unfold shared_add_node, nadd_node. cbn [view nodes construct sh_list]. rewrite E. cbn [fst]. unfold store. now rewrite Nat.eqb_refl. }
  set (h' := fst (fst (shared_add_node h (construct h p) v))) in *.
  assert (D : dget (enumerate_map (h p)) v = None).
  { destruct (dget (enumerate_map (h p)) v) as [i|] eqn:Q; [|reflexivity]. exfalso. apply Nv. rewrite enumerate_pos in Q by exact ND. apply dget_pos in Q; [|exact ND]. apply (nth_error_In (h p) (i - 0)). apply Q. }
  split; [exact EH|]. cbn [view nodes construct sh_list]. rewrite EH. split; [apply in_or_app; right; now left|]. split; [|split].
  - intros u. unfold nget_edge. cbn [view node_map construct sh_map]. rewrite D. reflexivity.
  - unfold nadd_node. cbn [view nodes construct sh_list]. rewrite EH. rewrite (proj2 (existsb_In v (h p ++ [v]))) by (apply in_or_app; right; now left). reflexivity.
  - intros (_ & Q & _). cbn [view nodes ng construct sh_list sh_g] in Q. rewrite EH, app_length in Q. unfold empty_graph in Q. rewrite reconstitute_gn in Q. cbn in Q. lia.
Qed.
