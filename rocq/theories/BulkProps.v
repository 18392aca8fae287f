(** C244-C246: removing many nodes or edges, set_nodes, the annotations of triples. *)
From Verif Require Import Base EdgeModel GraphModel GraphSpec GraphProofs CheckLib NamedModel NamedProofs NamedProps TransferModel TransferProps BulkModel.
Local Open Scope Z_scope.

(** * C244: remove_nodes and remove_edges *)
Lemma nremove_nodes_spec l : forall G, consistent G -> NoDup l -> incl l (nodes G) -> exists K, nremove_nodes G l = Ok K /\ consistent K /\
  (forall v, In v (nodes K) <-> In v (nodes G) /\ ~ In v l) /\ forall a b, In a (nodes K) -> In b (nodes K) -> nget_edge K a b = nget_edge G a b.
Proof.
  induction l as [|v l IH]; intros G HC ND HI; [exists G; split; [reflexivity|]; split; [exact HC|]; split; [intros x; cbn; tauto|reflexivity]|].
  inversion ND as [|? ? Nv Nl]; subst. destruct (remove_defined G v HC (HI v (or_introl eq_refl))) as [H EH]. pose proof (remove_consistent G v H HC EH) as CH. pose proof (remove_nodes_spec G v H HC EH) as SH.
  destruct (IH H CH Nl) as (K & EK & CK & SK & GK). { intros x Hx. apply SH. split; [apply HI; now right|]. intros ->. contradiction. }
  exists K. split; [unfold nremove_nodes in *; cbn [fold_left res_bind]; rewrite EH; exact EK|]. split; [exact CK|]. split.
  - intros x. rewrite SK, SH. cbn [In]. split; [intros [[A B] C]; split; [exact A|intros [D|D]; [congruence|contradiction]]|]. intros [A B]. split; [split; [exact A|intros ->; apply B; now left]|intros D; apply B; now right].
  - intros a b Ha Hb. rewrite GK by assumption. apply SK in Ha, Hb. apply (remove_keeps_edges G v H a b HC EH); tauto.
Qed.
(** Given a list of its own, remove_nodes removes the nodes named and nothing else: the edges between the others are as they were. *)
Theorem C244_nodes_partial : forall G l, api_graph G -> NoDup l -> incl l (nodes G) -> exists K, nremove_nodes G l = Ok K /\
  (forall v, In v (nodes K) <-> In v (nodes G) /\ ~ In v l) /\ forall a b, In a (nodes K) -> In b (nodes K) -> nget_edge K a b = nget_edge G a b.
Proof. intros G l [HC _] ND HI. destruct (nremove_nodes_spec l G HC ND HI) as (K & A & _ & B). exists K. auto. Qed.

(** The elements at odd positions. *)
Fixpoint odds (l : list nat) : list nat := match l with _ :: b :: r => b :: odds r | _ => [] end.
Lemma lremove_mid P v R : ~ In v P -> lremove v (P ++ v :: R) = P ++ R.
Proof.
  induction P as [|p P IH]; intros H; cbn; [now rewrite Nat.eqb_refl|]. destruct (Nat.eqb_spec p v) as [->|_]; [exfalso; apply H; now left|]. f_equal. apply IH. intros Q. apply H. now right.
Qed.
Lemma remove_own_spec f : forall k G P R, consistent G -> nodes G = P ++ R -> length P = k -> (length R <= f)%nat -> exists K, remove_own f k G = Ok K /\ consistent K /\ nodes K = P ++ odds R /\
  forall a b, In a (nodes K) -> In b (nodes K) -> nget_edge K a b = nget_edge G a b.
Proof.
  induction f as [|f IH]; intros k G P R HC EN EP EF.
  - destruct R; [|cbn in EF; lia]. exists G. cbn. auto.
  - cbn [remove_own]. rewrite EN, nth_error_app2, EP, Nat.sub_diag by lia. destruct R as [|v R]; cbn [nth_error]; [exists G; cbn [odds]; auto|].
    assert (Hv : In v (nodes G)) by (rewrite EN; apply in_or_app; right; now left). destruct (remove_defined G v HC Hv) as [H EH]. rewrite EH. cbn [res_bind]. pose proof (remove_consistent G v H HC EH) as CH.
    assert (NH : nodes H = P ++ R).
    { pose proof EH as Q. unfold nremove_node in Q. destruct (dget (node_map G) v); [|discriminate]. injection Q as <-. cbn [nodes]. rewrite EN. apply lremove_mid. destruct HC as (ND & _). rewrite EN in ND. apply NoDup_remove_2 in ND. intros Q. apply ND, in_or_app. now left. }
    assert (EH' : forall a b, In a (nodes H) -> In b (nodes H) -> nget_edge H a b = nget_edge G a b) by (intros; now apply (remove_keeps_edges G v H)).
    destruct R as [|w R].
    + destruct f; cbn [remove_own].
      * exists H. cbn [odds]. rewrite NH. auto using eq_refl. split; [reflexivity|]. split; [exact CH|]. split; [reflexivity|]. intros a b Ha Hb. apply EH'; rewrite NH; assumption.
      * exists H. replace (nth_error (nodes H) (S k)) with (@None nat) by (symmetry; apply nth_error_None; rewrite NH, app_nil_r; lia). cbn [odds]. split; [reflexivity|]. split; [exact CH|]. split; [exact NH|exact EH'].
    + destruct (IH (S k) H (P ++ [w]) R CH) as (K & EK & CK & NK & GK); [now rewrite <- app_assoc|rewrite app_length; cbn; lia|cbn in EF; lia|].
      exists K. split; [exact EK|]. split; [exact CK|]. split; [rewrite NK, <- app_assoc; reflexivity|]. intros a b Ha Hb. rewrite GK by assumption.
      assert (Sub : forall x, In x (nodes K) -> In x (nodes H)).
      { intros x. rewrite NK, NH, !in_app_iff. cbn [In]. intros [[Hx|[Hx|[]]]|Hx]; [tauto|right; now left|right; right].
        clear -Hx. revert Hx. assert (Q : forall n l, (length l <= n)%nat -> In x (odds l) -> In x l); [|now apply (Q (length R))]. induction n as [|n IHn]; intros [|p [|q l]] Hl; cbn [odds In]; cbn in Hl; try lia; try tauto. intros [E|E]; [tauto|right; right; apply IHn; [lia|exact E]]. }
      apply EH'; now apply Sub.
Qed.
(** Given the graph's own list it goes through the list while the list is cut: every second node stays. *)
Theorem C244_own_list_refuted : forall G, api_graph G -> exists K, nremove_own G = Ok K /\ nodes K = odds (nodes G) /\ ((2 <= length (nodes G))%nat -> nodes K <> []) /\
  forall a b, In a (nodes K) -> In b (nodes K) -> nget_edge K a b = nget_edge G a b.
Proof.
  intros G [HC _]. destruct (remove_own_spec (length (nodes G)) 0 G [] (nodes G) HC eq_refl eq_refl (le_n _)) as (K & A & _ & B & C). exists K. split; [exact A|]. split; [exact B|]. split; [|exact C].
  rewrite B. destruct (nodes G) as [|a [|b l]]; cbn; try lia. discriminate.
Qed.

Lemma fold_remove_frame es : forall g a b, (forall e, In e es -> ~ (a = e_node1 e /\ b = e_node2 e) /\ ~ (a = e_node2 e /\ b = e_node1 e)) -> gm (remove_edges g es) a b = gm g a b.
Proof.
  induction es as [|e es IH]; intros g a b H; [reflexivity|]. cbn [remove_edges fold_left] in *. unfold remove_edges in IH. rewrite IH by (intros e' He; apply H; now right). destruct (H e (or_introl eq_refl)). now apply remove_edge_frame.
Qed.
Lemma pair_emptied g h i j : i <> j -> legal_pair (gm g i j) (gm g j i) -> gm h i j = gm g i j -> gm h j i = gm g j i ->
  let r := remove_edges h (pair_edges g i j) in gm r i j = 0 /\ gm r j i = 0.
Proof.
  intros N L H1 H2. cbv zeta.
  assert (P : forall e k, (e_node1 e = i /\ e_node2 e = j) \/ (e_node1 e = j /\ e_node2 e = i) ->
    (gm (remove_edge k e) i j, gm (remove_edge k e) j i) = if Nat.eqb (e_node1 e) i then remove_pair (e_num1 e) (e_num2 e) (gm k i j) (gm k j i) else let q := remove_pair (e_num1 e) (e_num2 e) (gm k j i) (gm k i j) in (snd q, fst q)).
  { intros e k He. assert (NE : e_node1 e <> e_node2 e) by (destruct He as [[-> ->] | [-> ->]]; congruence). pose proof (remove_edge_pair k e NE) as Q.
    destruct He as [[E1 E2] | [E1 E2]]; rewrite E1, E2 in *; [rewrite Nat.eqb_refl; exact Q|]. rewrite (proj2 (Nat.eqb_neq j i)) by congruence. rewrite <- Q. reflexivity. }
  assert (PN : forall e, In e (pair_edges g i j) -> (e_node1 e = i /\ e_node2 e = j) \/ (e_node1 e = j /\ e_node2 e = i)) by apply pair_nodes.
  unfold pair_edges, get_edge in *. assert (HH : (gm h i j, gm h j i) = (gm g i j, gm g j i)) by congruence. clear H1 H2. remember (gm g i j) as x eqn:Ex. remember (gm g j i) as y eqn:Ey. clear Ex Ey. pair_cases L; subst x y; injection HH as H1 H2; cbn [Z.eqb Pos.eqb orb andb] in *; unfold endpoint_of in *; cbn [Z.eqb Pos.eqb res_bind] in *; unfold remove_edges; cbn [fold_left];
  try (rewrite H1, H2; split; reflexivity);
  match goal with
  | |- gm (remove_edge (remove_edge h ?e1) ?e2) i j = _ /\ _ => pose proof (P e1 h (PN e1 (or_introl eq_refl))) as Q1; pose proof (P e2 (remove_edge h e1) (PN e2 (or_intror (or_introl eq_refl)))) as Q2;
      rewrite H1, H2 in Q1; set (k := remove_edge h e1) in *; set (k2 := remove_edge k e2) in *
  | |- gm (remove_edge h ?e1) i j = _ /\ _ => pose proof (P e1 h (PN e1 (or_introl eq_refl))) as Q1; rewrite H1, H2 in Q1; set (k := remove_edge h e1) in *
  end; clear P PN; unfold Edge, pointing_left, ep_eqb in *; cbn [ev Z.eqb Pos.eqb andb orb e_node1 e_node2 e_end1 e_end2 e_num1 e_num2] in *; rewrite ?Nat.eqb_refl, ?(proj2 (Nat.eqb_neq j i)) in * by congruence;
  cbn in Q1 |- *; injection Q1; intros W1 W2.
  all: try (rewrite W1, W2; split; reflexivity).
  all: rewrite W1, W2 in Q2; cbn in Q2; injection Q2; intros W3 W4; rewrite W3, W4; split; reflexivity.
Qed.
Lemma emptied g ps : forall h i j, wf g -> (forall p, In p ps -> (fst p < snd p /\ snd p < gn g)%nat) -> NoDup ps -> (i < j)%nat -> gm h i j = gm g i j -> gm h j i = gm g j i -> In (i, j) ps ->
  let r := remove_edges h (flat_map (fun p => pair_edges g (fst p) (snd p)) ps) in gm r i j = 0 /\ gm r j i = 0.
Proof.
  induction ps as [|[a b] ps IH]; intros h i j W LT ND Hij H1 H2; cbv zeta; [intros []|]. inversion ND as [|? ? Na Np]; subst.
  cbn [flat_map fst snd]. unfold remove_edges. rewrite fold_left_app. fold (remove_edges h (pair_edges g a b)). destruct (LT (a, b) (or_introl eq_refl)) as [Lab Lb]. cbn [fst snd] in *. intros [E|HI].
  - injection E as -> ->. destruct W as [_ Wl]. destruct (pair_emptied g h i j) as [Z1 Z2]; [lia|apply Wl; lia|exact H1|exact H2|]. set (k := remove_edges h (pair_edges g i j)) in *. fold (remove_edges k (flat_map (fun p => pair_edges g (fst p) (snd p)) ps)).
    assert (F : forall x y, (x = i /\ y = j) \/ (x = j /\ y = i) -> gm (remove_edges k (flat_map (fun p => pair_edges g (fst p) (snd p)) ps)) x y = gm k x y).
    { intros x y Hxy. apply fold_remove_frame. intros e He. apply in_flat_map in He. destruct He as ([c d] & Hp & He). cbn [fst snd] in He. apply pair_nodes in He.
      destruct (LT (c, d) (or_intror Hp)) as [Lcd _]. cbn [fst snd] in Lcd. split; intros [Q1 Q2]; assert (c = i /\ d = j) as [-> ->] by lia; contradiction. }
    rewrite !F by auto. auto.
  - assert (F : forall x y, (x = i /\ y = j) \/ (x = j /\ y = i) -> gm (remove_edges h (pair_edges g a b)) x y = gm h x y).
    { intros x y Hxy. apply fold_remove_frame. intros e He. apply pair_nodes in He. split; intros [Q1 Q2]; assert (a = i /\ b = j) as [-> ->] by lia; contradiction. }
    apply IH; auto; [intros p Hp; apply LT; now right|rewrite F by auto; exact H1|rewrite F by auto; exact H2].
Qed.
(** Removing the edges that get_graph_edges lists leaves none, parallel edges included; edges between other nodes than those named are not touched. *)
Theorem C244_edges : forall g, wf g -> (forall i j, (i < gn g)%nat -> (j < gn g)%nat -> gm (remove_edges g (get_graph_edges g)) i j = 0) /\
  forall es a b, (forall e, In e es -> ~ (a = e_node1 e /\ b = e_node2 e) /\ ~ (a = e_node2 e /\ b = e_node1 e)) -> gm (remove_edges g es) a b = gm g a b.
Proof.
  intros g W. split; [|intros; now apply fold_remove_frame]. rewrite edges_pairs.
  assert (LT : forall p, In p (pairs_of (gn g)) -> (fst p < snd p /\ snd p < gn g)%nat) by (intros [c d] Hp; now apply in_pairs in Hp).
  assert (M : forall i j, (i < j)%nat -> (j < gn g)%nat -> let r := remove_edges g (flat_map (fun p => pair_edges g (fst p) (snd p)) (pairs_of (gn g))) in gm r i j = 0 /\ gm r j i = 0) by (intros i j H1 H2; apply emptied; auto using NoDup_pairs; apply in_pairs; auto).
  intros i j Hi Hj. destruct (Nat.lt_total i j) as [L|[->|L]]; [exact (proj1 (M i j L Hj))| |exact (proj2 (M j i L Hi))]. destruct W as [Wd _]. rewrite fold_remove_frame; [now apply Wd|].
  intros e He. apply in_flat_map in He. destruct He as ([c d] & Hp & He). cbn [fst snd] in He. apply pair_nodes in He. specialize (LT _ Hp). cbn [fst snd] in LT. lia.
Qed.

(** * C245: set_nodes *)
(** The nodes set are not known to the graph: every question about a node it did not have raises, while the nodes it had before are still answered for. *)
Theorem C245_unknown_refuted : forall G l, api_graph G -> length l = gn (ng G) -> exists K, nset_nodes G l = Ok K /\ nodes K = l /\
  (forall a b, In a l -> ~ In a (nodes G) -> nget_edge K a b = Raise) /\ (forall a b, nget_edge K a b = nget_edge G a b).
Proof.
  intros G l [HC _] E. unfold nset_nodes. rewrite E, Nat.eqb_refl. eexists. split; [reflexivity|]. split; [reflexivity|]. split; [|reflexivity].
  intros a b _ Hn. unfold nget_edge. cbn [node_map]. destruct (dget (node_map G) a) as [i|] eqn:D; [|reflexivity]. exfalso. apply Hn. apply (consistent_get G a i HC) in D. eapply nth_error_In; eassumption.
Qed.
(** With the same nodes in another order, get_edge and get_graph_edges contradict each other. *)
Definition two : ngraph := mkNG [5; 7]%nat (enumerate_map [5; 7]%nat) (graph_of 2 [dir 0 1]).
Theorem C245_order_refuted : api_graph two /\ exists K, nset_nodes two [7; 5]%nat = Ok K /\ nget_edge K 5 7 = Ok (Some (Edge 5 7 TAIL ARROW)) /\ named_edges K = [Edge 7 5 TAIL ARROW].
Proof.
  split; [|eexists; repeat split; vm_compute; reflexivity]. split; [split; [|split; reflexivity]|].
  - constructor; [intros [H|[]]; discriminate|constructor; [intros []|constructor]].
  - split.
    + intros [|[|i]] Hi; [reflexivity|reflexivity|exfalso; cbn in Hi; lia].
    + intros [|[|i]] [|[|j]] Hi Hj; cbn in Hi, Hj; try lia; vm_compute; tauto.
Qed.
(** A list of another length is refused. *)
Theorem C245_length_partial : forall G l, length l <> gn (ng G) -> nset_nodes G l = Raise.
Proof. intros G l H. unfold nset_nodes. destruct (Nat.eqb_spec (length l) (gn (ng G))); [contradiction|reflexivity]. Qed.

(** * C246: annotations of triples *)
Lemma teqb_spec s t : reflect (s = t) (teqb s t).
Proof.
  destruct s as [[a b] c], t as [[x y] z]. unfold teqb. destruct (Nat.eqb_spec a x), (Nat.eqb_spec b y), (Nat.eqb_spec c z); cbn; constructor; congruence.
Qed.
Definition tdec (s t : triple) : {s = t} + {s <> t} := match teqb_spec s t with ReflectT _ e => left e | ReflectF _ n => right n end.
Definition times (l : list triple) (t : triple) : nat := count_occ tdec l t.
Lemma times_cons s l t : times (s :: l) t = ((if teqb s t then 1 else 0) + times l t)%nat.
Proof. unfold times. cbn [count_occ]. destruct (tdec s t) as [E|E], (teqb_spec s t); try contradiction; reflexivity. Qed.
Lemma tremove_spec t l : match tremove t l with Ok r => times l t = S (times r t) /\ forall s, s <> t -> times r s = times l s | _ => times l t = 0%nat end.
Proof.
  induction l as [|s l IH]; [reflexivity|]. cbn [tremove]. destruct (teqb_spec s t) as [->|N].
  - split; [rewrite times_cons; destruct (teqb_spec t t); [reflexivity|contradiction]|]. intros u Hu. rewrite times_cons. destruct (teqb_spec t u); [congruence|reflexivity].
  - destruct (tremove t l) as [r|]; cbn [res_bind].
    + destruct IH as [I1 I2]. rewrite !times_cons. destruct (teqb_spec s t); [contradiction|]. split; [cbn; exact I1|]. intros u Hu. rewrite !times_cons, I2 by exact Hu. reflexivity.
    + rewrite times_cons. destruct (teqb_spec s t); [contradiction|exact IH].
Qed.
Lemma is_times l t : is_triple l t = true <-> (0 < times l t)%nat.
Proof.
  unfold is_triple. induction l as [|s l IH]; [cbn; split; [discriminate|lia]|]. rewrite times_cons. cbn [existsb]. rewrite orb_true_iff, IH. destruct (teqb_spec t s), (teqb_spec s t); try congruence; (split; [intros [?|?]; try discriminate; lia|intros ?; first [left; reflexivity|right; lia]]).
Qed.
Fixpoint added (t : triple) (os : list top) : nat := match os with [] => 0 | TAdd s :: r => (if teqb s t then 1 else 0) + added t r | _ :: r => added t r end.
Fixpoint removed (t : triple) (os : list top) : nat := match os with [] => 0 | TRemove s :: r => (if teqb s t then 1 else 0) + removed t r | _ :: r => removed t r end.
Lemma truns_raise os : fold_left (fun R o => res_bind R (fun l => tstep l o)) os Raise = Raise.
Proof. induction os; [reflexivity|assumption]. Qed.
Lemma truns_times os : forall l r t, (forall x, ~ In (TSet x) os) -> truns l os = Ok r -> (times r t + removed t os = times l t + added t os)%nat.
Proof.
  induction os as [|o os IH]; intros l r t NS; unfold truns; cbn [fold_left res_bind]; [intros [= ->]; cbn; lia|]. assert (NS' : forall x, ~ In (TSet x) os) by (intros x H; apply (NS x); now right).
  destruct o as [s|s|x]; cbn [tstep added removed].
  - intros H. specialize (IH (l ++ [s]) r t NS' H). assert (times (l ++ [s]) t = times l t + if teqb s t then 1 else 0)%nat; [|lia]. unfold times. rewrite count_occ_app. f_equal. cbn. destruct (tdec s t) as [E|E], (teqb_spec s t); try contradiction; reflexivity.
  - pose proof (tremove_spec s l) as Q. destruct (tremove s l) as [l'|]; [|rewrite truns_raise; discriminate]. intros H. specialize (IH l' r t NS' H). destruct Q as [Q1 Q2]. destruct (teqb_spec s t) as [->|N]; [lia|]. rewrite Q2 in IH by congruence. lia.
  - exfalso. apply (NS x). now left.
Qed.
(** After any additions and removals, starting from none: a triple is annotated just when it was added more often than removed; it is never removed more often. *)
Theorem C246_count : forall os r t, (forall x, ~ In (TSet x) os) -> truns [] os = Ok r -> (removed t os <= added t os)%nat /\ (is_triple r t = true <-> (removed t os < added t os)%nat).
Proof. intros os r t NS H. pose proof (truns_times os [] r t NS H) as Q. cbn [times count_occ] in Q. change (times [] t) with 0%nat in Q. rewrite is_times. lia. Qed.
(** Removing what is there succeeds, removing what is not raises. *)
Theorem C246_remove : forall l t, (exists r, tremove t l = Ok r) <-> is_triple l t = true.
Proof. intros l t. rewrite is_times. pose proof (tremove_spec t l) as Q. destruct (tremove t l) as [r|]; [split; [lia|eauto]|split; [intros [r [=]]|lia]]. Qed.
(** So they are no set: a triple added twice is still there after it was removed. *)
Theorem C246_set_refuted : forall t, exists r, truns [] [TAdd t; TAdd t; TRemove t] = Ok r /\ is_triple r t = true.
Proof. intros t. unfold truns. cbn. destruct (teqb_spec t t) as [_|N]; [|congruence]. eexists. split; [reflexivity|]. cbn. destruct (teqb_spec t t); [reflexivity|congruence]. Qed.
