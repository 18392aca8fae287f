(** FCI: the phases before the orientation rules. *)
From Verif Require Import Base EdgeModel EdgeProofs GraphModel GraphSpec GraphProofs DpathProofs QueryProps UtilsModel UtilsProofs
  SkelModel SkelProofs SkelMain PCModel FCIModel FCISpec DsepProofs MeekModel MeekSpec MeekProofs FCIProofs FCIRules FCILoops.
From Coq Require Import Permutation.
Local Open Scope Z_scope.

(** ** The edges of a mixed graph, one per adjacent pair *)
Definition pairs_lt (n : nat) : list (nat * nat) := flat_map (fun i => map (pair i) (seq (Datatypes.S i) (n - Datatypes.S i))) (seq 0 n).
Lemma in_pairs_lt n i j : In (i, j) (pairs_lt n) <-> (i < j)%nat /\ (j < n)%nat.
Proof.
  unfold pairs_lt. rewrite in_flat_map. split.
  - intros (k & Hk & H). apply in_map_iff in H. destruct H as (l & [= -> ->] & Hl). apply in_seq in Hk, Hl. lia.
  - intros [H1 H2]. exists i. split; [apply in_seq; lia|]. apply in_map. apply in_seq. lia.
Qed.
Lemma NoDup_app_disj {A} (l1 l2 : list A) : NoDup l1 -> NoDup l2 -> (forall z, In z l1 -> ~ In z l2) -> NoDup (l1 ++ l2).
Proof.
  induction 1 as [|a l Na HN IH]; intros H2 HD; cbn; [exact H2|]. constructor.
  - rewrite in_app_iff. intros [H|H]; [contradiction|]. apply (HD a); [now left|exact H].
  - apply IH; [exact H2|]. intros z Hz. apply HD. now right.
Qed.
Lemma NoDup_flat_map {A B} (f : A -> list B) l : NoDup l -> (forall x, In x l -> NoDup (f x)) ->
  (forall x y z, In x l -> In y l -> In z (f x) -> In z (f y) -> x = y) -> NoDup (flat_map f l).
Proof.
  induction 1 as [|a l Na HN IH]; intros H1 H2; cbn; [constructor|]. apply NoDup_app_disj; [apply H1; now left| |].
  - apply IH; [intros; apply H1; now right|]. intros; eapply H2; eauto; now right.
  - intros z Hz Hz2. apply in_flat_map in Hz2. destruct Hz2 as (y & Hy & Hz2). apply Na. rewrite (H2 a y z); auto; [now left|now right].
Qed.
Lemma pairs_lt_NoDup n : NoDup (pairs_lt n).
Proof.
  unfold pairs_lt. apply NoDup_flat_map; [apply seq_NoDup| |].
  - intros i _. apply FinFun.Injective_map_NoDup; [intros x y [=]; assumption|apply seq_NoDup].
  - intros x y z _ _ H1 H2. apply in_map_iff in H1, H2. destruct H1 as (u & <- & _), H2 as (v & [= <-] & _). reflexivity.
Qed.
Definition edge_at (g : ggraph) (p : nat * nat) : edge :=
  match get_edge g (fst p) (snd p) with Ok (Some e) => e | _ => Edge 0 0 TAIL TAIL end.
Definition adjacent_pairs (n : nat) (g : ggraph) : list (nat * nat) := filter (fun p => negb (gm g (fst p) (snd p) =? 0)) (pairs_lt n).
Lemma mixed_pair_edges n g i j : mixed n g -> (i < n)%nat -> (j < n)%nat ->
  pair_edges g i j = if negb (gm g i j =? 0) then [edge_at g (i, j)] else [].
Proof.
  intros HM Hi Hj. unfold pair_edges. cbn zeta. destruct (Z.eqb_spec (gm g i j) 0) as [E|N]; cbn [negb].
  - rewrite (mx_zero n g HM i j Hi Hj E), E. reflexivity.
  - destruct (mx_edge n g HM i j Hi Hj N) as (a & b & Ma & Mb & E1 & E2 & EE). unfold edge_at. cbn [fst snd]. rewrite EE, E2.
    destruct Mb as [-> | [-> | ->]]; reflexivity.
Qed.
Lemma map_filter_flat {A B} (f : A -> bool) (h : A -> B) l : map h (filter f l) = flat_map (fun x => if f x then [h x] else []) l.
Proof. induction l as [|x l IH]; cbn; [reflexivity|]. destruct (f x); cbn; now rewrite IH. Qed.
Lemma flat_map_flat_map {A B C} (f : B -> list C) (h : A -> list B) l : flat_map f (flat_map h l) = flat_map (fun x => flat_map f (h x)) l.
Proof. induction l as [|x l IH]; cbn; [reflexivity|]. now rewrite flat_map_app, IH. Qed.
Lemma flat_map_map {A B C} (f : B -> list C) (h : A -> B) l : flat_map f (map h l) = flat_map (fun x => f (h x)) l.
Proof. induction l as [|x l IH]; cbn; [reflexivity|]. now rewrite IH. Qed.
Lemma flat_map_ext_in {A B} (f h : A -> list B) l : (forall x, In x l -> f x = h x) -> flat_map f l = flat_map h l.
Proof. induction l as [|x l IH]; cbn; intros H; [reflexivity|]. rewrite H by now left. f_equal. apply IH. intros; apply H; now right. Qed.
Lemma graph_edges_map n g : mixed n g -> get_graph_edges g = map (edge_at g) (adjacent_pairs n g).
Proof.
  intros HM. unfold adjacent_pairs. rewrite map_filter_flat. unfold pairs_lt. rewrite flat_map_flat_map. unfold get_graph_edges. rewrite (mx_n _ _ HM).
  apply flat_map_ext_in. intros i Hi. rewrite flat_map_map. apply flat_map_ext_in. intros j Hj. apply in_seq in Hi, Hj. cbn [fst snd].
  apply (mixed_pair_edges n); [exact HM|lia|lia].
Qed.
Lemma in_adjacent_pairs n g i j : In (i, j) (adjacent_pairs n g) <-> (i < j)%nat /\ (j < n)%nat /\ gm g i j <> 0.
Proof. unfold adjacent_pairs. rewrite filter_In, in_pairs_lt. cbn [fst snd]. rewrite negb_true_iff, Z.eqb_neq. tauto. Qed.
Lemma adjacent_pairs_NoDup n g : NoDup (adjacent_pairs n g).
Proof. apply NoDup_filter, pairs_lt_NoDup. Qed.

(** A loop over the edges of g that treats each edge once and touches nothing else. *)
Definition off (i j a b : nat) : Prop := ~ (a = i /\ b = j) /\ ~ (a = j /\ b = i).
Lemma edges_fold {St} n (f : St -> edge -> outcome St) (gr : St -> ggraph) (I : St -> Prop) (D : nat -> nat -> Z -> Z -> Prop) g s0 :
  mixed n g -> gr s0 = g -> I s0 ->
  (forall s i j, (i < j)%nat -> (j < n)%nat -> gm g i j <> 0 -> I s -> gm (gr s) i j = gm g i j -> gm (gr s) j i = gm g j i ->
     exists s', f s (edge_at g (i, j)) = Ret s' /\ I s' /\ D i j (gm (gr s') i j) (gm (gr s') j i) /\
       forall a b, off i j a b -> gm (gr s') a b = gm (gr s) a b) ->
  exists s', foldO f (get_graph_edges g) s0 = Ret s' /\ I s' /\
    (forall i j, (i < j)%nat -> (j < n)%nat -> gm g i j <> 0 -> D i j (gm (gr s') i j) (gm (gr s') j i)) /\
    (forall i j, (i < n)%nat -> (j < n)%nat -> gm g i j = 0 -> gm (gr s') i j = 0).
Proof.
  intros HM E0 I0 HS. rewrite (graph_edges_map n g HM).
  assert (G : forall ps, NoDup ps -> (forall i j, In (i, j) ps -> (i < j)%nat /\ (j < n)%nat /\ gm g i j <> 0) ->
    forall s, I s -> (forall i j, In (i, j) ps -> gm (gr s) i j = gm g i j /\ gm (gr s) j i = gm g j i) ->
    exists s', foldO f (map (edge_at g) ps) s = Ret s' /\ I s' /\
      (forall i j, In (i, j) ps -> D i j (gm (gr s') i j) (gm (gr s') j i)) /\
      (forall a b, ~ In (a, b) ps -> ~ In (b, a) ps -> gm (gr s') a b = gm (gr s) a b)).
  { induction ps as [|(i, j) ps IH]; intros HN HP s Is HU; cbn [map foldO].
    - exists s. repeat split; auto; easy.
    - inversion HN as [|? ? Nin HN']; subst. destruct (HP i j (or_introl eq_refl)) as (Hij & Hj & Na). destruct (HU i j (or_introl eq_refl)) as [U1 U2].
      destruct (HS s i j Hij Hj Na Is U1 U2) as (s1 & -> & I1 & D1 & F1). cbn [obind].
      destruct (IH HN') with (s := s1) as (s2 & E2 & I2 & D2 & F2); [intros; apply HP; now right|exact I1| |].
      { intros a b Hab. destruct (HP a b (or_intror Hab)) as (Hab1 & _). destruct (HU a b (or_intror Hab)) as [<- <-].
        assert (O : ~ (a = i /\ b = j)) by (intros [-> ->]; contradiction). split; apply F1; unfold off; lia. }
      exists s2. split; [exact E2|]. split; [exact I2|]. split.
      + intros a b [[= <- <-]|Hab]; [|now apply D2].
        assert (N2 : ~ In (j, i) ps) by (intros Q; destruct (HP j i (or_intror Q)); lia).
        rewrite (F2 i j), (F2 j i) by assumption. exact D1.
      + intros a b N1 N2. rewrite F2 by (intros Q; first [apply N1; now right|apply N2; now right]). apply F1.
        split; intros [-> ->]; [apply N1|apply N2]; now left. }
  destruct (G (adjacent_pairs n g) (adjacent_pairs_NoDup n g)) with (s := s0) as (s' & E & Is' & D' & F').
  - intros i j H. now apply in_adjacent_pairs.
  - exact I0.
  - intros. now rewrite E0.
  - exists s'. split; [exact E|]. split; [exact Is'|]. split.
    + intros. apply D'. now apply in_adjacent_pairs.
    + intros i j Hi Hj Z0. rewrite F', E0; [exact Z0| |]; rewrite in_adjacent_pairs; [tauto|]. pose proof (mx_zero n g HM i j Hi Hj Z0). tauto.
Qed.
Lemma foldO_ret {A St} (f : St -> A -> St) l : forall s, foldO (fun s a => Ret (f s a)) l s = Ret (fold_left f l s).
Proof. induction l as [|a l IH]; intros s; cbn; [reflexivity|apply IH]. Qed.

(** Removing the edge of a pair, and putting another one there. *)
Section Put.
Variables (n : nat) (h : ggraph).
Hypothesis HM : mixed n h.
Variables i j : nat.
Hypothesis Hi : (i < n)%nat.
Hypothesis Hj : (j < n)%nat.
Hypothesis Na : gm h i j <> 0.
Lemma remove_spec : let g1 := remove_edge h (edge_at h (i, j)) in
  mixed n g1 /\ gm g1 i j = 0 /\ gm g1 j i = 0 /\ forall a b, off i j a b -> gm g1 a b = gm h a b.
Proof.
  cbn zeta. destruct (mx_edge n h HM i j Hi Hj Na) as (a0 & b0 & Ma & Mb & E1 & E2 & EE). unfold edge_at. cbn [fst snd]. rewrite EE.
  pose proof (mx_neq n h HM i j Hi Na) as Nij. set (e := Edge i j a0 b0). set (g1 := remove_edge h e).
  assert (Ne : e_node1 e <> e_node2 e) by (unfold e; destruct (Edge_nodes i j a0 b0) as [[-> ->]|[-> ->]]; auto).
  assert (Z1 : gm g1 i j = 0 /\ gm g1 j i = 0).
  { pose proof (remove_edge_pair h e Ne) as HP. fold g1 in HP. unfold e, Edge, remove_pair in HP.
    destruct Ma as [-> | [-> | ->]], Mb as [-> | [-> | ->]]; cbn in HP, E1, E2; rewrite E1, E2 in HP; cbn in HP; injection HP; auto. }
  assert (F1 : forall a b, off i j a b -> gm g1 a b = gm h a b).
  { intros a b [H1 H2]. unfold g1. apply remove_edge_frame; unfold e; destruct (Edge_nodes i j a0 b0) as [[-> ->]|[-> ->]]; tauto. }
  split; [|tauto]. destruct HM as (Hn & Hw & Hs). split; [unfold g1; now rewrite remove_edge_gn|]. split.
  - apply remove_edge_wf; [exact Hw|]. unfold op_on, e. cbn. destruct (Edge_nodes i j a0 b0) as [[-> ->]|[-> ->]]; lia.
  - apply remove_edge_simple; [exact Hs|]. unfold op_on, e. cbn. destruct (Edge_nodes i j a0 b0) as [[-> ->]|[-> ->]]; lia.
Qed.
Lemma put_spec g1 x y a b : mixed n g1 -> gm g1 i j = 0 -> gm g1 j i = 0 -> (x = i /\ y = j) \/ (x = j /\ y = i) -> storable a b ->
  let g2 := add_edge g1 (Edge x y a b) in
  mixed n g2 /\ gm g2 x y = ev a /\ gm g2 y x = ev b /\ forall u v, off i j u v -> gm g2 u v = gm g1 u v.
Proof.
  intros M1 Z1 Z2 Hxy HS. cbn zeta. pose proof (mx_neq n h HM i j Hi Na) as Nij.
  assert (Nxy : x <> y) by (destruct Hxy as [[-> ->]|[-> ->]]; auto).
  assert (Zx : gm g1 x y = 0 /\ gm g1 y x = 0) by (destruct Hxy as [[-> ->]|[-> ->]]; auto).
  assert (Hx : (x < n)%nat /\ (y < n)%nat) by (destruct Hxy as [[-> ->]|[-> ->]]; auto).
  destruct (add_edge_new g1 x y a b Nxy (proj1 Zx) (proj2 Zx) HS) as [K1 K2].
  assert (F2 : forall u v, off i j u v -> gm (add_edge g1 (Edge x y a b)) u v = gm g1 u v).
  { intros u v [H1 H2]. apply add_edge_frame; destruct (Edge_nodes x y a b) as [[-> ->]|[-> ->]]; destruct Hxy as [[-> ->]|[-> ->]]; tauto. }
  split; [|split; [exact K1|split; [exact K2|exact F2]]]. destruct M1 as (Hn & Hw & Hs).
  split; [now rewrite add_edge_gn|]. split.
  - apply add_edge_wf; [exact Hw|]. unfold op_on. cbn. rewrite Hn. destruct (Edge_nodes x y a b) as [[-> ->]|[-> ->]]; lia.
  - intros u v Hu Hv. rewrite add_edge_gn in Hu, Hv. destruct HS as (Sa & Sb & _).
    assert (D : (u = x /\ v = y) \/ (u = y /\ v = x) \/ off i j u v). { unfold off. destruct Hxy as [[-> ->]|[-> ->]]; lia. }
    destruct D as [[-> ->] | [[-> ->] | D]].
    + rewrite K1. destruct Sa as [-> | [-> | ->]]; cbn; auto.
    + rewrite K2. destruct Sb as [-> | [-> | ->]]; cbn; auto.
    + rewrite F2 by exact D. apply Hs; assumption.
Qed.
End Put.
Lemma edge_at_same g h i j : gm h i j = gm g i j -> gm h j i = gm g j i -> edge_at h (i, j) = edge_at g (i, j).
Proof. intros E1 E2. unfold edge_at, get_edge. cbn [fst snd]. now rewrite E1, E2. Qed.

(** ** Initial marks *)
Lemma reorient_spec n g : mixed n g -> let g' := reorient_all g in
  mixed n g' /\ forall i j, (i < n)%nat -> (j < n)%nat -> (gm g i j <> 0 -> gm g' i j = 2) /\ (gm g i j = 0 -> gm g' i j = 0).
Proof.
  intros HM. cbn zeta. unfold reorient_all.
  destruct (edges_fold n (fun g e => Ret (add_edge (remove_edge g e) (set_endpoint2 (set_endpoint1 e CIRCLE) CIRCLE))) (fun g => g) (mixed n)
    (fun i j u v => u = 2 /\ v = 2) g g HM eq_refl HM) as (g' & E & M' & D & Z).
  - intros h i j Hij Hj Na Mh U1 U2. assert (Hi : (i < n)%nat) by lia. rewrite <- (edge_at_same g h i j U1 U2).
    assert (Nh : gm h i j <> 0) by congruence. destruct (remove_spec n h Mh i j Hi Hj Nh) as (M1 & Z1 & Z2 & F1).
    assert (EC : exists x y, set_endpoint2 (set_endpoint1 (edge_at h (i, j)) CIRCLE) CIRCLE = Edge x y CIRCLE CIRCLE /\ ((x = i /\ y = j) \/ (x = j /\ y = i))).
    { destruct (mx_edge n h Mh i j Hi Hj Nh) as (a0 & b0 & Ma & Mb & E1 & E2 & EE). unfold edge_at. cbn [fst snd]. rewrite EE.
      destruct Ma as [-> | [-> | ->]], Mb as [-> | [-> | ->]]; unfold Edge, set_endpoint1, set_endpoint2, flip_if_left; cbn; do 2 eexists; (split; [reflexivity|auto]). }
    destruct EC as (x & y & -> & Hxy).
    destruct (put_spec n h Mh i j Hi Hj Nh _ x y CIRCLE CIRCLE M1 Z1 Z2 Hxy) as (M2 & K1 & K2 & F2). { split; [apply mkC|]. split; [apply mkC|]. intros []; discriminate. }
    eexists. split; [reflexivity|]. split; [exact M2|]. split; [destruct Hxy as [[-> ->]|[-> ->]]; auto|]. intros a b O. now rewrite F2, F1.
  - rewrite foldO_ret in E. injection E as <-. split; [exact M'|]. intros i j Hi Hj. split; [|now apply Z]. intros Na.
    pose proof (mx_neq n g HM i j Hi Na). assert (C : (i < j)%nat \/ (j < i)%nat) by lia. destruct C as [C|C].
    + now apply (D i j).
    + destruct (D j i) as [_ K]; auto. intros Q. apply Na. now apply (mx_zero n g HM).
Qed.
Section BK.
Variables forb req : nat -> nat -> bool.
(** The direction background knowledge gives to an edge between i < j: Some true is i --> j. *)
Definition bk_dir (i j : nat) : option bool :=
  if forb i j then Some false else if forb j i then Some true else if req i j then Some true else if req j i then Some false else None.
Lemma add_directed_mixed n h i j : mixed n h -> (i < n)%nat -> (j < n)%nat -> i <> j ->
  let h' := add_directed_edge h i j in mixed n h' /\ gm h' i j = -1 /\ gm h' j i = 1 /\ forall a b, off i j a b -> gm h' a b = gm h a b.
Proof.
  intros (Hn & Hw & Hs) Hi Hj N. cbn zeta. unfold add_directed_edge. cbn.
  assert (E1 : upd2 (gm h) i j 1 (-1) i j = -1) by (rewrite upd2_ij by congruence; reflexivity).
  assert (E2 : upd2 (gm h) i j 1 (-1) j i = 1) by (rewrite upd2_ji by congruence; reflexivity).
  assert (F : forall a b, off i j a b -> upd2 (gm h) i j 1 (-1) a b = gm h a b) by (intros a b [H1 H2]; apply upd2_other; tauto).
  split; [|auto]. split; [exact Hn|]. split.
  - apply (gapply_wf h (AddDirected i j)); [exact Hw|]. unfold op_on. cbn. lia.
  - intros a b Ha Hb. cbn [gm gn] in *. assert (D : (a = i /\ b = j) \/ (a = j /\ b = i) \/ off i j a b) by (unfold off; lia).
    destruct D as [[-> ->]|[[-> ->]|D]]; [rewrite E1; auto|rewrite E2; auto|rewrite F by exact D; now apply Hs].
Qed.
Lemma bk_spec n g : mixed n g -> (forall i j, (i < n)%nat -> (j < n)%nat -> gm g i j = 0 \/ gm g i j = 2) ->
  let g' := fci_orient_bk forb req g in
  mixed n g' /\ (forall i j, (i < n)%nat -> (j < n)%nat -> gm g i j = 0 -> gm g' i j = 0) /\
  forall i j, (i < j)%nat -> (j < n)%nat -> gm g i j <> 0 ->
    match bk_dir i j with Some true => gm g' i j = -1 /\ gm g' j i = 1 | Some false => gm g' i j = 1 /\ gm g' j i = -1 | None => gm g' i j = 2 /\ gm g' j i = 2 end.
Proof.
  intros HM HC. cbn zeta. unfold fci_orient_bk.
  destruct (edges_fold n (fun g e => Ret (fci_bk_step forb req g e)) (fun g => g) (mixed n)
    (fun i j u v => match bk_dir i j with Some true => u = -1 /\ v = 1 | Some false => u = 1 /\ v = -1 | None => u = 2 /\ v = 2 end) g g HM eq_refl HM) as (g' & E & M' & D & Z).
  - intros h i j Hij Hj Na Mh U1 U2. assert (Hi : (i < n)%nat) by lia.
    assert (Na2 : gm g j i <> 0) by (intros Q; apply Na; now apply (mx_zero n g HM)).
    assert (C1 : gm g i j = 2) by (destruct (HC i j Hi Hj); [contradiction|assumption]). assert (C2 : gm g j i = 2) by (destruct (HC j i Hj Hi); [contradiction|assumption]).
    rewrite <- (edge_at_same g h i j U1 U2). assert (Nh : gm h i j <> 0) by congruence.
    destruct (remove_spec n h Mh i j Hi Hj Nh) as (M1 & Z1 & Z2 & F1).
    assert (EE : edge_at h (i, j) = mkE i j CIRCLE CIRCLE 2 2). { unfold edge_at, get_edge. cbn [fst snd]. rewrite U1, U2, C1, C2. reflexivity. }
    rewrite EE in *. unfold fci_bk_step, bk_dir. cbn [e_node1 e_node2].
    destruct (add_directed_mixed n _ i j M1 Hi Hj) as (A1 & A2 & A3 & A4); [lia|]. destruct (add_directed_mixed n _ j i M1 Hj Hi) as (B1 & B2 & B3 & B4); [lia|].
    assert (OS : forall a b, off i j a b -> off j i a b) by (unfold off; tauto).
    destruct (forb i j); [|destruct (forb j i); [|destruct (req i j); [|destruct (req j i)]]];
    (eexists; split; [reflexivity|]; split; [eassumption|]; split; [split; congruence|]; intros; try reflexivity;
     first [rewrite A4 by auto|rewrite B4 by auto]; now apply F1).
  - rewrite foldO_ret in E. injection E as <-. split; [exact M'|]. split; [exact Z|exact D].
Qed.
End BK.

(** ** rule0 *)
Lemma foldO_each {A St} (f : St -> A -> outcome St) (P : St -> Prop) (R : St -> St -> Prop) (Q : A -> St -> Prop) l :
  (forall s, P s -> R s s) -> (forall s1 s2 s3, R s1 s2 -> R s2 s3 -> R s1 s3) -> (forall a s s', Q a s -> R s s' -> Q a s') ->
  (forall s a, In a l -> P s -> exists s', f s a = Ret s' /\ P s' /\ R s s' /\ Q a s') ->
  forall s, P s -> exists s', foldO f l s = Ret s' /\ P s' /\ R s s' /\ forall a, In a l -> Q a s'.
Proof.
  intros Rr Rt Qm. induction l as [|a l IH]; intros HS s Hs; cbn [foldO].
  - exists s. repeat split; auto; easy.
  - destruct (HS s a (or_introl eq_refl) Hs) as (s1 & -> & P1 & R1 & Q1). cbn [obind].
    destruct (IH (fun s x Hx => HS s x (or_intror Hx)) s1 P1) as (s2 & E2 & P2 & R2 & Q2). exists s2. split; [exact E2|]. split; [exact P2|]. split; [eapply Rt; eauto|].
    intros x [<-|Hx]; [eapply Qm; eauto|auto].
Qed.
Section Rule0.
Variables forb req : nat -> nat -> bool.
Variable sep : sepsets.
Variable n : nat.
(** The reason for which rule0 makes b a collider between a and c: they are joined to b, not to each other, and b is not in
    the set recorded for them. *)
Definition collider_reason (g : ggraph) (a b c : nat) : Prop :=
  (a < n)%nat /\ (c < n)%nat /\ a <> c /\ adj g a b /\ adj g c b /\ ~ adj g a c /\ exists s, sep (Nat.min a c) (Nat.max a c) = Some s /\ ~ In b s.
Lemma reason_sym g a b c : mixed n g -> collider_reason g a b c -> collider_reason g c b a.
Proof.
  intros HM (Ha & Hc & N & J1 & J2 & J3 & s & E & Hs). unfold collider_reason. do 2 (split; [assumption|]). split; [congruence|]. do 2 (split; [assumption|]).
  split; [intros J; apply J3; intros Q; apply J; unfold adj in *; apply (mx_zero n g HM); auto|]. exists s. now rewrite Nat.min_comm, Nat.max_comm.
Qed.
Definition same_adj (g g' : ggraph) : Prop := forall x y, (x < n)%nat -> (y < n)%nat -> adj g' x y <-> adj g x y.
(** g' has the marks of g, and new arrows, each with a reason. *)
Definition r0_rel (g0 g g' : ggraph) : Prop :=
  only_fills n g g' /\
  forall x y, (x < n)%nat -> (y < n)%nat -> gm g' y x = gm g y x \/ (gm g' y x = 1 /\ gm g y x = 2 /\ exists c, collider_reason g0 x y c).
Lemma r0_refl g0 g : mixed n g -> r0_rel g0 g g.
Proof. intros. split; [now apply fills_refl|auto]. Qed.
Lemma r0_trans g0 g1 g2 g3 : r0_rel g0 g1 g2 -> r0_rel g0 g2 g3 -> r0_rel g0 g1 g3.
Proof.
  intros [A1 A2] [B1 B2]. split; [eapply fills_trans; eauto|]. intros x y Hx Hy. destruct (A2 x y Hx Hy) as [E|(E1 & E2 & H)], (B2 x y Hx Hy) as [F|(F1 & F2 & H')].
  - left. congruence.
  - right. rewrite E in F2. auto.
  - right. rewrite F. auto.
  - lia.
Qed.
Lemma rule0_step_spec g0 b a c g : same_adj g0 g -> mixed n g -> (a < n)%nat -> (b < n)%nat -> (c < n)%nat -> (a < c)%nat -> adj g0 a b -> adj g0 c b ->
  exists g', rule0_step forb sep b g (a, c) = Ret g' /\ mixed n g' /\ r0_rel g0 g g' /\
    (collider_reason g0 a b c -> (arrow_at g' a b /\ arrow_at g' c b) \/ allowed forb g a b = false \/ allowed forb g c b = false).
Proof.
  intros SA HM Ha Hb Hc Hac Ja Jc. unfold rule0_step.
  pose proof (proj2 (SA a b Ha Hb) Ja) as Ja'. pose proof (proj2 (SA c b Hc Hb) Jc) as Jc'. unfold adj in Ja', Jc'.
  assert (Nab : gm g a b <> 0) by (intros Q; apply Ja'; now apply (mx_zero n g HM)). assert (Ncb : gm g c b <> 0) by (intros Q; apply Jc'; now apply (mx_zero n g HM)).
  pose proof (mx_neq n g HM a b Ha Nab) as N1. pose proof (mx_neq n g HM c b Hc Ncb) as N2.
  destruct (is_adjacent_to g a c) eqn:EA.
  { exists g. split; [reflexivity|]. split; [exact HM|]. split; [now apply r0_refl|]. intros (_ & _ & _ & _ & _ & J & _). exfalso. apply J, SA; auto. now apply adj_iff in EA. }
  apply adj_no in EA.
  destruct (def_coll g a b c) eqn:EC.
  { exists g. split; [reflexivity|]. split; [exact HM|]. split; [now apply r0_refl|]. intros _. left. apply (coll_iff n g HM) in EC; auto. }
  destruct (sep a c) as [s|] eqn:ES.
  2:{ exists g. split; [reflexivity|]. split; [exact HM|]. split; [now apply r0_refl|]. intros (_ & _ & _ & _ & _ & _ & s & Q & _).
      rewrite Nat.min_l, Nat.max_r in Q by lia. congruence. }
  destruct (negb (memb b s) && allowed forb g a b && allowed forb g c b) eqn:EG.
  - bools. rename H0 into Al1. rename H1 into Al2. assert (Hs : ~ In b s) by now apply memb_not_In.
    pose proof Al1 as Al1'. pose proof Al2 as Al2'. apply (allowed_iff n g HM) in Al1, Al2; auto.
    assert (K1 : gm g b a = 1 \/ gm g b a = 2) by tauto. assert (K2 : gm g b c = 1 \/ gm g b c = 2) by tauto. clear Al1 Al2.
    assert (RS : collider_reason g0 a b c).
    { do 2 (split; [assumption|]). split; [lia|]. do 2 (split; [assumption|]). split; [intros J; apply SA in J; auto|]. exists s.
      rewrite Nat.min_l, Nat.max_r by lia. auto. }
    assert (RS2 : exists c', collider_reason g0 c b c').
    { exists a. destruct RS as (? & ? & ? & ? & ? & J & ? & ? & ?). do 2 (split; [assumption|]). split; [lia|]. do 2 (split; [assumption|]).
      split; [|exists s; rewrite Nat.min_r, Nat.max_l by lia; auto]. intros Q. apply SA in Q; auto. apply Q. now apply (mx_zero n g HM). }
    destruct (reedge_left n g HM a b ARROW Ha Hb Nab mkA) as (g1 & -> & M1 & MK1); [intros []; discriminate|]. cbn [obind ev] in *.
    destruct MK1 as (P1 & P2 & P3).
    assert (Fcb : gm g1 c b = gm g c b) by (apply P3; lia). assert (Fbc : gm g1 b c = gm g b c) by (apply P3; lia).
    destruct (reedge_left n g1 M1 c b ARROW Hc Hb) as (g2 & -> & M2 & MK2); [congruence|apply mkA|intros []; discriminate|]. cbn [ev] in MK2.
    destruct MK2 as (Q1 & Q2 & Q3). exists g2. split; [reflexivity|]. split; [exact M2|].
    assert (Gba : gm g2 b a = 1) by (rewrite Q3 by lia; exact P2).
    assert (G : forall i j, ~ (i = b /\ (j = a \/ j = c)) -> gm g2 i j = gm g i j).
    { intros i j N. assert (D : (i = c /\ j = b) \/ ~ (i = c /\ j = b)) by lia. destruct D as [[-> ->]|D]; [congruence|]. rewrite Q3 by lia.
      assert (D2 : (i = a /\ j = b) \/ ~ (i = a /\ j = b)) by lia. destruct D2 as [[-> ->]|D2]; [exact P1|]. apply P3; lia. }
    split; [split|].
    + intros x y Hx Hy. unfold circle_at, arrow_at, tail_at. assert (D : (y = b /\ x = a) \/ (y = b /\ x = c) \/ ~ (y = b /\ (x = a \/ x = c))) by lia.
      destruct D as [[-> ->]|[[-> ->]|D]]; [lia|lia|]. rewrite G by exact D. lia.
    + intros x y Hx Hy. assert (D : (y = b /\ x = a) \/ (y = b /\ x = c) \/ ~ (y = b /\ (x = a \/ x = c))) by lia.
      destruct D as [[-> ->]|[[-> ->]|D]]; [| |left; now apply G].
      * destruct K1 as [K1|K1]; [left; lia|right]. split; [exact Gba|]. split; [exact K1|]. eauto.
      * destruct K2 as [K2|K2]; [left; lia|right]. split; [exact Q2|]. split; [exact K2|]. exact RS2.
    + intros _. left. unfold arrow_at. auto.
  - exists g. split; [reflexivity|]. split; [exact HM|]. split; [now apply r0_refl|]. intros (_ & _ & _ & _ & _ & _ & s' & Q & Hs).
    rewrite Nat.min_l, Nat.max_r in Q by lia. rewrite ES in Q. injection Q as <-. right. apply memb_not_In in Hs. rewrite Hs in EG. cbn [negb andb] in EG.
    destruct (allowed forb g a b); [|auto]. right. exact EG.
Qed.
Lemma adjn_sorted g v x y l1 l2 l3 : get_adjacent_nodes g v = l1 ++ x :: l2 ++ y :: l3 -> (x < y)%nat.
Proof.
  unfold get_adjacent_nodes. generalize (gn g) as m. intros m. generalize (fun i => negb (gm g v i =? 0) && negb (gm g i v =? 0)) as f. intros f.
  generalize 0%nat as k. intros k. revert k l1. induction m as [|m IH]; intros k l1; cbn [seq filter]; [destruct l1; discriminate|].
  destruct (f k); [|apply IH]. destruct l1 as [|z l1]; cbn [app]; intros [= -> E]; [|eapply IH; exact E].
  assert (Hy : In y (filter f (seq (Datatypes.S x) m))) by (rewrite E; apply in_or_app; right; now left). apply filter_In in Hy. destruct Hy as [Hy _]. apply in_seq in Hy. lia.
Qed.
Lemma same_adj_fills g0 g g' : same_adj g0 g -> only_fills n g g' -> same_adj g0 g'.
Proof. intros H F x y Hx Hy. apply fills_weak in F. rewrite (proj1 (F x y Hx Hy)). now apply H. Qed.
Definition never_tailed (g : ggraph) : Prop := forall x y, (x < n)%nat -> (y < n)%nat -> ~ tail_at g x y.
Lemma rule0_fold g0 : mixed n g0 -> exists g',
  foldO (fun g b => foldO (rule0_step forb sep b) (upairs (get_adjacent_nodes g b)) g) (seq 0 (gn g0)) g0 = Ret g' /\ mixed n g' /\ r0_rel g0 g0 g' /\
  ((forall x y, forb x y = false) -> never_tailed g0 -> forall a b c, (b < n)%nat -> collider_reason g0 a b c -> arrow_at g' a b).
Proof.
  intros HM. rewrite (mx_n _ _ HM).
  set (P := fun g => mixed n g /\ same_adj g0 g). set (R := r0_rel g0).
  set (ok := (forall x y, forb x y = false) /\ never_tailed g0).
  assert (AL : forall g x y, ok -> R g0 g -> mixed n g -> (x < n)%nat -> (y < n)%nat -> adj g x y -> allowed forb g x y = true).
  { intros g x y [O1 O2] [_ R2] Mg Hx Hy J. apply (allowed_iff n g Mg); auto. specialize (O2 x y Hx Hy). unfold tail_at in O2. unfold adj in J.
    pose proof (mx_codes n g Mg y x Hy Hx) as C. specialize (R2 x y Hx Hy).
    assert (T : gm g y x <> -1) by (destruct R2 as [R2|(R2 & _)]; lia). rewrite O1.
    assert (D : gm g y x = 1 \/ gm g y x = 2) by lia. destruct D as [D|D]; [auto|]. right. split; [exact D|]. intros []. discriminate. }
  destruct (foldO_each (fun g b => foldO (rule0_step forb sep b) (upairs (get_adjacent_nodes g b)) g) (fun g => P g /\ R g0 g) R
    (fun b g => (b < n)%nat -> ok -> forall a c, collider_reason g0 a b c -> arrow_at g a b) (seq 0 n)) with (s := g0) as (g' & E & (P1 & P1') & P2 & P3).
  - intros s [[Hs _] _]. now apply r0_refl.
  - intros. eapply r0_trans; eauto.
  - intros b s s' HQ [HR _] Hb O a c HC. specialize (HQ Hb O a c HC). pose proof HC as (Ha & Hc & _ & J & _).
    destruct (HR a b Ha Hb) as [K _]. unfold arrow_at, circle_at in *. rewrite K; lia.
  - intros g b Hb [[Mg SA] Rg]. apply in_seq0 in Hb. 
    destruct (foldO_each (rule0_step forb sep b) (fun h => P h /\ R g0 h) R (fun ac h => ok -> collider_reason g0 (fst ac) b (snd ac) -> arrow_at h (fst ac) b /\ arrow_at h (snd ac) b)
      (upairs (get_adjacent_nodes g b))) with (s := g) as (h & Eh & Ph & Rh & Qh).
    + intros s [[Hs _] _]. now apply r0_refl.
    + intros. eapply r0_trans; eauto.
    + intros (a, c) s s' HQ [HR _] O HC. cbn [fst snd] in *. destruct (HQ O HC) as [Q1 Q2]. pose proof HC as (Ha & Hc & _).
      destruct (HR a b Ha Hb) as [K1 _]. destruct (HR c b Hc Hb) as [K2 _]. unfold arrow_at, circle_at in *. rewrite K1, K2; lia.
    + intros s (a, c) Hin [[Ms SAs] Rs]. pose proof (in_upairs _ _ _ Hin) as [Ha Hc]. apply (in_adjn n g Mg) in Ha, Hc; auto. destruct Ha as [Ha Na], Hc as [Hc Nc].
      assert (Hac : (a < c)%nat) by (eapply upairs_sorted; [|exact Hin]; intros; eapply adjn_sorted; eauto).
      assert (Ja : adj g0 a b) by (apply SA; auto). assert (Jc : adj g0 c b) by (apply SA; auto).
      destruct (rule0_step_spec g0 b a c s SAs Ms Ha Hb Hc Hac Ja Jc) as (s' & E' & M' & R' & HQ). exists s'. split; [exact E'|].
      assert (R0' : R g0 s') by (eapply r0_trans; eauto).
      split; [split; [split; [exact M'|eapply same_adj_fills; [exact SAs|apply R']]|exact R0']|]. split; [exact R'|]. cbn [fst snd].
      intros O HC. destruct (HQ HC) as [H|[H|H]]; [exact H| |]; rewrite AL in H; auto; try discriminate; now apply SAs.
    + split; [split; assumption|exact Rg].
    + exists h. split; [exact Eh|]. split; [exact Ph|]. split; [exact Rh|]. intros _ O a c HC. pose proof HC as (Ha & Hc & Nac & Ja & Jc & _).
      assert (Ia : In a (get_adjacent_nodes g b)). { apply (in_adjn n g Mg); auto. split; [exact Ha|]. apply SA; auto. }
      assert (Ic : In c (get_adjacent_nodes g b)). { apply (in_adjn n g Mg); auto. split; [exact Hc|]. apply SA; auto. }
      destruct (upairs_complete _ _ _ Ia Ic Nac) as [H|H].
      * now apply (Qh _ H O HC).
      * now apply (Qh _ H O (reason_sym g0 a b c HM HC)).
  - split; [split; [exact HM|intros x y _ _; reflexivity]|now apply r0_refl].
  - exists g'. split; [exact E|]. split; [apply P1|]. split; [exact P2|]. intros O1 O2 a b c Hb HC. eapply P3; [now apply in_seq0|exact Hb|split; assumption|exact HC].
Qed.
End Rule0.
