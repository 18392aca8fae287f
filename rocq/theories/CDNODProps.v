(** Properties of CD-NOD. *)
From Verif Require Import Base EdgeModel EdgeProofs GraphModel GraphSpec GraphProofs DpathProofs UtilsModel UtilsProofs NamedModel KnowledgeModel
  DsepSpec DsepProofs DsepTheory DconnLib MeekModel MeekSpec MeekProofs CheckLib MeekProps CpdagModel CpdagSpec SkelModel SkelSpec SkelProofs SkelMain SkelProps
  PCModel PCSpec MeekFull PCGraph PCProofs PCMain PCAny PCTotal PCProps CDNODModel CDNODSpec CDNODTheory.
Local Open Scope Z_scope.

(** ** Pointing the edges at the index *)
Definition pointed (c : nat) (l : list nat) (g h : ggraph) : Prop :=
  gn h = gn g /\ (forall x, In x l -> directed h c x) /\
  (forall a b, ~ (a = c /\ In b l) -> ~ (b = c /\ In a l) -> gm h a b = gm g a b).
Lemma point_list c l : forall n g, built n g -> NoDup l -> (forall x, In x l -> x <> c /\ undirected g c x) ->
  let h := fold_left (fun h i => add_directed_edge h c i) l g in built n h /\ pointed c l g h.
Proof.
  induction l as [|x l IH]; intros n g HB ND HU h.
  - split; [exact HB|]. split; [reflexivity|]. split; [intros ? []|auto].
  - destruct (HU x (or_introl eq_refl)) as [Nx (Hc & Hx & E1 & E2)]. inversion ND as [|? ? Nl ND']. subst.
    destruct (built_inv n g HB) as (Hn & _). rewrite Hn in Hc, Hx.
    assert (HB1 : built n (add_directed_edge g c x)) by (apply built_turn; auto; repeat split; auto).
    assert (F : forall a b, ~ (a = c /\ b = x) -> ~ (a = x /\ b = c) -> gm (add_directed_edge g c x) a b = gm g a b) by (intros a b A1 A2; cbn; apply upd2_other; auto).
    assert (Fx : gm (add_directed_edge g c x) c x = -1 /\ gm (add_directed_edge g c x) x c = 1) by (cbn; rewrite upd2_ij, upd2_ji by auto; auto).
    destruct (IH n (add_directed_edge g c x) HB1 ND') as [HB2 (P1 & P2 & P3)].
    { intros y Hy. assert (Ny : y <> x) by (intros ->; auto). destruct (HU y (or_intror Hy)) as [Q1 (Q2 & Q3 & Q4 & Q5)]. split; [exact Q1|].
      split; [exact Q2|]. split; [exact Q3|]. rewrite !F by lia. auto. }
    change (fold_left (fun h i => add_directed_edge h c i) l (add_directed_edge g c x)) with h in HB2, P1, P2, P3. split; [exact HB2|]. split; [exact P1|]. split.
    + intros y [<-|Hy]; [|auto]. unfold directed. rewrite P1. change (gn (add_directed_edge g c x)) with (gn g). rewrite Hn, !P3 by (intros [? ?]; congruence). split; [exact Hc|]. split; [exact Hx|exact Fx].
    + intros a b A1 A2. rewrite P3, F; auto; cbn [In] in *; try tauto.
      * intros [-> ->]. tauto.
      * intros [-> ->]. tauto.
Qed.
Lemma in_adjacent_nodes g c x : wf g -> (c < gn g)%nat -> In x (get_adjacent_nodes g c) <-> joined g c x.
Proof.
  intros Hw Hc. unfold get_adjacent_nodes. rewrite filter_In, in_seq0, andb_true_iff, !negb_true_iff, !Z.eqb_neq. unfold joined. split; [tauto|].
  intros (_ & Hx & N). split; [exact Hx|]. split; [exact N|]. pose proof (proj2 Hw c x Hc Hx) as HL. intros Z0. rewrite Z0 in HL. pair_cases HL; congruence.
Qed.
Lemma orient_index_spec n c g : built n g -> (c < n)%nat -> all_undirected g -> let h := orient_index c g in
  built n h /\ only_orients g h /\ (forall x, joined g c x -> directed h c x) /\ (forall a b, directed h a b -> a = c /\ joined g c b).
Proof.
  intros HB Hc HU h. destruct (built_inv n g HB) as (Hn & Hw & _).
  destruct (point_list c (get_adjacent_nodes g c) n g HB) as [HB' (P1 & P2 & P3)].
  - apply NoDup_filter, seq_NoDup.
  - intros x Hx. apply in_adjacent_nodes in Hx; [|exact Hw|now rewrite Hn]. destruct (HU c x Hx). split; [congruence|assumption].
  - fold (orient_index c g) in *. fold h in HB', P1, P2, P3. split; [exact HB'|].
    assert (A : forall x, joined g c x -> directed h c x) by (intros x K; apply P2, in_adjacent_nodes; auto; now rewrite Hn).
    assert (HO : only_orients g h).
    { split; [exact P1|]. intros a b Ha Hb. destruct (Nat.eq_dec a c) as [->|Na].
      - destruct (in_dec Nat.eq_dec b (get_adjacent_nodes g c)) as [I|I].
        + right. apply in_adjacent_nodes in I; auto. split; [now apply HU|left; now apply A].
        + left. split; apply P3; try tauto; intros [-> Q]; apply I; try exact Q; apply in_adjacent_nodes in Q; auto.
      - destruct (Nat.eq_dec b c) as [->|Nb].
        + destruct (in_dec Nat.eq_dec a (get_adjacent_nodes g c)) as [I|I].
          * right. apply in_adjacent_nodes in I; auto. split; [destruct (HU c a I) as [_ (U1 & U2 & U3 & U4)]; repeat split; auto|right; now apply A].
          * left. split; apply P3; tauto.
        + left. split; apply P3; tauto. }
    split; [exact HO|]. split; [exact A|]. intros a b (K1 & K2 & K3 & K4). rewrite P1 in K1, K2.
    destruct (proj2 HO a b K1 K2) as [[E1 E2]|[U _]].
    + exfalso. assert (J : joined g a b) by (split; [exact K1|]; split; [exact K2|]; lia). destruct (HU a b J) as [_ (_ & _ & U1 & U2)]. lia.
    + destruct (Nat.eq_dec a c) as [->|Na]; [split; [reflexivity|]; exact (proj1 (undirected_joined _ _ _ U))|].
      destruct (Nat.eq_dec b c) as [->|Nb]; [|exfalso; rewrite P3 in K4 by tauto; destruct U as (_ & _ & _ & U); lia].
      exfalso. assert (J : joined g c a) by exact (proj2 (undirected_joined _ _ _ U)). apply A in J. destruct J as (_ & _ & J1 & J2). lia.
Qed.

(** ** C109: with a d-separation oracle and an index without parents, CD-NOD is sound and complete *)
Theorem C109_cdnod_oracle : forall n D pv alpha fuel rx nm stable rule prio,
  oracle n D (fun x y cs => pv x y cs >? alpha) -> (0 < n)%nat -> root D (n - 1) -> (n <= fuel)%nat -> (n * n < fuel)%nat -> valid_mode rule prio ->
  exists g, cdnod_alg fuel rx nm None pv alpha stable rule prio n = Ret g /\ completed_root D (n - 1) g.
Proof.
  intros n D pv alpha fuel rx nm stable rule prio HO Hn0 HR Hf1 Hf2 Hr. pose proof HO as (Dn & HD & _). set (c := (n - 1)%nat) in *.
  unfold cdnod_alg. fold c. change (fun _ _ : nat => false) with no_ban at 1.
  destruct (C23_skeleton_oracle n D _ stable fuel HO Hf1) as (g0 & sep & E & Hg0 & HU & Hj). rewrite E. cbn [of_opt obind fst snd].
  set (cls := fun D' => equivalent D D' /\ root D' c).
  assert (cD : cls D) by (split; [now apply equivalent_refl|exact HR]). assert (cE : forall D', cls D' -> equivalent D D') by (intros D' [Q _]; exact Q).
  destruct (skeleton_seps n D pv alpha HO cls stable fuel g0 sep Hf1 E) as [HI HS].
  assert (Hc : (c < n)%nat) by (unfold c; lia).
  destruct (orient_index_spec n c g0 (proj1 HI) Hc HU) as (HB1 & HO1 & HA & HB).
  assert (HI1 : PCProofs.Inv n D cls (orient_index c g0)).
  { split; [exact HB1|]. split; [intros a b; rewrite (orients_joined _ _ HO1); apply Hj|]. split; [eapply orients_pd; [exact HO1|now apply undirected_pd]|].
    intros a b K D' [E1 E2]. apply HB in K. destruct K as [-> K]. apply Hj in K. destruct E1 as (_ & _ & HD' & Ej & _). apply Ej in K.
    apply (dag_joins D' _ _ HD') in K. destruct K as [K|K]; [exact K|]. exfalso. exact (E2 b K). }
  destruct (uc_and_meek_runs n D pv alpha HO cls cD cE fuel rx nm rule prio sep _ Hf2 HI1 HS Hr) as (g2 & g & HK & HM & Hw & Hs & Hg & Em & EQ).
  exists g. split; [exact EQ|].
  destruct (midc_meek rx nm cls D g2 fuel g cE cD HM Hw Hs Hg Em) as (Gn & Gw & Gj & Gp & Gd & Gs & Gc).
  apply (root_completed n c Hc D Dn HD HR g); auto; [congruence|].
  intros x J. apply Gd, HK, HA, Hj, J.
Qed.

(** ** C110, C111: any test, any knowledge *)
Lemma cdnod_phases fuel rx nm K pv alpha stable rule prio n : (0 < n)%nat -> (n <= fuel)%nat -> (n * n < fuel)%nat -> valid_mode rule prio ->
  exists sk Sp g0 g1 g2 g p,
    skeleton_discovery (fun x y cs => pv x y cs >? alpha) no_ban stable fuel n = Some (sk, Sp) /\
    all_undirected sk /\ wf g0 /\ only_orients sk g0 /\ (forall x, joined sk (n - 1) x -> directed g0 (n - 1)%nat x) /\
    (forall a b, directed g0 a b -> a = (n - 1)%nat) /\
    g1 = match K with None => g0 | Some k => orient_by_background_knowledge rx nm k g0 end /\ only_orients g0 g1 /\
    built n g1 /\ partially_directed g1 /\ runs p (free (bk_block rx nm K) g1) g1 g2 /\ (prio <> Some 1%nat -> p <> 1%nat) /\ ((p < 2)%nat -> prio = Some p) /\
    cdnod_alg fuel rx nm K pv alpha stable rule prio n = Ret g /\ only_orients g2 g /\
    (forall a b, undirected g2 a b -> directed g a b -> bk_block rx nm K a b = false).
Proof.
  intros Hn0 Hf1 Hf2 Hr. unfold cdnod_alg. set (c := (n - 1)%nat) in *. change (fun _ _ : nat => false) with no_ban.
  set (ind := fun x y cs => pv x y cs >? alpha).
  destruct (C54_skeleton_terminates ind no_ban stable n fuel Hf1) as (sk & Sp & E & Hn & HU).
  pose proof (skeleton_built _ _ _ _ _ _ _ E) as HB.
  rewrite E. cbn [of_opt obind fst snd]. assert (Hc : (c < n)%nat) by (unfold c; lia).
  destruct (orient_index_spec n c sk HB Hc HU) as (HB0 & HO0 & HA & HBk). set (g0 := orient_index c sk) in *. destruct (built_inv n g0 HB0) as (_ & Hw0 & _).
  set (g1 := match K with None => g0 | Some k => orient_by_background_knowledge rx nm k g0 end).
  assert (HB1 : built n g1).
  { unfold g1. destruct K as [k|]; [|exact HB0]. apply knowledge_built, HB0. }
  assert (HO1 : only_orients g0 g1).
  { unfold g1. destruct K as [k|]; [|apply orients_refl]. apply C22_orient_by_knowledge, Hw0. }
  assert (HP1 : partially_directed g1) by (eapply orients_pd; [exact HO1|]; eapply orients_pd; [exact HO0|now apply undirected_pd]).
  destruct (orient_phases fuel rx nm K pv alpha rule prio n g1 Sp Hf2 Hr HB1 HP1) as (g2 & g & p & R & NP & NQ & EQ & HO & HK).
  { intros x y z (K1 & K2 & K3 & K4) _.
    destruct (built_inv n g1 HB1) as (Hn1 & _). destruct K1 as (X1 & X2 & _), K2 as (X3 & _). rewrite Hn1 in X1, X3.
    eapply (skeleton_recorded ind no_ban stable fuel n sk Sp x z E); auto. intros J. apply K4. apply (orients_joined g0 g1 HO1). now apply (orients_joined sk g0 HO0). }
  exists sk, Sp, g0, g1, g2, g, p. assert (HA' : forall a b, directed g0 a b -> a = c) by (intros a b Q; now apply HBk in Q). auto 25.
Qed.

(** CD-NOD never raises and returns, whatever the test answers and whatever the knowledge says; its adjacencies are those the skeleton
    search found; unless bidirected edges are asked for (priority 1), every edge is directed or undirected. *)
Theorem C110_cdnod_total : forall fuel rx nm K pv alpha stable rule prio n, (0 < n)%nat -> (n <= fuel)%nat -> (n * n < fuel)%nat -> valid_mode rule prio ->
  exists sk Sp g,
    skeleton_discovery (fun x y cs => pv x y cs >? alpha) no_ban stable fuel n = Some (sk, Sp) /\
    cdnod_alg fuel rx nm K pv alpha stable rule prio n = Ret g /\
    gn g = n /\ (forall a b, joined g a b <-> joined sk a b) /\ (prio <> Some 1%nat -> partially_directed g).
Proof.
  intros fuel rx nm K pv alpha stable rule prio n Hn0 Hf1 Hf2 Hr.
  destruct (cdnod_phases fuel rx nm K pv alpha stable rule prio n Hn0 Hf1 Hf2 Hr) as (sk & Sp & g0 & g1 & g2 & g & p & E & HU & Hw0 & HO0 & HA & HB & E1 & HO1 & HB1 & HP1 & R & NP & NQ & EP & HO & HBK).
  exists sk, Sp, g. split; [exact E|]. split; [exact EP|]. pose proof (free_unshielded pv (bk_block rx nm K) n g1 HB1 HP1) as Pu.
  destruct (runs_base n p _ g1 HB1 HP1 Pu g2 R) as (HB2 & _ & Hn2 & Hj2). destruct (built_inv n g2 HB2) as (Hg2 & _).
  split; [destruct HO; congruence|]. split.
  - intros a b. now rewrite (orients_joined g2 g HO), Hj2, (orients_joined g0 g1 HO1), (orients_joined sk g0 HO0).
  - intros N1. apply (orients_pd g2 g HO). apply (runs_pd n p _ g1 HB1 HP1 Pu); auto.
Qed.
(** Unless overwriting or bidirected edges are asked for (priorities 0 and 1), every edge at the index points away from it. *)
Theorem C110_index_is_cause : forall fuel rx nm K pv alpha stable rule prio n g, (0 < n)%nat -> (n <= fuel)%nat -> (n * n < fuel)%nat -> valid_mode rule prio ->
  prio <> Some 0%nat -> prio <> Some 1%nat ->
  cdnod_alg fuel rx nm K pv alpha stable rule prio n = Ret g -> forall x, joined g (n - 1) x -> directed g (n - 1)%nat x.
Proof.
  intros fuel rx nm K pv alpha stable rule prio n g Hn0 Hf1 Hf2 Hr N0 N1 EP0 x J.
  destruct (cdnod_phases fuel rx nm K pv alpha stable rule prio n Hn0 Hf1 Hf2 Hr) as (sk & Sp & g0 & g1 & g2 & g' & p & E & HU & Hw0 & HO0 & HA & HB & E1 & HO1 & HB1 & HP1 & R & NP & NQ & EP & HO & HBK).
  rewrite EP in EP0. injection EP0 as ->. pose proof (free_unshielded pv (bk_block rx nm K) n g1 HB1 HP1) as Pu.
  destruct (runs_base n p _ g1 HB1 HP1 Pu g2 R) as (_ & _ & _ & Hj2).
  rewrite (orients_joined g2 g HO), Hj2, (orients_joined g0 g1 HO1), (orients_joined sk g0 HO0) in J.
  assert (P2 : (2 <= p)%nat) by (destruct (le_lt_dec 2 p) as [|L]; [assumption|]; specialize (NQ L); assert (p = 0 \/ p = 1)%nat as [-> | ->] by lia; congruence).
  apply (orients_directed g2 g _ _ HO). apply (runs_keeps n p _ g1 HB1 HP1 Pu g2 P2 R). apply (orients_directed g0 g1 _ _ HO1). now apply HA.
Qed.
(** Between the other variables the knowledge is respected as in PC. *)
Theorem C111_cdnod_respects_knowledge : forall fuel rx nm K pv alpha stable rule prio n g, (0 < n)%nat -> (n <= fuel)%nat -> (n * n < fuel)%nat -> valid_mode rule prio ->
  cdnod_alg fuel rx nm K pv alpha stable rule prio n = Ret g -> forall a b, a <> (n - 1)%nat -> b <> (n - 1)%nat -> joined g a b ->
  (gm g b a = 1 -> forbids rx nm K a b = true -> forbids rx nm K b a = true) /\
  (forbids rx nm K a b = false -> requires rx nm K b a = false -> forbids rx nm K b a = true \/ requires rx nm K a b = true -> directed g a b).
Proof.
  intros fuel rx nm K pv alpha stable rule prio n g Hn0 Hf1 Hf2 Hr EP0 a b Na Nb J.
  destruct (cdnod_phases fuel rx nm K pv alpha stable rule prio n Hn0 Hf1 Hf2 Hr) as (sk & Sp & g0 & g1 & g2 & g' & p & E & HU & Hw0 & HO0 & HA & HB & E1 & HO1 & HB1 & HP1 & R & NP & NQ & EP & HO & HBK).
  rewrite EP in EP0. injection EP0 as ->. pose proof (free_unshielded pv (bk_block rx nm K) n g1 HB1 HP1) as Pu.
  destruct (runs_base n p _ g1 HB1 HP1 Pu g2 R) as (_ & _ & _ & Hj2).
  assert (J1 : joined g1 a b) by now apply Hj2, (orients_joined g2 g HO). assert (J0 : joined g0 a b) by now apply (orients_joined g0 g1 HO1).
  assert (U : undirected g0 a b).
  { assert (Js : joined sk a b) by now apply (orients_joined sk g0 HO0). destruct (HU a b Js) as [_ U]. pose proof U as (X1 & X2 & U1 & U2).
    destruct (proj2 HO0 a b X1 X2) as [[F1 F2]|[_ [D|D]]]; [|apply HB in D; contradiction|apply HB in D; contradiction].
    unfold undirected. rewrite (proj1 HO0), F1, F2. auto. }
  split.
  - intros H F. assert (B : bk_block rx nm K a b = true) by (rewrite block_is, F; reflexivity).
    destruct (orients_head g2 g a b HO J H) as [H2|[U2 D]]; [|rewrite (HBK a b U2 D) in B; discriminate].
    destruct (runs_new n p _ g1 HB1 HP1 Pu g2 R a b H2) as [H1|(c & [Q|Q])].
    + destruct (orients_head g0 g1 a b HO1 J1 H1) as [X|[_ D1]]; [destruct U as (_ & _ & _ & U); lia|].
      rewrite E1 in D1. destruct K as [k|]; [|destruct D1 as (_ & _ & _ & D1), U as (_ & _ & _ & U); lia].
      destruct (C22_orient_by_knowledge rx nm k g0 Hw0) as [_ C]. destruct (C a b U) as (_ & _ & C3).
      specialize (C3 D1). cbn [forbids] in F |- *. rewrite F in C3. destruct C3; [discriminate|assumption].
    + destruct Q as [_ Q]. cbn [blocked] in Q. apply orb_false_iff in Q. destruct Q. congruence.
    + destruct Q as [_ Q]. cbn [blocked] in Q. apply orb_false_iff in Q. destruct Q. congruence.
  - intros F1 Q1 HDm. apply (orients_directed g2 g a b HO).
    assert (D1 : directed g1 a b).
    { rewrite E1. destruct K as [k|]; [|cbn in HDm; destruct HDm; discriminate]. now apply C22_orient_by_knowledge. }
    assert (B : bk_block rx nm K b a = true) by (rewrite block_is; destruct HDm as [-> | ->]; [reflexivity|apply orb_true_r]).
    now apply (demanded_stays rx nm K n p g1 g2).
Qed.

(** ** C112: where the index is not treated as a cause *)
(** The missing-value variant points every edge at the index into it. *)
Theorem C112_mv_index_is_effect_refuted : forall g c, wf g -> (c < gn g)%nat -> forall x, joined g c x ->
  directed (mv_orient_index c g) x c /\ ~ directed (mv_orient_index c g) c x.
Proof.
  intros g c Hw Hc x J. enough (K : directed (mv_orient_index c g) x c) by (split; [exact K|]; destruct K as (_ & _ & K1 & K2); intros (_ & _ & K3 & _); lia).
  pose proof J as J0. apply in_adjacent_nodes in J; auto. unfold mv_orient_index.
  assert (HL : forall i, In i (get_adjacent_nodes g c) -> (i < gn g)%nat /\ i <> c).
  { intros i Hi. apply in_adjacent_nodes in Hi; auto. destruct Hi as (_ & Hi & N). split; [exact Hi|]. intros ->. apply N. now apply (proj1 Hw). }
  clear J0. assert (J' : In x (get_adjacent_nodes g c) \/ directed g x c) by auto. clear J. 
  revert HL J'. generalize (get_adjacent_nodes g c) as l. intros l. revert g Hw Hc. induction l as [|i l IH]; intros g Hw Hc HL [J|J]; cbn [fold_left]; try contradiction; auto.
  - destruct J as [<-|J].
    + destruct (HL i (or_introl eq_refl)) as [Hi Ni]. apply IH; [apply add_directed_wf; auto; repeat split; auto|exact Hc|intros k Hk; apply HL; now right|].
      right. split; [exact Hi|]. split; [exact Hc|]. cbn. rewrite upd2_ij, upd2_ji by auto. auto.
    + destruct (HL i (or_introl eq_refl)) as [Hi Ni]. apply IH; [apply add_directed_wf; auto; repeat split; auto|exact Hc|intros k Hk; apply HL; now right|auto].
  - destruct (HL i (or_introl eq_refl)) as [Hi Ni]. apply IH; [apply add_directed_wf; auto; repeat split; auto|exact Hc|intros k Hk; apply HL; now right|].
    right. destruct J as (J1 & J2 & J3 & J4). destruct (Nat.eq_dec x i) as [->|Nx].
    + split; [exact Hi|]. split; [exact Hc|]. cbn. rewrite upd2_ij, upd2_ji by auto. auto.
    + assert (x <> c) by (intros ->; lia). split; [exact J1|]. split; [exact J2|]. cbn. rewrite !upd2_other by lia. auto.
Qed.
(** Two variables that are independent of each other but not of the index: priority 0 turns both edges into the index, priority 1 makes them bidirected. *)
Lemma ret_some {A} (o : outcome A) (P : A -> bool) : match o with Ret g => P g | _ => false end = true -> exists g, o = Ret g /\ P g = true.
Proof. destruct o as [g| |]; [exists g; auto|discriminate|discriminate]. Qed.
Definition pair_pv (x y : nat) (T : list nat) : Z := if same_pair x y 0 1 && (match T with [] => true | _ => false end) then 1 else 0.
Theorem C112_priority_0_1_refuted : exists n pv alpha g0 g1,
  cdnod_alg 20 (fun _ _ => false) (fun i => i) None pv alpha true 0 (Some 0%nat) n = Ret g0 /\ directed g0 0%nat (n - 1)%nat /\
  cdnod_alg 20 (fun _ _ => false) (fun i => i) None pv alpha true 0 (Some 1%nat) n = Ret g1 /\ gm g1 0%nat (n - 1)%nat = 1 /\ gm g1 (n - 1)%nat 0%nat = 1.
Proof.
  assert (C0 : match cdnod_alg 20 (fun _ _ => false) (fun i => i) None pair_pv 0 true 0 (Some 0%nat) 3 with Ret g => dirb g 0 2 | _ => false end = true) by (vm_compute; reflexivity).
  assert (C1 : match cdnod_alg 20 (fun _ _ => false) (fun i => i) None pair_pv 0 true 0 (Some 1%nat) 3 with Ret g => (gm g 0%nat 2%nat =? 1) && (gm g 2%nat 0%nat =? 1) | _ => false end = true) by (vm_compute; reflexivity).
  apply ret_some in C0. destruct C0 as (g0 & E0 & C0).
  apply (ret_some _ (fun g => (gm g 0%nat 2%nat =? 1) && (gm g 2%nat 0%nat =? 1))) in C1. destruct C1 as (g1 & E1 & C1).
  exists 3%nat, pair_pv, 0, g0, g1. split; [exact E0|]. split; [now apply dirb_iff|]. split; [exact E1|]. apply andb_true_iff in C1. rewrite !Z.eqb_eq in C1. exact C1.
Qed.
(** ** C113: knowledge that CD-NOD overrules *)
(** The knowledge forbids index --> 0 and asks for 0 --> index; the result has index --> 0. *)
Theorem C113_knowledge_at_index_refuted : exists n pv alpha K g,
  forbids (fun _ _ => false) (fun i => i) K (n - 1) 0 = true /\ forbids (fun _ _ => false) (fun i => i) K 0 (n - 1) = false /\ requires (fun _ _ => false) (fun i => i) K 0 (n - 1) = true /\
  cdnod_alg 20 (fun _ _ => false) (fun i => i) K pv alpha true 0 None n = Ret g /\ directed g (n - 1)%nat 0%nat.
Proof.
  assert (C0 : match cdnod_alg 20 (fun _ _ => false) (fun i => i) (Some (bk_run [AddForb 2 0; AddReq 0 2])) pair_pv 0 true 0 None 3 with Ret g => dirb g 2 0 | _ => false end = true) by (vm_compute; reflexivity).
  apply ret_some in C0. destruct C0 as (g0 & E0 & C0).
  exists 3%nat, pair_pv, 0, (Some (bk_run [AddForb 2 0; AddReq 0 2])), g0. do 3 (split; [vm_compute; reflexivity|]). split; [exact E0|now apply dirb_iff].
Qed.
(** A pair whose two directions are both forbidden stays joined (PC removes such an edge, C52). *)
Theorem C113_forbidden_pair_refuted : exists n pv alpha K g,
  forbids (fun _ _ => false) (fun i => i) K 0 1 = true /\ forbids (fun _ _ => false) (fun i => i) K 1 0 = true /\
  cdnod_alg 20 (fun _ _ => false) (fun i => i) K pv alpha true 0 None n = Ret g /\ joined g 0 1.
Proof.
  assert (C0 : match cdnod_alg 20 (fun _ _ => false) (fun i => i) (Some (bk_run [AddForb 0 1; AddForb 1 0])) (fun _ _ _ => 0) 0 true 0 None 3 with
    Ret g => Nat.eqb (gn g) 3 && negb (gm g 0%nat 1%nat =? 0) | _ => false end = true) by (vm_compute; reflexivity).
  apply ret_some in C0. destruct C0 as (g0 & E0 & C0).
  exists 3%nat, (fun _ _ _ => 0), 0, (Some (bk_run [AddForb 0 1; AddForb 1 0])), g0. do 2 (split; [vm_compute; reflexivity|]). split; [exact E0|].
  rewrite andb_true_iff, Nat.eqb_eq, negb_true_iff, Z.eqb_neq in C0. destruct C0 as [Hn C0]. split; [rewrite Hn; lia|]. split; [rewrite Hn; lia|exact C0].
Qed.

(** ** Concrete cases *)
(** The index 2 changes 1, and 1 causes 0: the arrow from the index directs the edge 1 --> 0, which PC leaves undirected. *)
Definition idx_D : ggraph := graph_of 3 [dir 2 1; dir 1 0].
Definition idx_pv (x y : nat) (T : list nat) : Z := if dsep_test idx_D x y T then 1 else 0.
Lemma idx_dag : dag idx_D.
Proof. apply (dagb_sound (fun v => nth v [2; 1; 0]%nat 0%nat)). vm_compute. reflexivity. Qed.
Lemma idx_oracle : oracle 3 idx_D (fun x y cs => idx_pv x y cs >? 0).
Proof.
  split; [reflexivity|]. split; [exact idx_dag|]. intros x y T Hx Hy N HC. rewrite <- (dsep_test_spec idx_D x y T idx_dag Hx N).
  unfold idx_pv. destruct (dsep_test idx_D x y T); cbn; split; congruence.
Qed.
Example C109_ex : oracle 3 idx_D (fun x y cs => idx_pv x y cs >? 0) /\ root idx_D 2 /\ valid_mode 0 (Some 2%nat) /\
  match cdnod_alg 10 (fun _ _ => false) (fun i => i) None idx_pv 0 true 0 (Some 2%nat) 3 with Ret g => dirb g 2 1 && dirb g 1 0 | _ => false end = true /\
  match pc_alg 10 (fun _ _ => false) (fun i => i) None idx_pv 0 true 0 (Some 2%nat) 3 with Ret g => is_undirected g 2 1 && is_undirected g 1 0 | _ => false end = true.
Proof.
  split; [exact idx_oracle|]. split.
  { intros a (Ha & _ & K1 & K2). change (gn idx_D) with 3%nat in Ha. destruct a as [|[|[|a]]]; try lia; vm_compute in K1, K2; discriminate. }
  split; [intros p K; injection K as <-; lia|]. split; vm_compute; reflexivity.
Qed.
(** Knowledge between two variables: 1 --> 0 is forbidden although the index would direct it. *)
Example C111_ex : let K := Some (bk_run [AddForb 1 0]) in
  match cdnod_alg 10 (fun _ _ => false) (fun i => i) K idx_pv 0 true 0 (Some 2%nat) 3 with Ret g => dirb g 2 1 && dirb g 0 1 | _ => false end = true /\
  forbids (fun _ _ => false) (fun i => i) K 1 0 = true /\ forbids (fun _ _ => false) (fun i => i) K 0 1 = false.
Proof. vm_compute. auto. Qed.
Print Assumptions C109_cdnod_oracle.
Print Assumptions C110_cdnod_total.
Print Assumptions C110_index_is_cause.
Print Assumptions C111_cdnod_respects_knowledge.
Print Assumptions C112_mv_index_is_effect_refuted.
Print Assumptions C112_priority_0_1_refuted.
Print Assumptions C113_knowledge_at_index_refuted.
Print Assumptions C113_forbidden_pair_refuted.
