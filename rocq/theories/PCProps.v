(** Properties of the orientation phase and of the whole PC algorithm. *)
From Verif Require Import Base EdgeModel EdgeProofs GraphModel GraphSpec GraphProofs DpathProofs UtilsModel UtilsProofs NamedModel KnowledgeModel
  DsepSpec MeekModel MeekSpec MeekProofs CheckLib MeekProps CpdagModel CpdagSpec SkelModel SkelSpec SkelProofs SkelMain SkelProps
  PCModel PCSpec MeekFull PCGraph PCProofs PCMain PCAny PCTotal.
Local Open Scope Z_scope.

(** The orientation rules and priorities pc() accepts ([None] is the default). *)
Definition valid_mode (rule : nat) (prio : option nat) : Prop :=
  match rule with
  | 0%nat | 1%nat => forall p, prio = Some p -> (p <= 4)%nat
  | 2%nat => forall p, prio = Some p -> (2 <= p <= 4)%nat
  | _ => False
  end.

(** ** C57: with a d-separation oracle, PC returns the CPDAG of the true DAG, in every mode *)
Theorem C57_pc_oracle : forall n D pv alpha fuel rx nm stable rule prio,
  oracle n D (fun x y cs => pv x y cs >? alpha) -> (n <= fuel)%nat -> (n * n < fuel)%nat -> valid_mode rule prio ->
  exists g, pc_alg fuel rx nm None pv alpha stable rule prio n = Ret g /\ completed D g.
Proof. intros. now apply pc_correct. Qed.

(** ** C58: meek turns the pattern of a DAG into its CPDAG *)
Theorem C58_meek_completes_pattern : forall n D g fuel rx nm, dag D -> built n g -> pattern D g -> (n * n < fuel)%nat ->
  exists g', meek fuel rx nm None g = Some g' /\ completed D g'.
Proof.
  intros n D g fuel rx nm HD HB HP Hf. destruct (built_inv n g HB) as (Hn & Hw & Hs & Hg).
  destruct (C20_meek_conservative rx nm None g fuel Hw) as (g' & E & _); [now rewrite Hn|].
  exists g'. split; [exact E|]. eapply (midway_completes rx nm D g fuel g'); eauto. now apply pattern_midway.
Qed.

(** ** C59: the collider phase *)
(** Every set recorded for the pair omits y, and there is one. *)
Definition omits (sep : nat -> nat -> list (list nat)) (x y z : nat) : Prop := forall T, In T (sep x z) -> ~ In y T.
Lemma freec_iff blk n g sep x y z : built n g -> partially_directed g -> freec blk g sep (x, y, z) <->
  unshielded g x y z /\ (x < z)%nat /\ blk x y = false /\ blk z y = false /\ omits sep x y z.
Proof.
  intros HB HP. destruct (built_inv n g HB) as (_ & Hw & _). unfold freec, free, omits, coll, blocked, t1, t2, t3. cbn [fst snd].
  rewrite in_ordered by assumption. rewrite orb_false_iff, forallb_forall.
  split; [intros [[[K1 K2] [K3 K4]] K5]|intros (K1 & K2 & K3 & K4 & K5)]; repeat split; auto; try apply K1.
  - intros T HT. specialize (K5 T HT). apply negb_true_iff, memb_not_In in K5. exact K5.
  - intros T HT. apply negb_true_iff, memb_not_In. auto.
Qed.
Lemma freec_unsh blk n g sep : built n g -> partially_directed g -> forall x y z, freec blk g sep (x, y, z) -> unshielded g x y z.
Proof. intros HB HP x y z K. now apply (freec_iff blk n g sep x y z HB HP) in K. Qed.
Lemma unshielded_swap g x y z : wf g -> unshielded g x y z -> unshielded g z y x.
Proof.
  intros Hw (H1 & H2 & H3 & H4). repeat split; try apply H1; try apply H2; auto. intros (K1 & K2 & K3). apply H4. split; [exact K2|]. split; [exact K1|].
  intros Z0. apply K3. pose proof (proj2 Hw x z K2 K1) as HL. rewrite Z0 in HL. pair_cases HL; congruence.
Qed.
(** The adjacencies are untouched; every new arrowhead, at b on a -- b, belongs to an unshielded triple a, b, c whose two arrows the
    knowledge accepts and all of whose recorded separating sets omit b. *)
Theorem C59_new_arrowheads : forall pv blk prio sep n g g', built n g -> partially_directed g ->
  uc_sepset pv blk prio sep g = Ok g' ->
  (prio <= 4)%nat /\ gn g' = gn g /\ (forall a b, joined g' a b <-> joined g a b) /\
  (prio <> 1%nat -> partially_directed g') /\
  forall a b, gm g' b a = 1 -> gm g b a = 1 \/
    exists c, unshielded g a b c /\ blk a b = false /\ blk c b = false /\
      ((a < c)%nat /\ omits sep a b c \/ (c < a)%nat /\ omits sep c b a).
Proof.
  intros pv blk prio sep n g g' HB HP E. split.
  { unfold uc_sepset in E. destruct (Nat.leb_spec prio 4); [assumption|discriminate]. }
  destruct (uc_sepset_runs pv blk n g prio sep g' E) as [R _].
  destruct (runs_base n (eff prio) _ g HB HP (freec_unsh blk n g sep HB HP) g' R) as (_ & _ & Hn & Hj).
  split; [exact Hn|]. split; [exact Hj|]. split.
  - intros N1. apply (runs_pd n (eff prio) _ g HB HP (freec_unsh blk n g sep HB HP)) in R; [exact R|]. unfold eff. destruct (Nat.leb prio 2); lia.
  - intros a b K. apply (runs_new n (eff prio) _ g HB HP (freec_unsh blk n g sep HB HP) g' R) in K. destruct K as [K|(c & [K|K])]; [now left| |];
    apply (freec_iff blk n) in K; auto; destruct K as (K1 & K2 & K3 & K4 & K5); right; exists c.
    + split; [exact K1|]. auto.
    + split; [|auto]. apply unshielded_swap; [|exact K1]. destruct (built_inv n g HB) as (_ & Hw & _). exact Hw.
Qed.

(** Running the remaining triples keeps what every single step keeps. *)
Lemma fold_keeps n p (P : triple -> Prop) g (Q : ggraph -> Prop) : built n g -> partially_directed g -> (forall x y z, P (x, y, z) -> unshielded g x y z) ->
  (forall h t, runs p P g h -> P t -> Q h -> Q (now p h t)) ->
  forall l h, (forall t, In t l -> P t) -> runs p P g h -> Q h -> Q (fold_left (now p) l h).
Proof.
  intros HB HP Pu HQ. induction l as [|t l IH]; intros h Hl HR Hh; cbn [fold_left]; [exact Hh|].
  assert (Pt : P t) by (apply Hl; now left). apply IH; [intros; apply Hl; now right|now constructor|auto].
Qed.
(** With priority 1, every unshielded triple the knowledge accepts and all of whose recorded sets omit the middle ends as a collider. *)
Theorem C59_bidirected_complete : forall pv blk sep n g g', built n g -> partially_directed g ->
  uc_sepset pv blk 1 sep g = Ok g' ->
  forall x y z, unshielded g x y z -> (x < z)%nat -> blk x y = false -> blk z y = false -> omits sep x y z ->
  gm g' y x = 1 /\ gm g' y z = 1.
Proof.
  intros pv blk sep n g g' HB HP E x y z Hu Hlt B1 B2 HO.
  destruct (uc_sepset_runs pv blk n g 1 sep g' E) as [_ R]. destruct (R (x, y, z)) as (l1 & l2 & EF & HA).
  { apply (freec_iff blk n); auto 10. }
  pose proof (freec_unsh blk n g sep HB HP) as Pu. change (eff 1) with 1%nat in EF. rewrite fold_left_app in EF. cbn [fold_left] in EF.
  assert (R1 : runs 1 (freec blk g sep) g (fold_left (now 1) l1 g)) by (apply fold_now_runs; intros; apply HA, in_app_iff; now left).
  assert (Pt : freec blk g sep (x, y, z)) by (apply HA, in_app_iff; right; now left).
  destruct (unshielded_neq n g HB x y z Hu) as (N1 & N2 & N3).
  pose proof (runs_base n 1 _ g HB HP Pu _ R1) as HBs.
  rewrite <- EF. apply (fold_keeps n 1 (freec blk g sep) g (fun h => gm h y x = 1 /\ gm h y z = 1)); auto.
  - intros h [[a b] c] Rh Ph [Q1 Q2]. pose proof (runs_base n 1 _ g HB HP Pu _ Rh) as HBh. apply Pu in Ph. cbn [now].
    split; apply (bi_keeps n g); auto.
  - intros t K. apply HA, in_app_iff. right. now right.
  - now constructor.
  - destruct (now_cases n g _ 1 x y z HBs Hu) as [_ [(_ & K & _)|(HC & _)]]; [lia|]. destruct (collided_marks _ x y z _ N1 N2 N3 HC) as (Q1 & Q2 & _). auto.
Qed.
(** With priorities 2, 3, 4 no directed edge is ever turned; every new arrow meets another one in an unshielded collider; and every
    triple that qualifies ends as a collider unless one of its edges points away from the middle. *)
Theorem C59_keep_existing : forall pv blk prio sep n g g', built n g -> partially_directed g -> (2 <= prio)%nat ->
  uc_sepset pv blk prio sep g = Ok g' ->
  (forall a b, directed g a b -> directed g' a b) /\
  (forall a b, directed g' a b -> directed g a b \/ exists c, unshielded g a b c /\ directed g' c b) /\
  (forall x y z, unshielded g x y z -> (x < z)%nat -> blk x y = false -> blk z y = false -> omits sep x y z ->
     (directed g' x y /\ directed g' z y) \/ directed g' y x \/ directed g' y z).
Proof.
  intros pv blk prio sep n g g' HB HP H2 E. assert (E2 : eff prio = 2%nat) by (unfold eff; destruct (Nat.leb_spec prio 2); lia).
  pose proof (freec_unsh blk n g sep HB HP) as Pu.
  destruct (uc_sepset_runs pv blk n g prio sep g' E) as [R0 R]. rewrite E2 in *.
  destruct (runs_keeps n 2 _ g HB HP Pu g' (le_n 2) R0) as [K1 K2]. split; [exact K1|]. split; [exact K2|].
  intros x y z Hu Hlt B1 B2 HO. destruct (R (x, y, z)) as (l1 & l2 & EF & HA).
  { apply (freec_iff blk n); auto 10. }
  rewrite fold_left_app in EF. cbn [fold_left] in EF.
  assert (R1 : runs 2 (freec blk g sep) g (fold_left (now 2) l1 g)) by (apply fold_now_runs; intros; apply HA, in_app_iff; now left).
  assert (Pt : freec blk g sep (x, y, z)) by (apply HA, in_app_iff; right; now left).
  set (h := fold_left (now 2) l1 g) in *. pose proof (runs_base n 2 _ g HB HP Pu _ R1) as HBs.
  assert (KP : forall a b, directed (now 2 h (x, y, z)) a b -> directed g' a b).
  { intros a b. rewrite <- EF. apply (fold_keeps n 2 (freec blk g sep) g (fun h => directed h a b)); auto.
    - intros h' [[u v] w] Rh Ph Q. pose proof (runs_base n 2 _ g HB HP Pu _ Rh) as HBh. apply (keep_keeps n 2 g); auto.
      apply (runs_pd n 2 _ g HB HP Pu); auto.
    - intros t K. apply HA, in_app_iff. right. now right.
    - now constructor. }
  destruct (now_cases n g h 2 x y z HBs Hu) as [HBn [(EQ & _ & F)|(_ & _ & HD)]].
  - right. rewrite EQ in KP. unfold fits in F. apply andb_false_iff in F. rewrite !negb_false_iff in F. 
    destruct HBs as (_ & _ & Hn & _). destruct Hu as ((X1 & X2 & _) & (X3 & _) & _). rewrite <- Hn in X1, X2, X3.
    unfold is_fully_directed in F. rewrite !andb_true_iff, !Z.eqb_eq in F.
    destruct F as [F|F]; [left|right]; apply KP; repeat split; tauto.
  - left. destruct HD as [D1 D2]; [lia|]. auto.
Qed.

(** ** C60, C61: PC with any test and any knowledge *)
Definition forbids (rx : nat -> nat -> bool) (nm : nat -> nat) (K : option bk) (a b : nat) : bool :=
  match K with None => false | Some k => is_forbidden rx k (nm a) (nm b) end.
Definition requires (rx : nat -> nat -> bool) (nm : nat -> nat) (K : option bk) (a b : nat) : bool :=
  match K with None => false | Some k => is_required rx k (nm a) (nm b) end.
Lemma block_is rx nm K a b : bk_block rx nm K a b = forbids rx nm K a b || requires rx nm K b a.
Proof. destruct K; reflexivity. Qed.
Lemma undirected_pd g : all_undirected g -> partially_directed g.
Proof. intros H a b J. right. right. now apply H. Qed.
Lemma orients_joined g g' : only_orients g g' -> forall a b, joined g' a b <-> joined g a b.
Proof.
  intros [Hn Ho] a b. unfold joined. rewrite Hn. split; intros (H1 & H2 & H3); (split; [exact H1|]; split; [exact H2|]);
  destruct (Ho a b H1 H2) as [[E1 E2]|[(_ & _ & U1 & U2) [(_ & _ & D1 & D2)|(_ & _ & D1 & D2)]]]; congruence.
Qed.
Lemma orients_pd g g' : only_orients g g' -> partially_directed g -> partially_directed g'.
Proof.
  intros HO HP a b J. pose proof J as (H1 & H2 & _). destruct HO as [Hn Ho]. rewrite Hn in H1, H2.
  destruct (Ho a b H1 H2) as [[E1 E2]|[_ [D|D]]]; auto.
  assert (J' : joined g a b) by (apply (orients_joined g g'); [split; auto|exact J]).
  unfold directed, undirected. rewrite Hn, E1, E2. apply HP in J'. exact J'.
Qed.
Lemma orients_head g g' a b : only_orients g g' -> joined g' a b -> gm g' b a = 1 -> gm g b a = 1 \/ (undirected g a b /\ directed g' a b).
Proof.
  intros [Hn Ho] (H1 & H2 & _) K. rewrite Hn in H1, H2. destruct (Ho a b H1 H2) as [[_ E]|[U [D|D]]].
  - left. congruence.
  - right. auto.
  - destruct D as (_ & _ & Q & _). lia.
Qed.
Lemma orients_directed g g' a b : only_orients g g' -> directed g a b -> directed g' a b.
Proof.
  intros [Hn Ho] (H1 & H2 & H3 & H4). destruct (Ho a b H1 H2) as [[E1 E2]|[(_ & _ & U1 & U2) _]]; [|lia].
  unfold directed. rewrite Hn, E1, E2. auto.
Qed.
Lemma orients_trans g1 g2 g3 : wf g1 -> only_orients g1 g2 -> only_orients g2 g3 -> only_orients g1 g3.
Proof.
  intros _ [N1 O1] [N2 O2]. split; [congruence|]. intros a b Ha Hb. specialize (O1 a b Ha Hb). rewrite N1 in O2. specialize (O2 a b Ha Hb).
  destruct O1 as [[E1 E2]|[U D]], O2 as [[F1 F2]|[U' D']].
  - left. split; congruence.
  - right. split; [|exact D']. unfold undirected in *. rewrite N1, E1, E2 in U'. exact U'.
  - right. split; [exact U|]. unfold directed in *. rewrite N2, F1, F2. exact D.
  - right. split; [exact U|exact D'].
Qed.
(** What the last two phases do, from any partially directed graph. *)
Lemma orient_phases fuel rx nm K pv alpha rule prio n g1 Sp : (n * n < fuel)%nat -> valid_mode rule prio -> built n g1 -> partially_directed g1 ->
  (forall x y z, unshielded g1 x y z -> (x < z)%nat -> Sp x z <> []) ->
  exists g2 g p, runs p (free (bk_block rx nm K) g1) g1 g2 /\ (prio <> Some 1%nat -> p <> 1%nat) /\ ((p < 2)%nat -> prio = Some p) /\
    uc_and_meek fuel rx nm K pv alpha rule prio Sp g1 = Ret g /\ only_orients g2 g /\
    (forall a b, undirected g2 a b -> directed g a b -> bk_block rx nm K a b = false).
Proof.
  intros Hf2 Hr HB1 HP1 HS. set (blk := bk_block rx nm K).
  assert (FIN : forall g2, built n g2 -> exists g, of_opt (meek fuel rx nm K g2) = Ret g /\ only_orients g2 g /\ (forall a b, undirected g2 a b -> directed g a b -> blk a b = false)).
  { intros g2 HB2. destruct (built_inv n g2 HB2) as (Hn2 & Hw2 & _). destruct (C20_meek_conservative rx nm K g2 fuel Hw2) as (g & Em & _ & Ho); [now rewrite Hn2|].
    exists g. rewrite Em. split; [reflexivity|]. split; [exact Ho|]. intros a b U D. unfold blk. destruct K as [k|]; [|reflexivity].
    cbn [bk_block]. apply orb_false_iff. eapply C22_meek_respects_knowledge; eauto. }
  assert (PACK : forall p g2, runs p (free blk g1) g1 g2 -> (prio <> Some 1%nat -> p <> 1%nat) -> ((p < 2)%nat -> prio = Some p) ->
    exists g3 g p0, runs p0 (free blk g1) g1 g3 /\ (prio <> Some 1%nat -> p0 <> 1%nat) /\ ((p0 < 2)%nat -> prio = Some p0) /\ of_opt (meek fuel rx nm K g2) = Ret g /\ only_orients g3 g /\
    (forall a b, undirected g3 a b -> directed g a b -> blk a b = false)).
  { intros p g2 R NP NQ. destruct (runs_base n p _ g1 HB1 HP1 (free_unshielded pv blk n g1 HB1 HP1) g2 R) as (HB2 & _).
    destruct (FIN g2 HB2) as (g & Q1 & Q2 & Q3). exists g2, g, p. auto 15. }
  unfold uc_and_meek. fold blk.
  destruct rule as [|[|[|r]]]; [| | |destruct Hr].
  - set (p := match prio with Some p => p | None => 3%nat end).
    assert (Hp : (p <= 4)%nat) by (unfold p; destruct prio; [now apply Hr|lia]).
    destruct (uc_sepset_ok pv blk n g1 HB1 HP1 p Sp Hp) as (g2 & E2).
    { intros x y z K0. pose proof (ot_unshielded pv blk n g1 HB1 HP1 x y z K0) as K1. apply (HS x y z K1).
      unfold ordered_triples in K0. apply filter_In in K0. destruct K0 as [_ K0]. now apply Nat.ltb_lt in K0. }
    rewrite E2. cbn [of_res obind]. destruct (uc_sepset_runs pv blk n g1 p Sp g2 E2) as [R _].
    apply (PACK (eff p) g2); [eapply runs_mono; [|exact R]; intros t Q; apply Q| |].
    + intros NP. unfold eff. destruct (Nat.leb p 2); [|lia]. unfold p. destruct prio as [q|]; [congruence|lia].
    + unfold eff. destruct (Nat.leb p 2); [|lia]. unfold p. destruct prio as [q|]; [reflexivity|lia].
  - set (p := match prio with Some p => p | None => 3%nat end).
    assert (Hp : (p <= 4)%nat) by (unfold p; destruct prio; [now apply Hr|lia]).
    destruct (maxp_runs pv blk n g1 HB1 HP1 p Hp) as (g2 & E2 & R). rewrite E2. cbn [of_res obind].
    apply (PACK (eff p) g2 R).
    + intros NP. unfold eff. destruct (Nat.leb p 2); [|lia]. unfold p. destruct prio as [q|]; [congruence|lia].
    + unfold eff. destruct (Nat.leb p 2); [|lia]. unfold p. destruct prio as [q|]; [reflexivity|lia].
  - set (p := match prio with Some p => p | None => 4%nat end).
    assert (Hp : (2 <= p <= 4)%nat) by (unfold p; destruct prio; [now apply Hr|lia]).
    destruct (definite_runs pv blk n g1 HB1 HP1 alpha p Hp) as (g2 & UC & NUC & E2 & R & HN). rewrite E2. cbn [of_res obind fst snd].
    destruct (runs_base n 2 _ g1 HB1 HP1 (free_unshielded pv blk n g1 HB1 HP1) g2 R) as (HB2 & _ & Hg & _).
    destruct (built_inv n g2 HB2) as (Hn2 & Hw2 & _).
    destruct (C20_definite_meek_conservative rx nm K UC NUC g2 fuel Hw2) as (g3 & E3 & Hw3 & Ho3 & Hb3); [|now rewrite Hn2|].
    { intros i j k K0. apply HN in K0. destruct K0 as ((X1 & X2 & _) & (X3 & _) & _). rewrite Hg. auto. }
    rewrite E3. cbn [of_opt obind].
    destruct (C20_meek_conservative rx nm K g3 fuel Hw3) as (g & Em & _ & Ho); [destruct Ho3 as [-> _]; now rewrite Hn2|].
    exists g2, g, 2%nat. rewrite Em. split; [exact R|]. split; [lia|]. split; [lia|]. split; [reflexivity|].
    split; [now apply (orients_trans g2 g3 g)|]. intros a b U D. unfold blk.
    destruct Ho3 as [Hn3 Ho3]. pose proof U as (Ua & Ub & U1 & U2). destruct (Ho3 a b Ua Ub) as [[F1 F2]|[_ [F|F]]].
    + assert (U3 : undirected g3 a b) by (unfold undirected; rewrite Hn3, F1, F2; auto).
      destruct K as [k|]; [|reflexivity]. cbn [bk_block]. apply orb_false_iff. eapply C22_meek_respects_knowledge; eauto.
    + apply Hb3; auto.
    + exfalso. apply (orients_directed g3 g b a Ho) in F. destruct F as (_ & _ & _ & F), D as (_ & _ & D & _). lia.
Qed.
(** What the three phases do. *)
Lemma pc_phases fuel rx nm K pv alpha stable rule prio n : (n <= fuel)%nat -> (n * n < fuel)%nat -> valid_mode rule prio ->
  exists sk Sp g1 g2 g p,
    skeleton_discovery (fun x y cs => pv x y cs >? alpha) (fun x y => forbids rx nm K x y && forbids rx nm K y x) stable fuel n = Some (sk, Sp) /\
    all_undirected sk /\ wf sk /\
    g1 = match K with None => sk | Some k => orient_by_background_knowledge rx nm k sk end /\
    built n g1 /\ partially_directed g1 /\ runs p (free (bk_block rx nm K) g1) g1 g2 /\ (prio <> Some 1%nat -> p <> 1%nat) /\
    pc_alg fuel rx nm K pv alpha stable rule prio n = Ret g /\ only_orients g2 g /\
    (forall a b, undirected g2 a b -> directed g a b -> bk_block rx nm K a b = false).
Proof.
  intros Hf1 Hf2 Hr. unfold pc_alg.
  set (ind := fun x y cs => pv x y cs >? alpha).
  set (ban := fun x y => forbids rx nm K x y && forbids rx nm K y x).
  change (fun x y : nat => _ && _) with ban.
  destruct (C54_skeleton_terminates ind ban stable n fuel Hf1) as (sk & Sp & E & Hn & HU).
  pose proof (skeleton_built _ _ _ _ _ _ _ E) as HB. destruct (built_inv n sk HB) as (_ & Hw & _ & _).
  rewrite E. cbn [of_opt obind fst snd].
  set (g1 := match K with None => sk | Some k => orient_by_background_knowledge rx nm k sk end).
  assert (HB1 : built n g1).
  { unfold g1. destruct K as [k|]; [|exact HB]. apply knowledge_built, HB. }
  assert (HO1 : only_orients sk g1).
  { unfold g1. destruct K as [k|]; [|apply orients_refl]. apply C22_orient_by_knowledge, Hw. }
  assert (HP1 : partially_directed g1) by (eapply orients_pd; [exact HO1|now apply undirected_pd]).
  destruct (orient_phases fuel rx nm K pv alpha rule prio n g1 Sp Hf2 Hr HB1 HP1) as (g2 & g & p & R & NP & _ & EQ & HO & HK).
  { intros x y z (K1 & K2 & K3 & K4) _.
    destruct (built_inv n g1 HB1) as (Hn1 & _). destruct K1 as (X1 & X2 & _), K2 as (X3 & _). rewrite Hn1 in X1, X3.
    eapply (skeleton_recorded ind ban stable fuel n sk Sp x z E); auto. intros J. apply K4. now apply (orients_joined sk g1). }
  exists sk, Sp, g1, g2, g, p. auto 15.
Qed.

(** PC never raises and returns, whatever the test answers and whatever the knowledge says; its adjacencies are those the skeleton
    search found; unless bidirected edges are asked for (priority 1), every edge is directed or undirected. *)
Theorem C61_pc_total : forall fuel rx nm K pv alpha stable rule prio n, (n <= fuel)%nat -> (n * n < fuel)%nat -> valid_mode rule prio ->
  exists sk Sp g,
    skeleton_discovery (fun x y cs => pv x y cs >? alpha) (fun x y => forbids rx nm K x y && forbids rx nm K y x) stable fuel n = Some (sk, Sp) /\
    pc_alg fuel rx nm K pv alpha stable rule prio n = Ret g /\
    gn g = n /\ (forall a b, joined g a b <-> joined sk a b) /\ (prio <> Some 1%nat -> partially_directed g).
Proof.
  intros fuel rx nm K pv alpha stable rule prio n Hf1 Hf2 Hr.
  destruct (pc_phases fuel rx nm K pv alpha stable rule prio n Hf1 Hf2 Hr) as (sk & Sp & g1 & g2 & g & p & E & HU & Hw & E1 & HB1 & HP1 & R & NP & EP & HO & HBK).
  exists sk, Sp, g. split; [exact E|]. split; [exact EP|]. pose proof (free_unshielded pv (bk_block rx nm K) n g1 HB1 HP1) as Pu.
  destruct (runs_base n p _ g1 HB1 HP1 Pu g2 R) as (HB2 & _ & Hn2 & Hj2). destruct (built_inv n g2 HB2) as (Hg2 & _).
  split; [destruct HO; congruence|]. split.
  - intros a b. rewrite (orients_joined g2 g HO), Hj2, E1. destruct K as [k|]; [|tauto]. apply orients_joined. now apply C22_orient_by_knowledge.
  - intros N1. apply (orients_pd g2 g HO). apply (runs_pd n p _ g1 HB1 HP1 Pu); auto.
Qed.
(** A direction whose opposite is rejected survives the collider phase. *)
Lemma demanded_stays rx nm K n p g1 g2 a b : built n g1 -> partially_directed g1 ->
  (forall x y z, free (bk_block rx nm K) g1 (x, y, z) -> unshielded g1 x y z) -> runs p (free (bk_block rx nm K) g1) g1 g2 ->
  directed g1 a b -> bk_block rx nm K b a = true -> directed g2 a b.
Proof.
  intros HB1 HP1 Pu R D1 B. induction R as [|h [[x y] z] R IH Ht]; [exact D1|].
    pose proof (Pu _ _ _ Ht) as Hu. pose proof (runs_base n p _ g1 HB1 HP1 Pu h R) as HBs.
    destruct (now_cases n g1 h p x y z HBs Hu) as [_ [(-> & _)|((g3 & (A0 & A1 & A2 & A3) & (B0 & B1 & B2 & B3)) & _)]]; [exact IH|].
    destruct (unshielded_neq n g1 HB1 x y z Hu) as (N1 & N2 & N3). destruct Ht as [_ Ht]. cbn [blocked] in Ht. apply orb_false_iff in Ht. destruct Ht as [T1 T2].
    destruct IH as (I1 & I2 & I3 & I4). unfold directed. rewrite B0, A0. split; [exact I1|]. split; [exact I2|].
    destruct (same_pair a b x y) eqn:Ex; [apply same_pair_iff in Ex; destruct Ex as [[-> ->]|[-> ->]]|].
    + rewrite (B3 x y), (B3 y x) by lia. split; [lia|exact A1].
    + congruence.
    + apply not_true_iff_false in Ex. rewrite same_pair_iff in Ex.
      destruct (same_pair a b z y) eqn:Ez; [apply same_pair_iff in Ez; destruct Ez as [[-> ->]|[-> ->]]|].
      * rewrite A3 in B2 by lia. split; [lia|exact B1].
      * congruence.
      * apply not_true_iff_false in Ez. rewrite same_pair_iff in Ez. rewrite !B3, !A3 by tauto. auto.
Qed.
(** Knowledge is respected: an arrowhead the knowledge forbids occurs only when it also forbids the opposite direction, and
    a direction the knowledge demands is there. *)
Theorem C60_pc_respects_knowledge : forall fuel rx nm K pv alpha stable rule prio n g, (n <= fuel)%nat -> (n * n < fuel)%nat -> valid_mode rule prio ->
  pc_alg fuel rx nm K pv alpha stable rule prio n = Ret g ->
  (forall a b, joined g a b -> gm g b a = 1 -> forbids rx nm K a b = true -> forbids rx nm K b a = true) /\
  (stable = true -> forall a b, joined g a b -> gm g b a = 1 -> forbids rx nm K a b = false) /\
  (forall a b, joined g a b -> forbids rx nm K a b = false -> requires rx nm K b a = false ->
     forbids rx nm K b a = true \/ requires rx nm K a b = true -> directed g a b).
Proof.
  intros fuel rx nm K pv alpha stable rule prio n g Hf1 Hf2 Hr EP0.
  destruct (pc_phases fuel rx nm K pv alpha stable rule prio n Hf1 Hf2 Hr) as (sk & Sp & g1 & g2 & g' & p & E & HU & Hw & E1 & HB1 & HP1 & R & NP & EP & HO & HBK).
  rewrite EP in EP0. injection EP0 as ->.
  pose proof (free_unshielded pv (bk_block rx nm K) n g1 HB1 HP1) as Pu.
  destruct (runs_base n p _ g1 HB1 HP1 Pu g2 R) as (HB2 & _ & Hn2 & Hj2). destruct (built_inv n g2 HB2) as (Hg2 & _).
  assert (HO1 : only_orients sk g1) by (subst g1; destruct K as [k|]; [now apply C22_orient_by_knowledge|apply orients_refl]).
  assert (HJ : forall a b, joined g a b <-> joined sk a b) by (intros; rewrite (orients_joined g2 g HO), Hj2; now apply orients_joined).
  assert (A : forall a b, joined g a b -> gm g b a = 1 -> forbids rx nm K a b = true -> forbids rx nm K b a = true).
  { intros a b J H F. assert (B : bk_block rx nm K a b = true) by (rewrite block_is, F; reflexivity).
    destruct (orients_head g2 g a b HO J H) as [H2|[U D]]; [|rewrite (HBK a b U D) in B; discriminate].
    destruct (runs_new n p _ g1 HB1 HP1 Pu g2 R a b H2) as [H1|(c & [Q|Q])].
    - assert (U : undirected sk a b) by (apply HU, HJ, J).
      assert (J1 : joined g1 a b) by (apply Hj2, (orients_joined g2 g HO), J).
      destruct (orients_head sk g1 a b HO1 J1 H1) as [X|[_ D1]]; [destruct U as (_ & _ & _ & U); lia|].
      rewrite E1 in D1. destruct K as [k|]; [|destruct D1 as (_ & _ & _ & D1), U as (_ & _ & _ & U); lia].
      destruct (C22_orient_by_knowledge rx nm k sk Hw) as [_ C]. destruct (C a b U) as (_ & _ & C3).
      specialize (C3 D1). cbn [forbids] in F |- *. rewrite F in C3. destruct C3; [discriminate|assumption].
    - destruct Q as [_ Q]. cbn [blocked] in Q. apply orb_false_iff in Q. destruct Q. congruence.
    - destruct Q as [_ Q]. cbn [blocked] in Q. apply orb_false_iff in Q. destruct Q. congruence. }
  split; [exact A|]. split.
  - intros -> a b J H. destruct (forbids rx nm K a b) eqn:F; [|reflexivity]. pose proof (A a b J H F) as F2. exfalso.
    apply (C52_forbidden_absent _ _ n fuel sk Sp a b Hf1 E); [| |now apply HJ]; cbv beta; rewrite F, F2; reflexivity.
  - intros a b J F1 Q1 HD. apply (orients_directed g2 g a b HO). assert (U : undirected sk a b) by (apply HU, HJ, J).
    assert (D1 : directed g1 a b).
    { rewrite E1. destruct K as [k|]; [|cbn in HD; destruct HD; discriminate]. now apply C22_orient_by_knowledge. }
    assert (B : bk_block rx nm K b a = true) by (rewrite block_is; destruct HD as [-> | ->]; [reflexivity|apply orb_true_r]).
    now apply (demanded_stays rx nm K n p g1 g2).
Qed.

(** ** C62: directed cycles *)
(** With a perfect test the directed edges form no cycle. *)
Theorem C62_pc_oracle_acyclic_partial : forall n D pv alpha fuel rx nm stable rule prio g,
  oracle n D (fun x y cs => pv x y cs >? alpha) -> (n <= fuel)%nat -> (n * n < fuel)%nat -> valid_mode rule prio ->
  pc_alg fuel rx nm None pv alpha stable rule prio n = Ret g -> acyclic (directed g).
Proof.
  intros n D pv alpha fuel rx nm stable rule prio g HO H1 H2 Hv E a Ha.
  destruct (C57_pc_oracle n D pv alpha fuel rx nm stable rule prio HO H1 H2 Hv) as (g' & E' & HC). rewrite E in E'. injection E' as <-.
  destruct HO as (_ & HD & _). destruct HC as (_ & _ & _ & _ & HC & _).
  assert (X : forall x y, directed g x y -> dedge D x y).
  { intros x y K. apply HC in K. destruct K as [_ K]. destruct (K D (equivalent_refl D HD)) as (K1 & K2 & K3 & K4). split; [exact K1|]. split; [exact K2|]. auto. }
  destruct HD as (_ & HA & _). apply (HA a). destruct Ha as (b & K1 & K2). exists b. split; [now apply X|]. eapply reach_mono; [exact X|exact K2].
Qed.
(** With an imperfect test they can: the triangle 0, 1, 2 with one further neighbour each (3 - 1, 4 - 2, 5 - 0), where 0, 3 and
    1, 4 and 2, 5 are independent, and 2, 3 and 0, 4 and 1, 5 become independent given the node between them. *)
Definition spun_edge (x y : nat) : bool := existsb (fun p => same_pair x y (fst p) (snd p)) [(0,1); (1,2); (0,2); (3,1); (4,2); (5,0)]%nat.
Definition spun_need (x y : nat) : list nat :=
  if same_pair x y 2 3 then [1%nat] else if same_pair x y 0 4 then [2%nat] else if same_pair x y 1 5 then [0%nat] else [].
Definition spun (x y : nat) (T : list nat) : bool := negb (spun_edge x y) && forallb (fun z => memb z T) (spun_need x y).
Definition spun_pv (x y : nat) (T : list nat) : Z := if spun x y T then 1 else 0.
Theorem C62_pc_cycle_refuted : exists n pv alpha g,
  order_free n (fun x y cs => pv x y cs >? alpha) /\ (forall x y T, pv x y T = pv y x T) /\
  pc_alg 37 (fun _ _ => false) (fun i => i) None pv alpha true 0 None n = Ret g /\ reach1 (directed g) 0%nat 0%nat.
Proof.
  assert (C : match pc_alg 37 (fun _ _ => false) (fun i => i) None spun_pv 0 true 0 None 6 with
              | Ret g => Nat.eqb (gn g) 6 && is_fully_directed g 0 1 && is_fully_directed g 1 2 && is_fully_directed g 2 0 | _ => false end = true) by (vm_compute; reflexivity).
  destruct (pc_alg 37 (fun _ _ => false) (fun i => i) None spun_pv 0 true 0 None 6) as [g| |] eqn:E; [|discriminate|discriminate].
  rewrite !andb_true_iff, Nat.eqb_eq in C. destruct C as [[[Hn C1] C2] C3].
  assert (DI : forall a b, (a < 6)%nat -> (b < 6)%nat -> is_fully_directed g a b = true -> directed g a b).
  { intros a b Ha Hb H. unfold is_fully_directed in H. rewrite andb_true_iff, !Z.eqb_eq in H. repeat split; rewrite ?Hn; tauto. }
  exists 6%nat, spun_pv, 0, g. split.
  { intros x y T T' _ _ _ _ HP. unfold spun_pv, spun. f_equal. enough (forallb (fun z => memb z T) (spun_need x y) = forallb (fun z => memb z T') (spun_need x y)) as -> by reflexivity.
    induction (spun_need x y) as [|z r IH]; [reflexivity|]. cbn [forallb]. rewrite IH. f_equal. apply eq_true_iff_eq. rewrite !memb_In. split; apply Permutation.Permutation_in; [exact HP|now apply Permutation.Permutation_sym]. }
  split.
  { intros x y T. unfold spun_pv, spun, spun_edge, spun_need. cbn [existsb fst snd]. rewrite !(same_pair_sym x y). reflexivity. }
  split; [exact E|]. exists 1%nat. split; [apply DI; auto; lia|]. apply reach_step with 2%nat; [apply DI; auto; lia|]. apply reach_step with 0%nat; [apply DI; auto; lia|constructor].
Qed.

(** ** Concrete cases *)
Definition chain_pv (x y : nat) (T : list nat) : Z := if chain_test x y T then 1 else 0.
Lemma chain_pv_oracle : oracle 3 chain (fun x y cs => chain_pv x y cs >? 0).
Proof.
  destruct chain_oracle as (H1 & H2 & H3). split; [exact H1|]. split; [exact H2|]. intros x y T Hx Hy N HC. rewrite <- (H3 x y T Hx Hy N HC).
  unfold chain_pv. destruct (chain_test x y T); cbn; split; congruence.
Qed.
Example C57_ex : oracle 3 chain (fun x y cs => chain_pv x y cs >? 0) /\ valid_mode 0 None /\ valid_mode 1 (Some 2%nat) /\ valid_mode 2 (Some 4%nat) /\
  match pc_alg 10 (fun _ _ => false) (fun i => i) None chain_pv 0 true 0 None 3 with
  | Ret g => is_undirected g 0 1 && is_undirected g 1 2 && (gm g 0%nat 2%nat =? 0) | _ => false end = true.
Proof.
  split; [exact chain_pv_oracle|]. split; [intros p K; discriminate|]. split; [intros p K; injection K as <-; lia|]. split; [intros p K; injection K as <-; lia|]. vm_compute. reflexivity.
Qed.
(** The collider 0 --> 1 <-- 2 --> 3: the pattern of the DAG, completed by meek. *)
Definition coll_D : ggraph := graph_of 4 [dir 0 1; dir 2 1; dir 1 3].
Definition coll_P : ggraph := graph_of 4 [dir 0 1; dir 2 1; und 1 3].
Example C58_ex : dag coll_D /\ built 4 coll_P /\ pattern coll_D coll_P /\
  match meek 17 (fun _ _ => false) (fun i => i) None coll_P with Some g => is_fully_directed g 1 3 | None => false end = true.
Proof.
  split; [apply (dagb_sound (fun v => nth v [0; 1; 0; 2]%nat 0%nat)); vm_compute; reflexivity|]. split.
  { unfold coll_P, graph_of. cbn [fold_left]. repeat (apply built_add; [|unfold op_on; cbn; lia|apply simpleb_sound; vm_compute; reflexivity]). constructor. }
  split; [|vm_compute; reflexivity].
  assert (Q1 : all2 4 (fun a b => Bool.eqb (gm coll_P a b =? 0) (gm coll_D a b =? 0)) = true) by (vm_compute; reflexivity).
  assert (Q2 : all2 4 (fun a b => Bool.eqb ((gm coll_P a b =? -1) && (gm coll_P b a =? 1)) (existsb (ucolb coll_D a b) (seq 0 4))) = true) by (vm_compute; reflexivity).
  assert (Q3 : all2 4 (fun a b => (gm coll_P a b =? 0) || ((gm coll_P a b =? -1) && (gm coll_P b a =? 1)) || ((gm coll_P b a =? -1) && (gm coll_P a b =? 1)) || ((gm coll_P b a =? -1) && (gm coll_P a b =? -1))) = true) by (vm_compute; reflexivity).
  rewrite all2_spec in Q1, Q2, Q3. split; [reflexivity|]. split; [|split].
  - intros a b. unfold joined. change (gn coll_P) with 4%nat. change (gn coll_D) with 4%nat.
    split; intros (K1 & K2 & K3); (split; [exact K1|]; split; [exact K2|]); specialize (Q1 a b K1 K2); apply eqb_prop in Q1; rewrite <- Z.eqb_neq in *; congruence.
  - intros a b. split.
    + intros (K1 & K2 & K3 & K4). change (gn coll_P) with 4%nat in K1, K2. specialize (Q2 a b K1 K2). rewrite K3, K4 in Q2. cbn [Z.eqb Pos.eqb andb] in Q2.
      apply eqb_prop in Q2. symmetry in Q2. apply existsb_exists in Q2. destruct Q2 as (c & Hc & Q2). exists c. apply ucolb_spec; auto. apply in_seq0 in Hc. exact Hc.
    + intros (c & K). pose proof K as (K1 & K2 & K3 & _). change (gn coll_D) with 4%nat in K1, K2, K3. specialize (Q2 a b K1 K2). apply eqb_prop in Q2.
      assert (X : existsb (ucolb coll_D a b) (seq 0 4) = true) by (apply existsb_exists; exists c; split; [now apply in_seq0|now apply ucolb_spec]).
      rewrite X, andb_true_iff, !Z.eqb_eq in Q2. split; [exact K1|]. split; [exact K2|exact Q2].
  - intros a b (K1 & K2 & K3). pose proof K1 as K1'. pose proof K2 as K2'. change (gn coll_P) with 4%nat in K1', K2'. specialize (Q3 a b K1' K2').
    rewrite !orb_true_iff, !andb_true_iff, !Z.eqb_eq in Q3. unfold directed, undirected. tauto.
Qed.
(** The path 0 --- 1 --- 2 with the set {} recorded for 0, 2, and with the knowledge against 0 --> 1. *)
Definition path3 : ggraph := graph_of 3 [und 0 1; und 1 2].
Example C59_ex : built 3 path3 /\
  (forall prio, (prio <= 4)%nat -> match uc_sepset (fun _ _ _ => 0) (fun _ _ => false) prio (fun _ _ => [[]]) path3 with
    | Ok g => is_fully_directed g 0 1 && is_fully_directed g 2 1 | Raise => false end = true) /\
  match uc_sepset (fun _ _ _ => 0) (fun a b => Nat.eqb a 0 && Nat.eqb b 1) 0 (fun _ _ => [[]]) path3 with
    | Ok g => is_undirected g 0 1 && is_undirected g 1 2 | Raise => false end = true.
Proof.
  split; [|split].
  - unfold path3, graph_of. cbn [fold_left]. repeat (apply built_add; [|unfold op_on; cbn; lia|apply simpleb_sound; vm_compute; reflexivity]). constructor.
  - intros prio Hp. destruct prio as [|[|[|[|[|p]]]]]; [vm_compute; reflexivity..|lia].
  - vm_compute. reflexivity.
Qed.
(** PC on the chain with the knowledge that forbids 1 --> 0. *)
Example C60_ex :
  let K := Some (bk_run [AddForb 1 0]) in
  match pc_alg 10 (fun _ _ => false) (fun i => i) K chain_pv 0 true 0 None 3 with
  | Ret g => is_fully_directed g 0 1 && is_fully_directed g 1 2 | _ => false end = true /\
  forbids (fun _ _ => false) (fun i => i) K 1 0 = true /\ forbids (fun _ _ => false) (fun i => i) K 0 1 = false.
Proof. vm_compute. auto. Qed.
Print Assumptions C57_pc_oracle.
Print Assumptions C58_meek_completes_pattern.
Print Assumptions C59_new_arrowheads.
Print Assumptions C59_bidirected_complete.
Print Assumptions C59_keep_existing.
Print Assumptions C60_pc_respects_knowledge.
Print Assumptions C61_pc_total.
Print Assumptions C62_pc_cycle_refuted.
