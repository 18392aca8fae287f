(** Theory of the Insert and Delete operators on completed graphs. *)
From Verif Require Import Base EdgeModel EdgeProofs GraphModel GraphSpec GraphProofs RankLib UtilsModel UtilsProofs
  DsepSpec DsepProofs MeekSpec MeekProofs PdagProofs CpdagTheory CpdagModel CpdagSpec CpdagProofs CpdagMain CpdagProps GESSpec.
Local Open Scope Z_scope.

Lemma dag_directed_dedge D a b : dag D -> directed D a b <-> dedge D a b.
Proof.
  intros (_ & _ & HD). split.
  - intros (H1 & H2 & H3 & H4). split; auto.
  - intros (H1 & H2 & [[H3 H4]|[H3 H4]]); [split; auto|]. exfalso. destruct (HD a b H1 H2) as [[? ?]|[? ?]]; lia.
Qed.
Lemma dag_joined D a b : dag D -> joined D a b <-> directed D a b \/ directed D b a.
Proof.
  intros (_ & _ & HD). split.
  - intros (H1 & H2 & H3). destruct (HD a b H1 H2 H3) as [[? ?]|[? ?]]; [left|right]; repeat split; auto.
  - intros [(H1 & H2 & H3 & H4)|(H1 & H2 & H3 & H4)]; repeat split; auto; lia.
Qed.
Lemma wf_joined_sym D a b : wf D -> joined D a b -> joined D b a.
Proof.
  intros [_ Hl] (H1 & H2 & H3). repeat split; auto. intros E. apply H3. pose proof (Hl b a H2 H1) as HL. rewrite E in HL. now apply legal_zero in HL.
Qed.
Lemma wf_joined_irr D a : wf D -> ~ joined D a a.
Proof. intros [Hs _] (H1 & _ & H3). apply H3. auto. Qed.
Lemma directed_joined D a b : directed D a b -> joined D a b.
Proof. intros (H1 & H2 & H3 & H4). repeat split; auto; lia. Qed.
Lemma undirected_joined D a b : undirected D a b -> joined D a b.
Proof. intros (H1 & H2 & H3 & H4). repeat split; auto; lia. Qed.
Lemma undirected_sym D a b : undirected D a b -> undirected D b a.
Proof. unfold undirected. tauto. Qed.
Lemma directed_undirected D a b : directed D a b -> undirected D a b -> False.
Proof. intros (_ & _ & _ & H) (_ & _ & _ & K). lia. Qed.
Lemma directed_undirected' D a b : directed D a b -> undirected D b a -> False.
Proof. intros (_ & _ & _ & H) (_ & _ & K & _). lia. Qed.
Lemma directed_asym D a b : directed D a b -> directed D b a -> False.
Proof. intros (_ & _ & H & _) (_ & _ & _ & K). lia. Qed.
Lemma joined_dec D a b : joined D a b \/ ~ joined D a b.
Proof.
  unfold joined. destruct (Nat.lt_ge_cases a (gn D)); [|right; lia]. destruct (Nat.lt_ge_cases b (gn D)); [|right; lia].
  destruct (Z.eq_dec (gm D a b) 0); [right; tauto|left; auto].
Qed.
Lemma directed_dec D a b : directed D a b \/ ~ directed D a b.
Proof.
  unfold directed. destruct (Nat.lt_ge_cases a (gn D)); [|right; lia]. destruct (Nat.lt_ge_cases b (gn D)); [|right; lia].
  destruct (Z.eq_dec (gm D a b) (-1)); [|right; tauto]. destruct (Z.eq_dec (gm D b a) 1); [left; auto|right; tauto].
Qed.

(** Unshielded colliders of a graph of directed and undirected edges. *)
Lemma pdag_ucollider P a b c : pdag P -> ucollider P a b c <-> directed P a b /\ directed P c b /\ a <> c /\ ~ joined P a c.
Proof.
  intros (W & K). split.
  - intros (H1 & H2 & H3 & H4 & H5 & H6 & H7 & H8 & H9).
    assert (Dir : forall x, (x < gn P)%nat -> gm P b x = 1 -> gm P x b <> 0 -> directed P x b).
    { intros x Hx E N. destruct (K x b) as [H|[(_ & _ & H & _)|(_ & _ & _ & H)]]; [split; auto|exact H|lia|lia]. }
    split; [auto|]. split; [auto|]. split; [auto|]. intros (_ & _ & N). contradiction.
  - intros ((H1 & H2 & H3 & H4) & (H5 & _ & H7 & H8) & N & NJ). repeat split; auto; try lia.
    destruct (Z.eq_dec (gm P a c) 0); [assumption|]. exfalso. apply NJ. split; auto.
Qed.
Lemma dag_pdag D : dag D -> pdag D.
Proof. intros H. split; [apply H|]. intros a b J. apply dag_joined in J; tauto. Qed.
Lemma dag_ucollider D a b c : dag D -> ucollider D a b c <-> directed D a b /\ directed D c b /\ a <> c /\ ~ joined D a c.
Proof. intros H. apply pdag_ucollider. now apply dag_pdag. Qed.

(** Two extensions of the same graph are equivalent. *)
Lemma extensions_equivalent P D1 D2 : pdag P -> extension P D1 -> extension P D2 -> equivalent D1 D2.
Proof.
  intros HP (N1 & A1 & J1 & E1 & U1) (N2 & A2 & J2 & E2 & U2).
  split; [congruence|]. split; [exact A1|]. split; [exact A2|]. split.
  - intros a b. now rewrite J1, J2.
  - assert (K : forall Da Db, extension P Da -> extension P Db -> forall a b c, ucollider Da a b c -> ucollider Db a b c).
    { intros Da Db (Na & Aa & Ja & Ea & Ua) (Nb & Ab & Jb & Eb & Ub) a b c H. apply Ua in H. apply (pdag_ucollider P) in H; [|exact HP].
      destruct H as (H1 & H2 & H3 & H4). apply dag_ucollider; [exact Ab|]. rewrite Jb. auto. }
    intros a b c. split; apply K; split; auto.
Qed.

Lemma completed_class D D' C : completed D C -> equivalent D D' -> completed D' C.
Proof.
  intros (Cn & Cw & Cj & Ck & Cd & Cu) HE. pose proof HE as (N & _ & _ & J & _).
  split; [congruence|]. split; [exact Cw|]. split; [intros; now rewrite Cj|]. split; [exact Ck|]. split.
  - intros a b. rewrite Cd, J. split; intros [H1 H2]; (split; [exact H1|]); intros G HG; apply H2.
    + eapply equivalent_trans; eauto.
    + eapply equivalent_trans; [apply equivalent_sym; exact HE|exact HG].
  - intros a b. rewrite Cu, J. apply equivalent_sym in HE as HE'.
    split; intros (H1 & (D1 & A1 & B1) & (D2 & A2 & B2)); (split; [exact H1|]);
    (split; [exists D1|exists D2]); (split; [|assumption]); eapply equivalent_trans; eauto.
Qed.
Lemma completed_pdag D C : completed D C -> pdag C.
Proof. intros (Cn & Cw & Cj & Ck & _). split; auto. Qed.

Lemma completed_facts D C : dag D -> completed D C ->
  (forall v a b, directed C v a -> undirected C a b -> directed C v b) /\
  (forall c, NoDup c -> (forall a, In a c -> (a < gn D)%nat) ->
     (forall a b, In a c -> In b c -> a <> b -> undirected C a b) ->
     exists D', equivalent D D' /\
       forall a b, undirected C a b -> In a c -> (In b c -> (idx a c < idx b c)%nat) -> directed D' a b).
Proof.
  intros Hd HC. set (fuel := S (gn D)).
  destruct (causal_order_correct D (fun _ => false) fuel) as (order & E & H1 & H2 & H3);
    [apply Hd|now apply dag_simple|apply Hd|unfold fuel; lia|].
  assert (Hall : forall v, In v order <-> (v < gn D)%nat) by (intros v; rewrite H2; tauto).
  assert (Htop : forall l1 v l2, order = l1 ++ v :: l2 -> forall p, dedge D p v -> In p l1) by (intros; eapply H3; eauto).
  assert (Hlen : (length order <= fuel)%nat).
  { apply Nat.le_trans with (length (seq 0 (gn D))).
    - apply NoDup_incl_length; [exact H1|]. intros v Hv. apply in_seq0. now apply Hall.
    - rewrite seq_length. unfold fuel. lia. }
  destruct (labels D order Hd H1 Hall Htop fuel Hlen) as (st & El & Hfst & Hsg & Hlab).
  destruct HC as (Cn & Cw & Cj & Ck & Cd & Cu).
  pose proof (adj_joined D Hd) as AJ.
  assert (HL : forall a b, Lb st a b <-> directed C a b).
  { intros a b. rewrite Cd. split.
    - intros HL. split; [|intros D' HE; eapply (compelled D order st); eauto].
      apply AJ. left. eapply (L_E D order st); eauto.
    - intros [J All]. destruct (L_dec st a b) as [|N]; [assumption|]. exfalso.
      assert (Dab : directed D a b) by (apply All, equivalent_refl, Hd).
      destruct (turnable D order st Hd H1 Hall Htop Hfst Hsg Hlab b a) as (D' & E1 & E2); [right; auto|].
      apply (dag_no_cycle2 D' a b); [apply E1|now apply All|exact E2]. }
  assert (HH : forall a b, H (dE D) (Lb st) a b <-> undirected C a b).
  { intros a b. rewrite Cu. split.
    - intros Hab. split; [apply AJ; destruct Hab as [[K _]|[K _]]; [now left|now right]|]. split.
      + eapply (turnable D order st); eauto.
      + apply H_sym in Hab. eapply (turnable D order st); eauto.
    - intros (J & (D1 & A1 & B1) & (D2 & A2 & B2)). apply AJ in J. destruct J as [J|J]; [left|right]; (split; [exact J|]); intros HLab;
      apply HL in HLab; apply Cd in HLab; destruct HLab as [_ All].
      + apply (dag_no_cycle2 D2 a b); [apply A2|now apply All|exact B2].
      + apply (dag_no_cycle2 D1 a b); [apply A1|exact B1|now apply All]. }
  split.
  - intros v a b Hv Hab. apply HL. apply HL in Hv. apply HH in Hab.
    apply (H_same (dE D) (rk order) (Lb st)) with (a := a) (b := b); auto.
    + apply (E_dec D order); auto.
    + apply (r_E D order); auto.
    + intros x y. apply (L_E D order st); auto.
    + intros x y. apply (lat_ex D order); auto.
    + intros x y. apply (cnd_dec D order st); auto.
    + intros x y. apply (CpdagMain.L_all D order st); auto.
    + intros x y. apply (CpdagMain.L_copy D order st); auto.
  - intros c Nc Ic Cc.
    destruct (turnable_clique D order st Hd H1 Hall Htop Hfst Hsg Hlab c Nc) as (D' & E1 & E2).
    + intros a Ha. apply Hall. auto.
    + intros a b Ha Hb N. apply HH. auto.
    + exists D'. split; [exact E1|]. intros a b Hab. apply E2. now apply HH.
Qed.

(* ---------- adding and removing one edge of a DAG ---------- *)
(** The graph with the given directed edges. *)
Definition dgraph (n : nat) (e : nat -> nat -> bool) : ggraph :=
  mkG n (fun a b => if e a b then -1 else if e b a then 1 else 0) zeros.
Definition dirb (D : ggraph) (a b : nat) : bool := (gm D a b =? -1) && (gm D b a =? 1) && Nat.ltb a (gn D) && Nat.ltb b (gn D).
Lemma dirb_iff D a b : dirb D a b = true <-> directed D a b.
Proof. unfold dirb, directed. rewrite !andb_true_iff, !Z.eqb_eq, !Nat.ltb_lt. tauto. Qed.
Lemma dgraph_directed n e a b : (forall x y, e x y = true -> e y x = false) -> (forall x y, e x y = true -> (x < n)%nat /\ (y < n)%nat) ->
  directed (dgraph n e) a b <-> e a b = true.
Proof.
  intros As Bd. unfold directed. cbn [gn gm dgraph]. split.
  - intros (_ & _ & H1 & H2). destruct (e a b) eqn:E; [reflexivity|]. destruct (e b a); discriminate.
  - intros E. destruct (Bd _ _ E). rewrite E, (As _ _ E). auto.
Qed.
Lemma dgraph_dag n e : (forall x y, e x y = true -> (x < n)%nat /\ (y < n)%nat) -> acyclic (fun x y => e x y = true) -> dag (dgraph n e).
Proof.
  intros Bd Ac.
  assert (As : forall x y, e x y = true -> e y x = false).
  { intros x y E. destruct (e y x) eqn:E'; [|reflexivity]. exfalso. apply (Ac x). exists y. split; [exact E|]. now apply reach_one. }
  assert (Ir : forall x, e x x = false).
  { intros x. destruct (e x x) eqn:E'; [|reflexivity]. exfalso. apply (Ac x). exists x. split; [exact E'|constructor]. }
  split; [split|split].
  - intros i _. cbn [gm dgraph]. now rewrite Ir.
  - intros i j _ _. cbn [gm dgraph]. destruct (e i j) eqn:E1.
    + rewrite (As _ _ E1). unfold legal_pair, legal_pairs. cbn. tauto.
    + destruct (e j i); unfold legal_pair, legal_pairs; cbn; tauto.
  - intros a (b & Hab & Hr). apply (Ac a). exists b.
    assert (M : forall x y, dedge (dgraph n e) x y -> e x y = true).
    { intros x y (_ & _ & Hxy). cbn [gm dgraph] in Hxy. destruct (e x y); [reflexivity|]. destruct (e y x); lia. }
    split; [now apply M|]. now apply (reach_mono _ _ M).
  - intros i j _ _. cbn [gm dgraph]. destruct (e i j) eqn:E1; [rewrite (As _ _ E1); auto|]. destruct (e j i); [auto|congruence].
Qed.

Lemma adds_exists D x y : dag D -> (x < gn D)%nat -> (y < gn D)%nat -> x <> y -> ~ joined D x y ->
  ~ reach (directed D) y x -> exists D', adds D x y D'.
Proof.
  intros Hd Hx Hy Nxy NJ NR.
  set (e := fun a b => dirb D a b || (Nat.eqb a x && Nat.eqb b y)).
  assert (He : forall a b, e a b = true <-> directed D a b \/ (a = x /\ b = y)).
  { intros a b. unfold e. rewrite orb_true_iff, dirb_iff, andb_true_iff, !Nat.eqb_eq. tauto. }
  assert (Bd : forall a b, e a b = true -> (a < gn D)%nat /\ (b < gn D)%nat).
  { intros a b H. apply He in H. destruct H as [(H1 & H2 & _)|[-> ->]]; auto. }
  assert (Ac : acyclic (fun a b => e a b = true)).
  { intros a (b & Hab & Hr).
    assert (HD : acyclic (directed D)).
    { intros c (d & Hcd & Hr'). apply (proj1 (proj2 Hd) c). exists d. split; [now apply dag_directed_dedge|].
      apply (reach_mono (directed D)); [|exact Hr']. intros u v. now apply dag_directed_dedge. }
    destruct (reach_extra (directed D) (fun a b => e a b = true) x y) with (a := b) (b := a) as [K|[K1 K2]]; auto.
    - intros u v. apply He.
    - apply He in Hab. destruct Hab as [Hab|[-> ->]]; [apply (HD a); exists b; auto|contradiction].
    - apply He in Hab. destruct Hab as [Hab|[-> ->]].
      + apply NR. eapply reach_trans; [exact K2|]. eapply reach_step; [exact Hab|exact K1].
      + now apply NR. }
  exists (dgraph (gn D) e). pose proof (dgraph_dag (gn D) e Bd Ac) as HG.
  split; [reflexivity|]. split; [exact HG|]. split; [exact Hx|]. split; [exact Hy|]. split; [exact NJ|].
  intros a b. rewrite <- He. apply dgraph_directed; [|exact Bd].
  intros u v E. destruct (e v u) eqn:E'; [|reflexivity]. exfalso. apply (Ac u). exists v. split; [exact E|]. now apply reach_one.
Qed.
Lemma drops_exists D x y : dag D -> directed D x y -> exists D', drops D x y D'.
Proof.
  intros Hd Hxy.
  set (e := fun a b => dirb D a b && negb (Nat.eqb a x && Nat.eqb b y)).
  assert (He : forall a b, e a b = true <-> directed D a b /\ ~ (a = x /\ b = y)).
  { intros a b. unfold e. rewrite andb_true_iff, dirb_iff, negb_true_iff, andb_false_iff, !Nat.eqb_neq.
    destruct (Nat.eq_dec a x), (Nat.eq_dec b y); tauto. }
  assert (Bd : forall a b, e a b = true -> (a < gn D)%nat /\ (b < gn D)%nat).
  { intros a b H. apply He in H. destruct H as [(H1 & H2 & _) _]; auto. }
  assert (Ac : acyclic (fun a b => e a b = true)).
  { intros a (b & Hab & Hr). apply (proj1 (proj2 Hd) a). exists b.
    assert (M : forall u v, e u v = true -> dedge D u v) by (intros u v H; apply He in H; apply dag_directed_dedge; tauto).
    split; [auto|]. now apply (reach_mono _ _ M). }
  exists (dgraph (gn D) e). pose proof (dgraph_dag (gn D) e Bd Ac) as HG.
  split; [reflexivity|]. split; [exact HG|]. split; [exact Hxy|].
  intros a b. rewrite <- He. apply dgraph_directed; [|exact Bd].
  intros u v E. destruct (e v u) eqn:E'; [|reflexivity]. exfalso. apply (Ac u). exists v. split; [exact E|]. now apply reach_one.
Qed.

(* ---------- what the completed graph says about the members of its class ---------- *)
(** Walks with a number of steps, and chains of directed edges of G (last node first) that avoid the bad nodes. *)
Inductive wkn (R : nat -> nat -> Prop) (X : nat) : nat -> nat -> Prop :=
| wkn_0 : wkn R X 0 X
| wkn_S : forall k u v, R u v -> wkn R X k v -> wkn R X (S k) u.
Inductive gch (G : ggraph) (bad : nat -> Prop) (Y : nat) : list nat -> Prop :=
| gch_0 : ~ bad Y -> gch G bad Y [Y]
| gch_S : forall u v l, gch G bad Y (u :: l) -> directed G u v -> ~ bad v -> gch G bad Y (v :: u :: l).
Lemma gch_reach G bad Y l : gch G bad Y l -> forall u r, l = u :: r -> reach (directed G) Y u.
Proof.
  induction 1 as [|a b l H IH Hd Hb]; intros u r E; injection E as <- <-; [constructor|].
  apply reach_trans with a; [eapply IH; eauto|now apply reach_one].
Qed.
Lemma gch_nb G bad Y u l : gch G bad Y (u :: l) -> ~ bad u.
Proof. inversion 1; subst; auto. Qed.
Lemma dag_irr D a : dag D -> ~ directed D a a.
Proof. intros _ (_ & _ & H1 & H2). lia. Qed.
Section Class.
Variables D C : ggraph.
Hypothesis Hd : dag D.
Hypothesis HC : completed D C.

Lemma cl_dir a b : directed C a b -> forall G, equivalent D G -> directed G a b.
Proof. intros H G HG. destruct HC as (_ & _ & _ & _ & Cd & _). apply Cd in H. now apply H. Qed.
Lemma cl_joined a b G : equivalent D G -> joined G a b <-> joined C a b.
Proof. intros HG. destruct HC as (_ & _ & Cj & _). rewrite Cj. symmetry. apply HG. Qed.
Lemma cl_kind a b : joined C a b -> directed C a b \/ directed C b a \/ undirected C a b.
Proof. apply HC. Qed.
Lemma cl_semi G a b : equivalent D G -> directed G a b -> semi_step C a b.
Proof.
  intros HG H. pose proof (directed_joined _ _ _ H) as J. apply (cl_joined a b G HG) in J. destruct (cl_kind a b J) as [K|[K|K]]; [now left| |now right].
  exfalso. apply (directed_asym G a b H). now apply (cl_dir b a K).
Qed.
Lemma cl_prop v a b : directed C v a -> undirected C a b -> directed C v b.
Proof. apply (completed_facts D C Hd HC). Qed.
Lemma cl_clique c : NoDup c -> (forall a, In a c -> (a < gn D)%nat) -> (forall a b, In a c -> In b c -> a <> b -> undirected C a b) ->
  exists D', equivalent D D' /\ forall a b, undirected C a b -> In a c -> (In b c -> (idx a c < idx b c)%nat) -> directed D' a b.
Proof. apply (completed_facts D C Hd HC). Qed.
Lemma cl_n : gn C = gn D. Proof. apply HC. Qed.
Lemma cl_wf : wf C. Proof. apply HC. Qed.
(** An unshielded collider of a member is compelled. *)
Lemma cl_ucoll G a b c : equivalent D G -> directed G a b -> directed G c b -> a <> c -> ~ joined C a c -> directed C a b.
Proof.
  intros HG Ha Hc N NJ. destruct HC as (_ & _ & Cj & _ & Cd & _). apply Cd.
  assert (JG : ~ joined G a c) by (rewrite (cl_joined a c G HG); exact NJ).
  assert (U : ucollider G a b c) by (apply dag_ucollider; [apply HG|auto]).
  split.
  - apply Cj. apply (cl_joined a b G HG). now apply directed_joined.
  - intros G' HG'. apply HG in U. apply HG' in U. apply dag_ucollider in U; [tauto|apply HG'].
Qed.
(** Neighbours of the same node that are joined are joined by an undirected edge. *)
Lemma cl_nb a b y : undirected C a y -> undirected C b y -> joined C a b -> undirected C a b.
Proof.
  intros Ha Hb J. destruct (cl_kind a b J) as [K|[K|K]]; [| |exact K]; exfalso.
  - apply (directed_undirected C a y); [|exact Ha]. now apply (cl_prop a b).
  - apply (directed_undirected C b y); [|exact Hb]. now apply (cl_prop b a).
Qed.
Lemma cl_cycle3 w u v : directed C w u -> directed C u v -> undirected C v w -> False.
Proof.
  intros H1 H2 H3. destruct HC as (_ & _ & _ & _ & _ & Cu). apply Cu in H3. destruct H3 as (_ & (G & HG & H) & _).
  apply (dag_no_cycle3 G w u v); [apply HG|now apply (cl_dir w u)|now apply (cl_dir u v)|exact H].
Qed.

(* ---------- Insert ---------- *)
Section Insert.
Variables (X Y : nat) (cl : list nat).
Hypothesis HX : (X < gn D)%nat.
Hypothesis HY : (Y < gn D)%nat.
Hypothesis NXY : X <> Y.
Hypothesis NJ : ~ joined C X Y.
Hypothesis Ncl : NoDup cl.
Hypothesis cl_nbY : forall t, In t cl -> undirected C t Y.
Hypothesis cl_NA : forall t, undirected C t Y -> joined C t X -> In t cl.
Hypothesis cl_cq : forall s t, In s cl -> In t cl -> s <> t -> joined C s t.
Hypothesis cl_path : ~ reach (fun u v => semi_step C u v /\ ~ In u cl) Y X.

Lemma insert_sound : exists G G', equivalent D G /\ adds G X Y G' /\
  (forall p, directed G p Y <-> directed C p Y \/ In p cl) /\
  (forall T P, (forall t, In t T <-> In t cl /\ ~ joined C t X) -> inserted C X Y T P -> extension P G').
Proof.
  assert (NY : ~ In Y cl).
  { intros H. apply cl_nbY in H. apply undirected_joined in H. revert H. apply wf_joined_irr, cl_wf. }
  destruct (cl_clique (cl ++ [Y])) as (G & HG & HO).
  - apply NoDup_app_intro; [exact Ncl|constructor; [easy|constructor]|]. intros x Hx [<-|[]]. contradiction.
  - intros a Ha. apply in_app_iff in Ha. destruct Ha as [Ha|[<-|[]]]; [|exact HY]. apply cl_nbY in Ha. rewrite <- cl_n. apply Ha.
  - intros a b Ha Hb N. apply in_app_iff in Ha, Hb. destruct Ha as [Ha|[<-|[]]], Hb as [Hb|[<-|[]]].
    + apply (cl_nb a b Y); auto.
    + auto.
    + apply undirected_sym. auto.
    + congruence.
  - assert (HGd : dag G) by apply HG.
    assert (Hpa : forall p, directed G p Y <-> directed C p Y \/ In p cl).
    { intros p. split.
      - intros H. destruct (cl_semi G p Y HG H) as [K|K]; [now left|]. right.
        destruct (in_dec Nat.eq_dec p cl) as [|N]; [assumption|]. exfalso.
        apply (directed_asym G p Y H). apply HO; [now apply undirected_sym|apply in_app_iff; right; now left|].
        intros Hp. apply in_app_iff in Hp. destruct Hp as [Hp|[->|[]]]; [contradiction|]. exfalso. revert H. apply dag_irr. exact HGd.
      - intros [H|H]; [now apply (cl_dir p Y)|]. apply HO; [auto|apply in_app_iff; now left|].
        intros _. rewrite !idx_app. pose proof H as H'. apply memb_In in H'. rewrite H'.
        apply memb_not_In in NY. rewrite NY. apply idx_in in H. lia. }
    destruct (adds_exists G X Y) as (G' & HA); auto.
    + rewrite (proj1 HG). exact HX.
    + rewrite (proj1 HG). exact HY.
    + now rewrite (cl_joined X Y G HG).
    + intros HR. apply cl_path.
      assert (Stop : forall u, reach (directed G) Y u -> ~ In u cl).
      { intros u Hu Hin. assert (Huy : directed G u Y) by (apply Hpa; now right).
        apply (proj1 (proj2 HGd) u). apply reach_split in Hu.
        assert (Hm : forall x y, directed G x y -> dedge G x y) by (intros; now apply dag_directed_dedge).
        exists Y. split; [auto|]. destruct Hu as [<-|Hu]; [constructor|]. apply (reach_mono (directed G)); [exact Hm|]. now apply reach1_reach. }
      assert (Gen : forall a b, reach (directed G) a b -> reach (directed G) Y a -> reach (fun u v => semi_step C u v /\ ~ In u cl) a b).
      { intros a b Hab. induction Hab as [|a b c Hab Hbc IH]; intros Ha; [constructor|].
        apply reach_step with b; [split; [now apply (cl_semi G)|now apply Stop]|]. apply IH. eapply reach_trans; [exact Ha|now apply reach_one]. }
      apply Gen; [exact HR|constructor].
    + exists G, G'. split; [exact HG|]. split; [exact HA|]. split; [exact Hpa|].
      intros T P HT (Pn & Pw & Pk & Pj & Pd).
      destruct HA as (An & Ad & _ & _ & _ & Ae).
      assert (PP : pdag P) by (split; auto).
      assert (JG' : forall a b, joined G' a b <-> joined P a b).
      { intros a b. rewrite (dag_joined G'), Pj by exact Ad. rewrite !Ae. rewrite <- (cl_joined a b G HG), (dag_joined G) by exact HGd. tauto. }
      split; [rewrite Pn, An, (proj1 HG); symmetry; apply cl_n|]. split; [exact Ad|]. split; [exact JG'|]. split.
      * intros a b H. apply Ae. apply Pd in H. destruct H as [H|[H|[H ->]]]; [left; now apply (cl_dir a b)|now right|].
        left. apply Hpa. right. now apply HT.
      * intros a b c H. apply dag_ucollider in H; [|exact Ad]. destruct H as (H1 & H2 & N & NJac). rewrite JG' in NJac.
        apply pdag_ucollider; [exact PP|].
        assert (W : forall u v, directed G' u b -> directed G' v b -> u <> v -> ~ joined P u v -> directed P u b).
        { intros u v Hu Hv Nuv Nj. apply Ae in Hu, Hv. apply Pd.
          assert (NjC : ~ joined C u v) by (intros J; apply Nj, Pj; now left).
          destruct Hu as [Hu|Hu]; [|tauto].
          destruct (Nat.eq_dec b Y) as [->|NbY].
          - apply Hpa in Hu. destruct Hu as [Hu|Hu]; [now left|]. right. right. split; [|reflexivity]. apply HT. split; [exact Hu|].
            intros JuX. destruct Hv as [Hv|[-> _]]; [|contradiction].
            apply Hpa in Hv. destruct Hv as [Hv|Hv].
            + apply NjC. apply wf_joined_sym; [apply cl_wf|]. apply directed_joined. apply (cl_prop v Y u); [exact Hv|]. apply undirected_sym. auto.
            + now apply NjC, cl_cq.
          - destruct Hv as [Hv|[_ ->]]; [|congruence]. left. apply (cl_ucoll G u b v); auto. }
        split; [apply (W a c); auto|]. split; [|auto]. apply (W c a); auto. intros J. apply NJac. apply wf_joined_sym; auto.
Qed.
End Insert.

(* ---------- Delete ---------- *)
Section Delete.
Variables (X Y : nat) (Hs c0 : list nat).
Hypothesis HXY : directed C X Y \/ undirected C X Y.
Hypothesis Nc0 : NoDup c0.
Hypothesis Hs_NA : forall h, In h Hs -> undirected C h Y /\ joined C h X.
Hypothesis c0_NA : forall t, In t c0 <-> undirected C t Y /\ joined C t X /\ ~ In t Hs.
Hypothesis c0_cq : forall s t, In s c0 -> In t c0 -> s <> t -> joined C s t.

Lemma delete_sound : exists G G', equivalent D G /\ drops G X Y G' /\
  (forall p, directed G p Y <-> directed C p Y \/ In p c0 \/ p = X) /\
  (forall P, deleted C X Y Hs P -> extension P G').
Proof.
  pose proof cl_wf as CW.
  assert (JXY : joined C X Y) by (destruct HXY as [H|H]; [now apply directed_joined|now apply undirected_joined]).
  assert (NXY : X <> Y) by (intros E; rewrite E in JXY; now apply wf_joined_irr in JXY).
  assert (NX0 : ~ In X c0) by (intros H; apply c0_NA in H; destruct H as (_ & H & _); now apply wf_joined_irr in H).
  assert (NY0 : ~ In Y c0) by (intros H; apply c0_NA in H; destruct H as (H & _); apply undirected_joined in H; now apply wf_joined_irr in H).
  assert (NXh : ~ In X Hs) by (intros H; apply Hs_NA in H; destruct H as (_ & H); now apply wf_joined_irr in H).
  assert (NYh : ~ In Y Hs) by (intros H; apply Hs_NA in H; destruct H as (H & _); apply undirected_joined in H; now apply wf_joined_irr in H).
  assert (Nh0 : forall h, In h Hs -> ~ In h c0) by (intros h H H'; apply c0_NA in H'; tauto).
  (* the clique that comes first *)
  assert (Hc : exists c, NoDup c /\ (forall a, In a c <-> In a c0 \/ a = Y \/ (a = X /\ undirected C X Y)) /\
     (forall a, In a c -> a <> Y -> (idx a c < idx Y c)%nat)).
  { destruct HXY as [H|H].
    - exists (c0 ++ [Y]). split; [|split].
      + apply NoDup_app_intro; [exact Nc0|constructor; [easy|constructor]|]. intros x Hx [<-|[]]. contradiction.
      + intros a. rewrite in_app_iff. cbn [In]. split; [intros [K|[K|[]]]; auto|]. intros [K|[K|[-> K]]]; auto.
        exfalso. now apply (directed_undirected C X Y).
      + intros a Ha N. rewrite !idx_app. apply in_app_iff in Ha. destruct Ha as [Ha|[->|[]]]; [|congruence].
        pose proof Ha as Ha'. apply memb_In in Ha'. rewrite Ha'. apply memb_not_In in NY0. rewrite NY0. apply idx_in in Ha. lia.
    - exists (c0 ++ [X; Y]). split; [|split].
      + apply NoDup_app_intro; [exact Nc0| |].
        * constructor; [intros [K|[]]; congruence|]. constructor; [easy|constructor].
        * intros x Hx [<-|[<-|[]]]; contradiction.
      + intros a. rewrite in_app_iff. cbn [In]. split; [intros [K|[K|[K|[]]]]; auto|]. intros [K|[K|[-> K]]]; auto.
      + intros a Ha N. rewrite !idx_app. apply memb_not_In in NY0. rewrite NY0. apply in_app_iff in Ha. destruct Ha as [Ha|[<-|[->|[]]]]; [| |congruence].
        * pose proof Ha as Ha'. apply memb_In in Ha'. rewrite Ha'. apply idx_in in Ha. lia.
        * apply memb_not_In in NX0. rewrite NX0. cbn [idx]. rewrite Nat.eqb_refl. destruct (Nat.eqb_spec Y X); [congruence|]. rewrite Nat.eqb_refl. lia. }
  destruct Hc as (c & Nc & Ic & Oc).
  assert (UX : forall a, In a c0 -> undirected C X Y -> undirected C a X).
  { intros a Ha Hu. apply c0_NA in Ha. destruct Ha as (Ha & Ja & _).
    destruct (cl_kind a X Ja) as [K|[K|K]]; [| |exact K]; exfalso.
    - apply (directed_undirected C a Y); [|exact Ha]. now apply (cl_prop a X).
    - apply (directed_undirected C X Y); [|exact Hu]. now apply (cl_prop X a). }
  destruct (cl_clique c) as (G & HG & HO); [exact Nc| | |].
  { intros a Ha. rewrite <- cl_n. apply Ic in Ha. destruct Ha as [Ha|[->|[-> _]]]; [apply c0_NA in Ha; apply Ha|apply JXY|apply JXY]. }
  { intros a b Ha Hb N. apply Ic in Ha, Hb. destruct Ha as [Ha|[->|[-> Ua]]], Hb as [Hb|[->|[-> Ub]]]; try congruence.
    - pose proof (proj1 (c0_NA a) Ha) as (Ha' & _). pose proof (proj1 (c0_NA b) Hb) as (Hb' & _). apply (cl_nb a b Y); auto.
    - apply c0_NA in Ha. tauto.
    - auto.
    - apply undirected_sym. apply c0_NA in Hb. tauto.
    - now apply undirected_sym.
    - apply undirected_sym. auto. }
  assert (HGd : dag G) by apply HG.
  assert (GXY : directed G X Y).
  { destruct HXY as [H|H]; [now apply (cl_dir X Y)|]. assert (InX : In X c) by (apply Ic; auto).
    apply HO; [exact H|exact InX|]. intros _. now apply Oc. }
  assert (InY : In Y c) by (apply Ic; auto).
  assert (Hpa : forall p, directed G p Y <-> directed C p Y \/ In p c0 \/ p = X).
  { intros p. split.
    - intros H. destruct (cl_semi G p Y HG H) as [K|K]; [now left|]. right.
      destruct (in_dec Nat.eq_dec p c) as [Hp|N].
      + apply Ic in Hp. destruct Hp as [Hp|[->|[-> _]]]; auto. exfalso. revert H. now apply dag_irr.
      + exfalso. apply (directed_asym G p Y H). apply HO; [now apply undirected_sym|exact InY|]. intros Hp. contradiction.
    - intros [H|[H| ->]]; [now apply (cl_dir p Y)| |exact GXY].
      assert (Hpc : In p c) by (apply Ic; auto). apply HO; [apply c0_NA in H; tauto|exact Hpc|].
      intros _. apply Oc; [exact Hpc|]. intros ->. contradiction. }
  assert (GYh : forall h, In h Hs -> directed G Y h).
  { intros h Hh. apply HO; [apply undirected_sym, Hs_NA, Hh|exact InY|]. intros Hc. exfalso. apply Ic in Hc.
    destruct Hc as [Hc|[->|[-> _]]]; [now apply (Nh0 h)|contradiction|contradiction]. }
  assert (GXh : forall h, In h Hs -> directed G X h).
  { intros h Hh. destruct (Hs_NA h Hh) as [Uh Jh]. destruct (cl_kind h X Jh) as [K|[K|K]]; [|now apply (cl_dir X h)|].
    - exfalso. destruct HXY as [H|H].
      + apply (dag_no_cycle3 G h X Y); [exact HGd|now apply (cl_dir h X)|exact GXY|now apply GYh].
      + apply (directed_undirected C h Y); [|exact Uh]. now apply (cl_prop h X).
    - destruct HXY as [H|H].
      + exfalso. apply (directed_undirected C X h); [|now apply undirected_sym]. apply (cl_prop X Y); [exact H|now apply undirected_sym].
      + apply HO; [now apply undirected_sym|apply Ic; auto|]. intros Hc. exfalso. apply Ic in Hc.
        destruct Hc as [Hc|[->|[-> _]]]; [now apply (Nh0 h)|contradiction|contradiction]. }
  destruct (drops_exists G X Y HGd GXY) as (G' & HD).
  exists G, G'. split; [exact HG|]. split; [exact HD|]. split; [exact Hpa|].
  intros P (Pn & Pw & Pk & Pj & Pd). destruct HD as (Dn & Dd & _ & De).
  assert (PP : pdag P) by (split; auto).
  assert (JG' : forall a b, joined G' a b <-> joined P a b).
  { intros a b. rewrite (dag_joined G'), Pj by exact Dd. rewrite !De. rewrite <- (cl_joined a b G HG), (dag_joined G) by exact HGd.
    split.
    - intros [[K1 K2]|[K1 K2]]; (split; [auto|]); (split; [try tauto|try tauto]); intros [-> ->];
      apply (directed_asym G X Y); auto.
    - intros [[K1|K1] [K2 K3]]; [left|right]; tauto. }
  split; [rewrite Pn, Dn, (proj1 HG); symmetry; apply cl_n|]. split; [exact Dd|]. split; [exact JG'|]. split.
  - intros a b H. apply De. apply Pd in H. destruct H as [[H N]|[[->| ->] H]].
    + split; [now apply (cl_dir a b)|exact N].
    + split; [now apply GXh|]. intros [_ ->]. contradiction.
    + split; [now apply GYh|]. intros [_ ->]. contradiction.
  - intros a b d H. apply dag_ucollider in H; [|exact Dd]. destruct H as (H1 & H2 & N & NJad). rewrite JG' in NJad.
    apply pdag_ucollider; [exact PP|].
    assert (W : forall u v, directed G' u b -> directed G' v b -> u <> v -> ~ joined P u v -> directed P u b).
    { intros u v Hu Hv Nuv Nj. apply De in Hu, Hv. destruct Hu as [Hu Nu], Hv as [Hv Nv]. apply Pd.
      destruct (joined_dec C u v) as [J|J].
      - assert (Hcase : (u = X /\ v = Y) \/ (u = Y /\ v = X)).
        { destruct (Nat.eq_dec u X), (Nat.eq_dec v Y), (Nat.eq_dec u Y), (Nat.eq_dec v X); auto; exfalso; apply Nj, Pj; (split; [exact J|]); tauto. }
        assert (Hb : directed G X b /\ directed G Y b) by (destruct Hcase as [[-> ->]|[-> ->]]; auto).
        destruct Hb as [HXb HYb].
        assert (Hpair : directed C X b /\ directed C Y b \/ In b Hs).
        { destruct (cl_semi G Y b HG HYb) as [K|K].
          - left. split; [|exact K]. destruct (cl_semi G X b HG HXb) as [K'|K']; [exact K'|]. exfalso.
            pose proof (cl_prop Y b X K (undirected_sym _ _ _ K')) as K2.
            destruct HXY as [K3|K3]; [now apply (directed_asym C X Y)|now apply (directed_undirected' C Y X)].
          - right. destruct (in_dec Nat.eq_dec b Hs) as [|Nb]; [assumption|]. exfalso.
            apply (directed_asym G Y b HYb). apply Hpa. right. left. apply c0_NA.
            split; [now apply undirected_sym|]. split; [|exact Nb].
            apply wf_joined_sym; [exact CW|]. apply (cl_joined X b G HG). now apply directed_joined. }
        destruct Hpair as [[K1 K2]|K].
        + left. split; [|exact Nu]. destruct Hcase as [[-> ->]|[-> ->]]; auto.
        + right. split; [tauto|exact K].
      - left. split; [|exact Nu]. now apply (cl_ucoll G u b v). }
    split; [apply (W a d); auto|]. split; [|auto]. apply (W d a); auto. intros J. apply NJad. apply wf_joined_sym; auto.
Qed.
End Delete.

(* ---------- every single-edge change of a member is one of the operators ---------- *)
Lemma insert_complete G G' X Y : equivalent D G -> adds G X Y G' ->
  ~ joined C X Y /\
  (forall t, undirected C t Y -> joined C t X -> directed G t Y) /\
  (forall s t, undirected C s Y -> directed G s Y -> undirected C t Y -> directed G t Y -> s <> t -> joined C s t) /\
  ~ reach (fun u v => semi_step C u v /\ ~ (undirected C u Y /\ directed G u Y)) Y X.
Proof.
  intros HG (An & Ad & HX & HY & NJ & Ae). pose proof cl_wf as CW.
  assert (HGd : dag G) by apply HG.
  assert (NJC : ~ joined C X Y) by (rewrite <- (cl_joined X Y G HG); exact NJ).
  assert (NXY : X <> Y). { intros E. subst. apply (dag_irr G' Y Ad). apply Ae. auto. }
  assert (Adir : forall a b, directed G a b -> directed G' a b) by (intros; apply Ae; auto).
  split; [exact NJC|]. split; [|split].
  - intros t Ut Jt. pose proof (undirected_joined _ _ _ Ut) as JtY. apply (cl_joined t Y G HG) in JtY. apply dag_joined in JtY; [|exact HGd].
    destruct JtY as [|HYt]; [assumption|]. exfalso. apply (cl_joined t X G HG) in Jt. apply dag_joined in Jt; [|exact HGd].
    destruct Jt as [HtX|HXt].
    + apply (dag_no_cycle3 G' t X Y); auto. apply Ae. auto.
    + apply (directed_undirected' C Y t); [|exact Ut]. apply (cl_ucoll G Y t X); auto. intros J. apply NJC. now apply wf_joined_sym.
  - intros s t Us Ds Ut Dt N. destruct (joined_dec C s t) as [|NJst]; [assumption|]. exfalso.
    apply (directed_undirected C s Y); [|exact Us]. now apply (cl_ucoll G s Y t).
  - intros HR.
    set (bad := fun u => undirected C u Y /\ directed G u Y) in *.
    assert (HRw : exists k, wkn (fun u v => semi_step C u v /\ ~ bad u) X k Y).
    { clear - HR. induction HR as [a|a b c Hs _ [k IH]]; [exists 0%nat; constructor|]. exists (S k). econstructor; eauto. }
    destruct HRw as [k Hk].
    assert (NbX : ~ bad X) by (intros [K _]; apply NJC; now apply undirected_joined).
    assert (NbW : forall k u, wkn (fun u v => semi_step C u v /\ ~ bad u) X k u -> ~ bad u).
    { intros k' u Hw. destruct Hw as [|? ? ? [_ K] _]; auto. }
    assert (Go : forall m pre u k, (length pre + 2 * k <= m)%nat -> gch G bad Y (u :: pre) ->
      wkn (fun u v => semi_step C u v /\ ~ bad u) X k u -> reach (directed G) Y X).
    { clear k Hk HR. induction m as [m IH] using lt_wf_ind. intros pre u k Hm Hg Hw.
      inversion Hw as [Eu|k' u0 v [Hs Hnb] Hw' Ek Eu]; subst.
      - eapply (gch_reach G bad); [exact Hg|reflexivity].
      - destruct (directed_dec G u v) as [Dv|Dv].
        + apply (IH (length (u :: pre) + 2 * k')%nat) with (pre := u :: pre) (u := v) (k := k'); [cbn [length]; lia|lia| |exact Hw'].
          constructor; auto. now apply (NbW k').
        + assert (Uv : undirected C u v) by (destruct Hs as [K|K]; [exfalso; apply Dv; now apply (cl_dir u v)|exact K]).
          assert (Dvu : directed G v u).
          { pose proof (undirected_joined _ _ _ Uv) as J. apply (cl_joined u v G HG) in J. apply dag_joined in J; [tauto|exact HGd]. }
          inversion Hg as [Ey|u' u0 l Hg' Hd' Hb']; subst.
          * exfalso. apply (NbW k' v Hw'). split; [now apply undirected_sym|exact Dvu].
          * destruct (Nat.eq_dec v u') as [->|Nv].
            -- apply (IH (length l + 2 * k')%nat) with (pre := l) (u := u') (k := k'); auto. cbn [length] in Hm. lia.
            -- assert (Jv : joined C u' v).
               { destruct (joined_dec C u' v) as [|NJv]; [assumption|]. exfalso.
                 apply (directed_undirected' C v u); [|exact Uv]. apply (cl_ucoll G v u u'); auto.
                 intros J. apply NJv. now apply wf_joined_sym. }
               assert (Sv : semi_step C u' v).
               { destruct (cl_kind u' v Jv) as [K|[K|K]]; [now left| |now right]. exfalso.
                 destruct (cl_semi G u' u HG Hd') as [K'|K'].
                 - now apply (cl_cycle3 v u' u).
                 - apply (directed_undirected' C v u); [|exact Uv]. now apply (cl_prop v u'). }
               apply (IH (length l + 2 * S k')%nat) with (pre := l) (u := u') (k := S k'); [cbn [length] in Hm; lia|lia|exact Hg'|].
               apply wkn_S with v; [|exact Hw']. split; [exact Sv|]. eapply gch_nb; eauto. }
    assert (HRG : reach (directed G) Y X).
    { apply (Go (2 * k)%nat [] Y k); [cbn [length]; lia| |exact Hk]. constructor. intros [K _]. apply undirected_joined in K. now apply wf_joined_irr in K. }
    apply (proj1 (proj2 Ad) X). exists Y. split; [apply dag_directed_dedge; [exact Ad|]; apply Ae; auto|].
    apply (reach_mono (directed G)); [|exact HRG]. intros a b H. apply dag_directed_dedge; auto.
Qed.

Lemma delete_complete G X Y : equivalent D G -> directed G X Y ->
  (directed C X Y \/ undirected C X Y) /\
  (forall p, undirected C p Y -> directed G p Y -> p <> X -> joined C p X) /\
  (forall s t, undirected C s Y -> directed G s Y -> undirected C t Y -> directed G t Y -> s <> t -> joined C s t).
Proof.
  intros HG HXY. pose proof cl_wf as CW.
  assert (U : forall s t, undirected C s Y -> directed G s Y -> directed G t Y -> s <> t -> joined C s t).
  { intros s t Us Ds Dt N. destruct (joined_dec C s t) as [|NJst]; [assumption|]. exfalso.
    apply (directed_undirected C s Y); [|exact Us]. now apply (cl_ucoll G s Y t). }
  split; [now apply (cl_semi G)|]. split.
  - intros p Up Dp N. now apply U.
  - intros s t Us Ds Ut Dt N. now apply U.
Qed.
End Class.
