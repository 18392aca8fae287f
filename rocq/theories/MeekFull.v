(** Meek's rules applied to the pattern of a DAG, or to anything between the pattern and the completed graph, give the completed graph. *)
From Verif Require Import Base EdgeModel EdgeProofs GraphModel GraphSpec GraphProofs DpathProofs UtilsModel UtilsProofs KnowledgeModel
  DsepSpec DsepProofs MeekModel MeekSpec MeekProofs MeekProps PdagProofs CpdagSpec CpdagMain MeekComplete PCSpec.
Local Open Scope Z_scope.

Lemma directed_asym D : dag D -> forall a b, directed D a b -> ~ directed D b a.
Proof. intros _ a b (_ & _ & K1 & K2) (_ & _ & K3 & K4). lia. Qed.
Lemma ucollider_directed D : dag D -> forall a b c, ucollider D a b c -> directed D a b /\ directed D c b.
Proof.
  intros (_ & _ & Hd) a b c (Ha & Hb & Hc & _ & E1 & E2 & E3 & E4 & _).
  destruct (Hd b a Hb Ha ltac:(lia)) as [[K1 K2]|[K1 K2]]; [lia|].
  destruct (Hd b c Hb Hc ltac:(lia)) as [[K3 K4]|[K3 K4]]; [lia|].
  unfold directed. auto 10.
Qed.
Lemma directed_joined g a b : directed g a b -> joined g a b /\ joined g b a.
Proof. intros (Ha & Hb & E1 & E2). unfold joined. rewrite E1, E2. repeat split; auto; lia. Qed.
Lemma undirected_joined g a b : undirected g a b -> joined g a b /\ joined g b a.
Proof. intros (Ha & Hb & E1 & E2). unfold joined. rewrite E1, E2. repeat split; auto; lia. Qed.
Lemma dag_pd D : dag D -> partially_directed D.
Proof.
  intros (_ & _ & Hd) a b (Ha & Hb & N). unfold directed. destruct (Hd a b Ha Hb N) as [[]|[]]; [left|right; left]; auto.
Qed.
Lemma ucollider_intro g a b c : directed g a b -> directed g c b -> a <> c -> ~ joined g a c -> ucollider g a b c.
Proof.
  intros (Ha & Hb & K1 & K2) (Hc & _ & K3 & K4) N NJ. repeat split; auto; try lia.
  destruct (Z.eq_dec (gm g a c) 0) as [|NZ]; [assumption|]. exfalso. apply NJ. repeat split; auto.
Qed.

(** The colliders of D are in place, and every directed edge is in all members of a class of DAGs equivalent to D. *)
Definition midc (cls : ggraph -> Prop) (D g : ggraph) : Prop :=
  gn g = gn D /\ (forall a b, joined g a b <-> joined D a b) /\ partially_directed g /\
  (forall a b c, ucollider D a b c -> directed g a b) /\
  (forall a b, directed g a b -> forall D', cls D' -> directed D' a b).
(** Between the pattern and the completed graph. *)
Definition midway (D g : ggraph) : Prop := midc (equivalent D) D g.

Lemma equivalent_refl D : dag D -> equivalent D D.
Proof. intros H. unfold equivalent. intuition. Qed.
Lemma pattern_midway D g : pattern D g -> midway D g.
Proof.
  intros (Hn & Hj & Hd & Hp). split; [exact Hn|]. split; [exact Hj|]. split; [exact Hp|]. split.
  - intros a b c H. apply Hd. eauto.
  - intros a b H D' HE. apply Hd in H. destruct H as (c & H). destruct HE as (_ & _ & HD' & _ & Hu). apply Hu in H.
    now apply ucollider_directed in H.
Qed.
Lemma midc_extension (cls : ggraph -> Prop) D g D' : (cls D' -> equivalent D D') -> midc cls D g -> cls D' -> extension g D'.
Proof.
  intros Hcls (Hn & Hj & Hp & Hv & Hs) HC. pose proof (Hcls HC) as HE. pose proof HE as (En & _ & HD' & Ej & Eu).
  split; [congruence|]. split; [exact HD'|]. split; [intros a b; rewrite <- Ej; symmetry; apply Hj|]. split; [intros a b K; now apply Hs|].
  intros a b c Hc. apply Eu in Hc. pose proof Hc as (Ha & Hb & Hcb & N & E1 & E2 & E3 & E4 & E5).
  apply ucollider_intro; [eapply Hv; eauto| |exact N|].
  - apply (Hv c b a). repeat split; auto. destruct HE as (_ & HD & _).
    destruct (Z.eq_dec (gm D c a) 0) as [|NZ]; [assumption|]. destruct HD as (_ & _ & Hd). specialize (Hd c a Hcb Ha NZ). lia.
  - rewrite Hj. intros (_ & _ & K). contradiction.
Qed.

(** A relation inside D that contains its unshielded colliders and is closed under the three rules. *)
Definition rule_closed (D : ggraph) (M : nat -> nat -> Prop) : Prop :=
  (forall a b, M a b \/ ~ M a b) /\ (forall a b, M a b -> directed D a b) /\
  (forall a b c, ucollider D a b c -> M a b) /\
  (forall v u y, M v u -> directed D u y -> v <> y -> ~ joined D v y -> M u y) /\
  (forall a j b, M a j -> M j b -> directed D a b -> M a b) /\
  (forall a j k b, joined D a j -> joined D a k -> ~ M a j -> ~ M j a -> ~ M a k -> ~ M k a -> M j b -> M k b ->
       directed D a b -> j <> k -> ~ joined D j k -> M a b).
Lemma closed_contains D : dag D -> exists C, completed D C /\ forall M, rule_closed D M -> forall a b, directed C a b -> M a b.
Proof.
  intros HD. destruct (completed_closure D HD) as (C & HC & H). exists C. split; [exact HC|]. intros M (M0 & M1 & M2 & M3 & M4 & M5). now apply H.
Qed.
Lemma midc_meek rx nm (cls : ggraph -> Prop) D g fuel g' : (forall D', cls D' -> equivalent D D') -> cls D -> midc cls D g -> wf g -> simple g -> gsound g ->
  meek fuel rx nm None g = Some g' ->
  gn g' = gn D /\ wf g' /\ (forall a b, joined g' a b <-> joined D a b) /\ partially_directed g' /\
  (forall a b, directed g a b -> directed g' a b) /\
  (forall a b, directed g' a b -> forall D', cls D' -> directed D' a b) /\ rule_closed D (directed g').
Proof.
  intros Hcls HcD HM Hw Hs Hg E. pose proof HM as (Hn & Hj & Hp & Hv & Hcomp).
  pose proof (proj1 (proj2 (Hcls D HcD))) as HD.
  destruct (C20_meek_edges rx nm None g fuel g' Hw E) as (En & Ej & Ed & Es & Eback).
  assert (Hw' : wf g').
  { unfold meek, meek_with in E. destruct (loop_inv (bk_block rx nm None) g (fun _ => True) fuel g g') as (K & _); auto using orients_refl. }
  assert (Ho : only_orients g g').
  { unfold meek, meek_with in E. destruct (loop_inv (bk_block rx nm None) g (fun _ => True) fuel g g') as (_ & K & _); auto using orients_refl. }
  assert (HX : extension g D) by (apply (midc_extension cls D); auto).
  assert (Hsound : forall a b, directed g' a b -> forall D', cls D' -> directed D' a b).
  { intros a b Hab D' HE. exact (proj1 (C21_meek_sound rx nm None g fuel g' D' Hw E (midc_extension cls D g D' (Hcls D') HM HE)) a b Hab). }
  assert (HsD : forall a b, directed g' a b -> directed D a b) by (intros; apply (Hsound a b); auto).
  assert (Hclosed := meek_closed rx nm g fuel g' D Hw Hs Hg E HX).
  assert (HjD : forall a b, joined g' a b <-> joined D a b) by (intros; now rewrite Ej).
  assert (Hpd : forall a b, joined g' a b -> directed g' a b \/ directed g' b a \/ undirected g' a b).
  { intros a b J. apply Ej in J. pose proof J as (Ha & Hb & _). destruct (proj2 Ho a b Ha Hb) as [[K1 K2]|[_ [K|K]]]; [|auto|auto].
    unfold directed, undirected in *. rewrite K1, K2, En. apply (Hp a b J). }
  assert (Hund : forall a b, directed D a b -> directed g' a b \/ undirected g' a b).
  { intros a b Hab. destruct (Hpd a b) as [K|[K|K]]; auto.
    - apply HjD. exact (proj1 (directed_joined _ _ _ Hab)).
    - exfalso. apply HsD in K. exact (directed_asym D HD _ _ Hab K). }
  split; [congruence|]. split; [exact Hw'|]. split; [exact HjD|]. split; [exact Hpd|]. split; [exact Ed|]. split; [exact Hsound|].
    repeat apply conj.
    - intros a b. unfold directed.
      destruct (lt_dec a (gn g')), (lt_dec b (gn g')), (Z.eq_dec (gm g' a b) (-1)), (Z.eq_dec (gm g' b a) 1); tauto.
    - exact HsD.
    - intros a b c H. apply Ed. eauto.
    - intros v u y K1 K2 N NJ. destruct (Hund u y K2) as [|U]; [assumption|exfalso].
      apply (Hclosed u y). apply (calls1 g' v); auto. destruct (Z.eq_dec (gm g' v y) 0); [assumption|].
      exfalso. apply NJ, HjD. split; [apply K1|]. split; [apply U|assumption].
    - intros a j b K1 K2 K3. destruct (Hund a b K3) as [|U]; [assumption|exfalso]. apply (Hclosed a b). now apply (calls2 g' a j).
    - intros a j k b J1 J2 N1 N2 N3 N4 K1 K2 K3 N NJ. destruct (Hund a b K3) as [|U]; [assumption|exfalso].
      apply (Hclosed a b). apply HjD in J1, J2.
      assert (U1 : undirected g' a j) by (destruct (Hpd _ _ J1) as [?|[?|?]]; [contradiction|contradiction|assumption]).
      assert (U2 : undirected g' a k) by (destruct (Hpd _ _ J2) as [?|[?|?]]; [contradiction|contradiction|assumption]).
      apply (calls3 g' a j k b); auto. destruct (Z.eq_dec (gm g' j k) 0); [assumption|].
      exfalso. apply NJ, HjD. split; [apply K1|]. split; [apply K2|assumption].
Qed.
Lemma midway_completes rx nm D g fuel g' : dag D -> midway D g -> wf g -> simple g -> gsound g ->
  meek fuel rx nm None g = Some g' -> completed D g'.
Proof.
  intros HD HM Hw Hs Hg E.
  destruct (midc_meek rx nm (equivalent D) D g fuel g') as (En & Hw' & HjD & Hpd & _ & Hsound & HR); auto using equivalent_refl.
  destruct (closed_contains D HD) as (C & HC & Hclo). specialize (Hclo _ HR). rename Hclo into HCg.
  destruct HC as (Cn & Cw & Cj & Cp & Cd & Cu).
  split; [congruence|]. split; [exact Hw'|]. split; [exact HjD|]. split; [exact Hpd|]. split.
  - intros a b. split.
    + intros K. split; [apply HjD; exact (proj1 (directed_joined _ _ _ K))|]. now apply Hsound.
    + intros K. apply HCg, Cd. exact K.
  - intros a b. split.
    + intros K. pose proof (undirected_joined _ _ _ K) as [J _]. apply HjD in J. split; [exact J|].
      assert (U : undirected C a b).
      { apply Cj in J. destruct (Cp a b J) as [F|[F|F]]; [| |exact F]; apply HCg in F; destruct F as (_ & _ & F1 & F2), K as (_ & _ & G1 & G2); lia. }
      now apply Cu in U.
    + intros (J & (D1 & X1 & Y1) & (D2 & X2 & Y2)). apply HjD in J. destruct (Hpd a b J) as [K|[K|K]]; [| |exact K]; exfalso.
      * apply (directed_asym D2 ltac:(apply X2) a b); auto.
      * apply (directed_asym D1 ltac:(apply X1) a b); auto.
Qed.
