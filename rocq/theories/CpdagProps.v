(** C16, C17, C51: completed graphs and Markov equivalence. *)
From Verif Require Import Base EdgeModel EdgeProofs GraphModel GraphSpec GraphProofs RankLib UtilsModel UtilsProofs
  DsepSpec DsepProofs MeekSpec MeekProofs PdagProofs CheckLib CpdagTheory CpdagModel CpdagSpec CpdagProofs CpdagMain.
Local Open Scope Z_scope.

(** C16: on every DAG dag2cpdag returns the completed graph: same adjacencies, directed exactly where all equivalent
    DAGs agree, undirected exactly where two of them disagree.  Each of the two main loops needs at most one
    iteration per node (fuel = number of nodes + 1). *)
Theorem C16_dag2cpdag_completed g fuel : dag g -> (gn g < fuel)%nat ->
  exists C, dag2cpdag fuel g = Ret C /\ completed g C.
Proof. apply dag2cpdag_correct. Qed.

Lemma equivalent_refl g : dag g -> equivalent g g.
Proof. intros H. split; [reflexivity|]. split; [exact H|]. split; [exact H|]. split; intros; reflexivity. Qed.
Lemma equivalent_sym g h : equivalent g h -> equivalent h g.
Proof.
  intros (H1 & H2 & H3 & H4 & H5). split; [now symmetry|]. split; [exact H3|]. split; [exact H2|].
  split; intros; symmetry; auto.
Qed.
Lemma equivalent_trans g h k : equivalent g h -> equivalent h k -> equivalent g k.
Proof.
  intros (H1 & H2 & H3 & H4 & H5) (K1 & K2 & K3 & K4 & K5). split; [congruence|]. split; [exact H2|]. split; [exact K3|].
  split; intros; [rewrite H4; apply K4|rewrite H5; apply K5].
Qed.

(** C16: in particular nothing is directed against the DAG, and every unshielded collider of the DAG is directed. *)
Theorem C16_agrees_with_dag g fuel C : dag g -> (gn g < fuel)%nat -> dag2cpdag fuel g = Ret C ->
  (forall a b, directed C a b -> directed g a b) /\
  (forall a b c, ucollider g a b c <-> ucollider C a b c).
Proof.
  intros Hd Hf E. destruct (dag2cpdag_correct g fuel Hd Hf) as (C' & E' & HC). rewrite E in E'. injection E' as <-.
  destruct HC as (Cn & Cw & Cj & Ck & Cd & Cu).
  assert (HD : forall a b, directed C a b -> directed g a b).
  { intros a b H. apply Cd in H. now apply H, equivalent_refl. }
  split; [exact HD|]. intros a b c. split.
  - intros H. pose proof H as (Ha & Hb & Hc & N & H1 & H2 & H3 & H4 & H5).
    assert (Hab : directed C a b).
    { apply Cd. split; [split; auto|]. intros D HE. apply HE in H. destruct H as (K1 & K2 & K3 & K4 & K5 & K6 & K7 & K8 & K9).
      destruct (proj2 (proj2 (proj1 (proj2 (proj2 HE)))) a b K1 K2 K7) as [[? ?]|[? ?]]; [|lia]. split; auto. }
    assert (Hcb : directed C c b).
    { apply Cd. split; [split; auto|]. intros D HE. apply HE in H. destruct H as (K1 & K2 & K3 & K4 & K5 & K6 & K7 & K8 & K9).
      destruct (proj2 (proj2 (proj1 (proj2 (proj2 HE)))) c b K3 K2 K8) as [[? ?]|[? ?]]; [|lia]. split; auto. }
    destruct Hab as (A1 & A2 & A3 & A4), Hcb as (B1 & B2 & B3 & B4).
    assert (gm C a c = 0).
    { destruct (Z.eq_dec (gm C a c) 0) as [|N']; [assumption|]. exfalso.
      assert (HJ : joined C a c) by (split; auto). apply Cj in HJ. destruct HJ as (_ & _ & HJ). contradiction. }
    repeat split; auto; lia.
  - intros (Ha & Hb & Hc & N & H1 & H2 & H3 & H4 & H5). rewrite Cn in *.
    assert (Dir : forall x, (x < gn g)%nat -> gm C b x = 1 -> directed C x b).
    { intros x Hx H. rewrite <- Cn in Hx, Hb.
      assert (HJ : joined C b x) by (split; [auto|split; [auto|lia]]).
      destruct (Ck _ _ HJ) as [(_ & _ & ? & _)|[?|(_ & _ & ? & _)]]; [lia|assumption|lia]. }
    pose proof (Dir a Ha H1) as Da. pose proof (Dir c Hc H2) as Dc. apply HD in Da. apply HD in Dc.
    destruct Da as (_ & _ & A3 & A4), Dc as (_ & _ & B3 & B4).
    assert (gm g a c = 0).
    { destruct (Z.eq_dec (gm g a c) 0) as [|N']; [assumption|]. exfalso.
      assert (HJ : joined g a c) by (split; auto). apply Cj in HJ. destruct HJ as (_ & _ & HJ). contradiction. }
    repeat split; auto; lia.
Qed.

Lemma completed_unique g1 g2 C1 C2 : equivalent g1 g2 -> completed g1 C1 -> completed g2 C2 ->
  forall a b, (a < gn g1)%nat -> (b < gn g1)%nat -> gm C1 a b = gm C2 a b.
Proof.
  intros HE (N1 & W1 & J1 & K1 & D1 & U1) (N2 & W2 & J2 & K2 & D2 & U2) a b Ha Hb.
  assert (HJ : forall x y, joined C1 x y <-> joined C2 x y) by (intros x y; rewrite J1, J2; apply HE).
  assert (HDir : forall x y, directed C1 x y <-> directed C2 x y).
  { intros x y. rewrite D1, D2. rewrite (proj1 (proj2 (proj2 (proj2 HE))) x y). split; intros [H1 H2]; (split; [exact H1|]); intros D HD; apply H2.
    - eapply equivalent_trans; eauto.
    - eapply equivalent_trans; [apply equivalent_sym; exact HE|exact HD]. }
  assert (HU : forall x y, undirected C1 x y -> undirected C2 x y).
  { intros x y. rewrite U1, U2. rewrite (proj1 (proj2 (proj2 (proj2 HE))) x y). intros (H1 & (E1 & A1 & B1) & (E2 & A2 & B2)).
    apply equivalent_sym in HE. split; [exact H1|]. split; [exists E1|exists E2]; (split; [eapply equivalent_trans; eauto|assumption]). }
  destruct (Z.eq_dec (gm C1 a b) 0) as [Z1|Z1].
  - destruct (Z.eq_dec (gm C2 a b) 0) as [Z2|Z2]; [congruence|]. exfalso.
    assert (H : joined C2 a b). { split; [|split; [|exact Z2]]; rewrite N2, (proj1 HE); assumption. }
    apply HJ in H. destruct H as (_ & _ & H). contradiction.
  - assert (H : joined C1 a b) by (split; [|split; [|exact Z1]]; rewrite N1; assumption).
    destruct (K1 _ _ H) as [H'|[H'|H']].
    + pose proof H' as (_ & _ & E1 & _). apply HDir in H'. destruct H' as (_ & _ & E2 & _). congruence.
    + pose proof H' as (_ & _ & _ & E1). apply HDir in H'. destruct H' as (_ & _ & _ & E2). congruence.
    + pose proof H' as (_ & _ & E1 & _). apply HU in H'. destruct H' as (_ & _ & E2 & _). congruence.
Qed.

(** C17: on two DAGs over the same list of nodes mec_check returns, and returns True exactly when they have the same
    adjacencies and the same unshielded colliders. *)
Theorem C17_mec_check_decides g1 g2 fuel : dag g1 -> dag g2 -> gn g1 = gn g2 -> (gn g1 < fuel)%nat ->
  exists r, mec_check fuel g1 g2 = Some r /\
    (r = true <-> (forall a b, joined g1 a b <-> joined g2 a b) /\ (forall a b c, ucollider g1 a b c <-> ucollider g2 a b c)).
Proof.
  intros Hd1 Hd2 Hn Hf. destruct (dag2cpdag_correct g1 fuel Hd1 Hf) as (C1 & E1 & HC1).
  destruct (dag2cpdag_correct g2 fuel Hd2) as (C2 & E2 & HC2); [lia|].
  unfold mec_check. rewrite E1, E2. eexists. split; [reflexivity|].
  assert (Hchk : forallb (fun i => forallb (fun j => gm C1 i j =? gm C2 i j) (seq 0 (gn C1))) (seq 0 (gn C1)) = true <->
    forall a b, (a < gn g1)%nat -> (b < gn g1)%nat -> gm C1 a b = gm C2 a b).
  { rewrite forallb_forall. rewrite (proj1 HC1). split.
    - intros H a b Ha Hb. specialize (H a (proj2 (in_seq0 _ _) Ha)). rewrite forallb_forall in H.
      apply Z.eqb_eq. apply H. now apply in_seq0.
    - intros H a Ha. apply forallb_forall. intros b Hb. apply Z.eqb_eq. apply H; now apply in_seq0. }
  rewrite Hchk. split.
  - intros Heq.
    assert (HJ : forall a b, joined C1 a b <-> joined C2 a b).
    { intros a b. unfold joined. rewrite (proj1 HC1), (proj1 HC2), <- Hn. split; intros (Ha & Hb & N); (split; [exact Ha|split; [exact Hb|]]).
      - now rewrite <- Heq.
      - now rewrite Heq. }
    split.
    + intros a b. destruct HC1 as (_ & _ & J1 & _), HC2 as (_ & _ & J2 & _). rewrite <- J1, <- J2. apply HJ.
    + intros a b c.
      rewrite (proj2 (C16_agrees_with_dag g1 fuel C1 Hd1 Hf E1)).
      rewrite (proj2 (C16_agrees_with_dag g2 fuel C2 Hd2 ltac:(lia) E2)).
      unfold ucollider. rewrite (proj1 HC1), (proj1 HC2), <- Hn.
      split; intros (Ha & Hb & Hc & H); rewrite ?Heq in * by auto; rewrite <- ?Heq in * by auto; auto 10.
  - intros [HJ HU] a b Ha Hb. apply (completed_unique g1 g2 C1 C2); auto. split; [now symmetry|]. auto.
Qed.

(** Concrete cases: 0 -> 1 -> 2, 3 -> 2 has one reversible edge and a collider that propagates nothing upwards. *)
Definition cp_ex : ggraph := graph_of 5 [dir 0 1; dir 1 2; dir 3 2; dir 2 4; dir 0 3].
Definition cp_ex2 : ggraph := graph_of 5 [dir 1 0; dir 1 2; dir 3 2; dir 2 4; dir 0 3].
Definition cp_ex3 : ggraph := graph_of 5 [dir 1 0; dir 1 2; dir 3 2; dir 2 4; dir 3 0].
Example C16_ex : dag cp_ex /\ (gn cp_ex < 6)%nat /\
  match dag2cpdag 6 cp_ex with
  | Ret C => ((gm C 0%nat 1%nat =? -1) && (gm C 1%nat 0%nat =? -1) && (gm C 1%nat 2%nat =? -1) && (gm C 2%nat 1%nat =? 1) &&
             (gm C 2%nat 4%nat =? -1) && (gm C 4%nat 2%nat =? 1) && (gm C 0%nat 3%nat =? -1) && (gm C 3%nat 0%nat =? -1))%bool
  | _ => false end = true.
Proof.
  split; [apply (dagb_sound (fun v => nth v [0; 1; 2; 1; 3]%nat 0%nat)); vm_compute; reflexivity|].
  split; [vm_compute; lia|]. vm_compute. reflexivity.
Qed.
Example C17_ex : dag cp_ex /\ dag cp_ex2 /\ dag cp_ex3 /\ mec_check 6 cp_ex cp_ex2 = Some true /\ mec_check 6 cp_ex cp_ex3 = Some false.
Proof.
  split; [apply (dagb_sound (fun v => nth v [0; 1; 2; 1; 3]%nat 0%nat)); vm_compute; reflexivity|].
  split; [apply (dagb_sound (fun v => nth v [1; 0; 3; 2; 4]%nat 0%nat)); vm_compute; reflexivity|].
  split; [apply (dagb_sound (fun v => nth v [1; 0; 3; 0; 4]%nat 0%nat)); vm_compute; reflexivity|].
  split; vm_compute; reflexivity.
Qed.

(** C51 is false: mec_check compares matrices position by position and never looks at the nodes.  The same DAG (nodes
    renamed back by [s]) with its nodes listed in another order is reported as not equivalent. *)
Theorem C51_mec_check_node_order_refuted :
  exists g h (s : nat -> nat), dag g /\ dag h /\ gn h = gn g /\
    (forall i, (i < gn g)%nat -> (s i < gn g)%nat /\ s (s i) = i) /\
    (forall i j, (i < gn g)%nat -> (j < gn g)%nat -> gm h (s i) (s j) = gm g i j) /\
    mec_check 4 g h = Some false.
Proof.
  exists (graph_of 3 [dir 0 1; dir 2 1]), (graph_of 3 [dir 1 0; dir 2 0]), (fun i => nth i [1; 0; 2]%nat 0%nat).
  split; [apply (dagb_sound (fun v => nth v [0; 1; 0]%nat 0%nat)); vm_compute; reflexivity|].
  split; [apply (dagb_sound (fun v => nth v [1; 0; 0]%nat 0%nat)); vm_compute; reflexivity|].
  split; [reflexivity|]. split.
  - intros i Hi. change (gn (graph_of 3 [dir 0 1; dir 2 1])) with 3%nat in *.
    destruct i as [|[|[|i]]]; cbn; lia.
  - split; [|vm_compute; reflexivity].
    assert (H : all2 3 (fun i j => gm (graph_of 3 [dir 1 0; dir 2 0]) (nth i [1; 0; 2]%nat 0%nat) (nth j [1; 0; 2]%nat 0%nat) =?
                 gm (graph_of 3 [dir 0 1; dir 2 1]) i j) = true) by (vm_compute; reflexivity).
    rewrite all2_spec in H. intros i j Hi Hj. apply Z.eqb_eq. now apply H.
Qed.

Print Assumptions C16_dag2cpdag_completed.
Print Assumptions C16_agrees_with_dag.
Print Assumptions C17_mec_check_decides.
Print Assumptions C51_mec_check_node_order_refuted.
