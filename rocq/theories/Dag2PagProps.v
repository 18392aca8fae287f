(** Properties of dag2pag. *)
From Verif Require Import Base EdgeModel EdgeProofs GraphModel GraphSpec GraphProofs DsepSpec DsepProofs DsepTheory UtilsModel UtilsProofs RankLib CheckLib DconnLib
  SkelModel SkelProofs PCModel FCIModel FCISpec FCIProofs FCIRules FCILoops FCIFront FCISound FCITri FCIProps Dag2PagModel Dag2PagSpec Dag2PagProofs Dag2PagMain.
From Coq Require Import Permutation.
Local Open Scope nat_scope.

Definition enough (m : nat) : nat := 2 * m + m * m + 2.

(** ** C105: dag2pag returns, and its adjacencies are those of the ancestral graph *)
Theorem C105_dag2pag_adjacencies : forall D obs sel dsepd so fuel, roles D obs sel -> answers_dsep D dsepd -> (forall l, Permutation (so l) l) ->
  enough (length obs) <= fuel ->
  exists g, dag2pag dsepd obs sel so fuel = Ret g /\ mixed (length obs) g /\
    forall i j, i < length obs -> j < length obs -> i <> j -> (adj g i j <-> mag_adjacent D obs sel (nth i obs 0) (nth j obs 0)).
Proof.
  intros D obs sel dsepd so fuel HR HA HS HF. destruct (pag_run D obs sel HR dsepd HA so fuel HS HF) as (gc & g & E & M & EG & MG & W & _).
  destruct (colliders_run D obs sel HR dsepd HA) as (gc' & E' & _ & _ & AJ & _). rewrite E in E'. injection E' as <-.
  exists g. split; [exact EG|]. split; [exact MG|]. intros i j Hi Hj N. rewrite <- (AJ i j Hi Hj N).
  apply fills_weak in W. apply (W i j Hi Hj).
Qed.

(** ** C106: unshielded colliders *)
(** The marks before the orientation rules: an arrowhead at k exactly where k is the middle of an unshielded triple and no
    ancestor of its ends or of a selection variable; circles elsewhere. *)
Theorem C106_before_rules : forall D obs sel dsepd, roles D obs sel -> answers_dsep D dsepd ->
  exists gc, pag_colliders dsepd obs sel = Ret gc /\ mixed (length obs) gc /\
    (forall i j, i < length obs -> j < length obs -> i <> j -> (adj gc i j <-> mag_adjacent D obs sel (nth i obs 0) (nth j obs 0))) /\
    (forall i k, i < length obs -> k < length obs -> ~ tail_at gc i k) /\
    (forall i k, i < length obs -> k < length obs -> (arrow_at gc i k <-> adj gc i k /\ exists j, j < length obs /\ i <> j /\ ~ adj gc i j /\ adj gc j k /\
       ~ tail_in_mag D sel (nth k obs 0) (nth i obs 0) /\ ~ tail_in_mag D sel (nth k obs 0) (nth j obs 0))).
Proof.
  intros D obs sel dsepd HR HA. destruct (colliders_run D obs sel HR dsepd HA) as (gc & E & M & T & AJ & AR). exists gc. split; [exact E|]. split; [exact M|]. split; [exact AJ|]. split.
  - intros i k Hi Hk Q. unfold tail_at in Q. destruct (T k i Hk Hi) as [K|[K|K]]; rewrite K in Q; discriminate.
  - exact AR.
Qed.
(** The result has every arrowhead of an unshielded collider, and keeps the marks of that phase. *)
Theorem C106_colliders : forall D obs sel dsepd so fuel g i j k, roles D obs sel -> answers_dsep D dsepd -> (forall l, Permutation (so l) l) ->
  enough (length obs) <= fuel -> dag2pag dsepd obs sel so fuel = Ret g -> i < length obs -> j < length obs -> k < length obs -> i <> j ->
  adj g i k -> adj g j k -> ~ adj g i j ->
  ~ tail_in_mag D sel (nth k obs 0) (nth i obs 0) -> ~ tail_in_mag D sel (nth k obs 0) (nth j obs 0) -> arrow_at g i k /\ arrow_at g j k.
Proof.
  intros D obs sel dsepd so fuel g i j k HR HA HS HF EG Hi Hj Hk N J1 J2 J3 T1 T2. destruct (pag_run D obs sel HR dsepd HA so fuel HS HF) as (gc & g' & E & M & EG' & MG & W & _).
  rewrite EG in EG'. injection EG' as <-. destruct (colliders_run D obs sel HR dsepd HA) as (gc' & E' & _ & _ & AJ & AR). rewrite E in E'. injection E' as <-.
  pose proof (fills_weak _ _ _ W) as W'. pose proof (proj1 (proj1 (W' i k Hi Hk)) J1) as K1. pose proof (proj1 (proj1 (W' j k Hj Hk)) J2) as K2.
  assert (K3 : ~ adj gc i j) by (intros Q; apply J3; now apply (W' i j Hi Hj)).
  assert (K3' : ~ adj gc j i) by (intros Q; apply K3; unfold adj in *; intros Z0; apply Q; now apply (mx_zero (width obs) gc M)).
  split.
  - apply (fills_arrows_at (width obs) gc g i k W Hi Hk). apply (AR i k Hi Hk). split; [exact K1|]. exists j. unfold outside, name_of. auto 10.
  - apply (fills_arrows_at (width obs) gc g j k W Hj Hk). apply (AR j k Hj Hk). split; [exact K2|]. exists i. unfold outside, name_of. auto 10.
Qed.

(** ** C107: the result is closed under R1, R2, R6, R7, R9, and R8 with a before c *)
Theorem C107_closed : forall D obs sel dsepd so fuel g, roles D obs sel -> answers_dsep D dsepd -> (forall l, Permutation (so l) l) ->
  enough (length obs) <= fuel -> dag2pag dsepd obs sel so fuel = Ret g -> let n := length obs in
  closed_R1 n (fun x y => circle_at g x y \/ arrow_at g x y) g /\ closed_R2 n (fun _ _ => True) g /\ closed_R6 n g /\ closed_R7 n g /\ closed_R8 n lt g /\ closed_R9 n g.
Proof.
  intros D obs sel dsepd so fuel g HR HA HS HF EG n. destruct (pag_run D obs sel HR dsepd HA so fuel HS HF) as (gc & g' & E & M & EG' & MG & W & fuel' & HF' & HP).
  rewrite EG in EG'. injection EG' as <-. change (width obs) with n in *.
  assert (HP' : fci_pass (pag_test dsepd obs) Dag2PagModel.free so fuel' (-1) true true no_members g = Ret ((g, false), false)).
  { unfold pag_pass in HP. unfold fci_pass. destruct (rulesR1R2 Dag2PagModel.free (g, false)) as [s1| |]; cbn [obind] in *; try discriminate.
    destruct (ruleR3 Dag2PagModel.free no_members s1) as [s2| |]; cbn [obind] in *; try discriminate. cbn [andb negb]. rewrite orb_true_r.
    destruct (ruleR4B _ _ _ _ _ s2) as [s3| |]; cbn [obind] in *; try discriminate. destruct (ruleR5 _ s3) as [s4| |]; cbn [obind] in *; try discriminate.
    destruct (ruleR6 s4) as [s5| |]; cbn [obind] in *; try discriminate. destruct (ruleR7 s5) as [s6| |]; cbn [obind] in *; try discriminate.
    destruct (rule8 s6) as [s7| |]; cbn [obind] in *; try discriminate. destruct (rule9 _ _ s7) as [s8| |]; cbn [obind] in *; try discriminate. rewrite HP. reflexivity. }
  destruct (go_exhausted (pag_test dsepd obs) Dag2PagModel.free so no_members (-1) true n g HS MG) as (K1 & K2 & K6 & K7 & K8 & K9); [eauto 8|].
  assert (MP : forall x y, circle_at g x y \/ arrow_at g x y -> may_point Dag2PagModel.free g x y).
  { intros x y [C|A]; [right; split; [exact C|intros [[=] _]]|now left]. }
  split; [|split; [|split; [exact K6|split; [exact K7|split; [exact K8|exact K9]]]]].
  - intros a b c Ha Hb Hc N A C NA Q. apply (K1 a b c Ha Hb Hc N A C NA). now apply MP.
  - intros a b c Ha Hb Hc C A1 A2 T _. apply (K2 a b c Ha Hb Hc C A1 A2 T). apply MP. now left.
Qed.

(** ** C108: what is wrong in the result *)
Lemma dsep_answers D : dag D -> answers_dsep D (dsep_test D).
Proof. intros HD x y T Hx Hy N _ _ _. now apply dsep_test_spec. Qed.
Definition marks_of (o : outcome ggraph) (x y : nat) : Z * Z := match o with Ret g => (gm g x y, gm g y x) | _ => (0, 0)%Z end.
Lemma all_observed D : dag D -> roles D (seq 0 (gn D)) [].
Proof. intros HD. split; [exact HD|]. split; [apply seq_NoDup|]. split; [intros x; apply in_seq0|]. split; [intros x []|intros x _ []]. Qed.
(** R3 never applies, because the table of separating sets holds nodes and is asked for indices: with 0 -> 1, 0 -> 2, 0 -> 3, 1 -> 3 and
    2 -> 3 and all nodes observed, the edge 0 o-o 3 is left although R3 orients it. *)
Definition kite : ggraph := graph_of 4 [dir 0 1; dir 0 2; dir 0 3; dir 1 3; dir 2 3].
Lemma kite_dag : dag kite.
Proof. apply (dagb_sound (fun v => v)). reflexivity. Qed.
Theorem C108_R3_refuted : exists D obs sel dsepd so g, roles D obs sel /\ answers_dsep D dsepd /\ (forall l, Permutation (so l) l) /\
  dag2pag dsepd obs sel so (enough (length obs)) = Ret g /\ ~ closed_R3 (length obs) g.
Proof.
  pose (r := dag2pag (dsep_test kite) (seq 0 4) [] (fun l => l) (enough 4)).
  assert (K : marks_of r 1 3 = (2, 1)%Z /\ marks_of r 2 3 = (2, 1)%Z /\ marks_of r 1 2 = (0, 0)%Z /\ marks_of r 0 1 = (2, 2)%Z /\ marks_of r 0 2 = (2, 2)%Z /\ marks_of r 0 3 = (2, 2)%Z)
    by (vm_compute; repeat split).
  destruct r as [g| |] eqn:E; try (destruct K as (K & _); discriminate K). cbn [marks_of] in K. destruct K as ([= _ A1] & [= _ A2] & [= _ Z1] & [= C1 _] & [= C2 _] & [= _ C3]).
  exists kite, (seq 0 4), [], (dsep_test kite), (fun l => l), g. split; [apply (all_observed kite kite_dag)|]. split; [apply dsep_answers, kite_dag|]. split; [reflexivity|].
  split; [exact E|]. intros CL. apply (CL 1 3 2 0); cbn [length seq]; unfold arrow_at, circle_at, adj; try lia; assumption.
Qed.
(** R4 decides with a test that uses only the nodes of the path, and with the same table: with 3 -> 0, 1 -> 0, 0 -> 2, 1 -> 2, 4 -> 3 and 4 -> 2
    and all nodes observed, an arrowhead is put at 1 on the edge 1 - 2, although 1 is a parent of 2. *)
Definition r4_dag : ggraph := graph_of 5 [dir 3 0; dir 1 0; dir 0 2; dir 1 2; dir 4 3; dir 4 2].
Lemma r4_dag_dag : dag r4_dag.
Proof. apply (dagb_sound (fun v => match v with 4 => 0 | 3 => 1 | 1 => 0 | 0 => 2 | _ => 3 end)). reflexivity. Qed.
Theorem C108_R4_refuted : exists D obs sel dsepd so g, roles D obs sel /\ answers_dsep D dsepd /\ (forall l, Permutation (so l) l) /\
  dag2pag dsepd obs sel so (enough (length obs)) = Ret g /\ exists i k, i < length obs /\ k < length obs /\ arrow_at g i k /\ dedge D (nth k obs 0) (nth i obs 0).
Proof.
  pose (r := dag2pag (dsep_test r4_dag) (seq 0 5) [] (fun l => l) (enough 5)).
  assert (K : marks_of r 1 2 = (1, 1)%Z) by (vm_compute; reflexivity).
  destruct r as [g| |] eqn:E; try discriminate K. injection K as K _.
  exists r4_dag, (seq 0 5), [], (dsep_test r4_dag), (fun l => l), g. split; [apply (all_observed r4_dag r4_dag_dag)|]. split; [apply dsep_answers, r4_dag_dag|]. split; [reflexivity|].
  split; [exact E|]. exists 2, 1. split; [cbn; lia|]. split; [cbn; lia|]. split; [exact K|]. split; [cbn; lia|]. split; [cbn; lia|]. vm_compute. auto.
Qed.
(** A case for the hypotheses of C105-C107: a latent common cause and a selection variable. *)
Definition sel_dag : ggraph := graph_of 5 [dir 0 4; dir 1 4; dir 3 1; dir 3 2].
Lemma C105_example : roles sel_dag [2; 0; 1] [4] /\ answers_dsep sel_dag (dsep_test sel_dag) /\
  let r := dag2pag (dsep_test sel_dag) [2; 0; 1] [4] (fun l => l) (enough 3) in
  marks_of r 1 2 = (2, 2)%Z /\ marks_of r 0 2 = (2, 2)%Z /\ marks_of r 0 1 = (0, 0)%Z.
Proof.
  assert (HD : dag sel_dag) by (apply (dagb_sound (fun v => match v with 4 => 2 | 3 => 0 | 0 => 0 | _ => 1 end)); reflexivity).
  split; [|split; [now apply dsep_answers|vm_compute; repeat split]].
  split; [exact HD|]. split; [repeat (constructor; [cbn; lia|]); constructor|]. cbn. repeat split; intros; lia.
Qed.
(** An unshielded collider between latent-confounded observed nodes. *)
Definition coll_dag : ggraph := graph_of 4 [dir 0 2; dir 3 1; dir 3 2].
Lemma C106_example : roles coll_dag [0; 1; 2] [] /\ answers_dsep coll_dag (dsep_test coll_dag) /\
  let r := dag2pag (dsep_test coll_dag) [0; 1; 2] [] (fun l => l) (enough 3) in marks_of r 0 2 = (2, 1)%Z /\ marks_of r 1 2 = (2, 1)%Z.
Proof.
  assert (HD : dag coll_dag) by (apply (dagb_sound (fun v => match v with 2 => 1 | 1 => 1 | _ => 0 end)); reflexivity).
  split; [|split; [now apply dsep_answers|vm_compute; repeat split]].
  split; [exact HD|]. split; [repeat (constructor; [cbn; lia|]); constructor|]. cbn. repeat split; intros; lia.
Qed.
