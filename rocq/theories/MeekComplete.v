(** Completeness of the orientation rules on patterns: a relation that contains the unshielded colliders of a DAG and is
    closed under the three rules contains every compelled edge. *)
From Verif Require Import Base EdgeModel EdgeProofs GraphModel GraphSpec GraphProofs RankLib UtilsModel UtilsProofs
  DsepSpec DsepProofs MeekSpec MeekProofs PdagProofs CpdagTheory CpdagModel CpdagSpec CpdagProofs CpdagMain.
Local Open Scope Z_scope.

Section Closure.
Variable E : nat -> nat -> Prop.
Variable r : nat -> nat.
Variable L : nat -> nat -> Prop.
Hypothesis E_dec : forall a b, E a b \/ ~ E a b.
Hypothesis r_E : forall a b, E a b -> (r a < r b)%nat.
Hypothesis L_E : forall a b, L a b -> E a b.
Hypothesis L_dec : forall a b, L a b \/ ~ L a b.
Hypothesis latest_ex : forall w y, E w y -> exists x, latest E r x y.
Hypothesis cond_dec : forall x y, latest E r x y -> (condA E L x y \/ condC E x y) \/ ~ (condA E L x y \/ condC E x y).
Hypothesis L_all : forall x y, latest E r x y -> condA E L x y \/ condC E x y -> forall w, E w y -> L w y.
Hypothesis L_copy : forall x y, latest E r x y -> ~ (condA E L x y \/ condC E x y) -> forall w, E w y -> (L w y <-> L w x).
Variable M : nat -> nat -> Prop.
Hypothesis M_dec : forall a b, M a b \/ ~ M a b.
Hypothesis M_E : forall a b, M a b -> E a b.
Hypothesis M_v : forall a b c, E a b -> E c b -> a <> c -> ~ adj E a c -> M a b.
Hypothesis M_1 : forall v u y, M v u -> E u y -> v <> y -> ~ adj E v y -> M u y.
Hypothesis M_2 : forall a j b, M a j -> M j b -> E a b -> M a b.
Hypothesis M_3 : forall a j k b, adj E a j -> adj E a k -> ~ M a j -> ~ M j a -> ~ M a k -> ~ M k a -> M j b -> M k b ->
  E a b -> j <> k -> ~ adj E j k -> M a b.

Lemma labelled_in_closure : forall n y, (r y < n)%nat -> forall w, L w y -> M w y.
Proof.
  induction n as [|n IH]; intros y Hn w Hw; [lia|].
  destruct (has_witness E r L E_dec r_E L_E latest_ex cond_dec L_all L_copy (S (r y)) y) as (u & Huy & Hoth & Hcase); [lia|eauto|].
  assert (V : forall a c, L a y -> L c y -> a <> c -> ~ adj E a c -> M a y).
  { intros a c Ha Hc N NA. apply (M_v a y c); auto. }
  pose proof (adj_sym E) as AS. pose proof (adj_dec E E_dec) as AD.
  destruct Hcase as [(z & Hz & Nz & Az)|(v & Hv & Nv)].
  - assert (Eu : M u y) by (apply (V u z); auto).
    assert (Ez : M z y) by (apply (V z u); auto).
    destruct (Nat.eq_dec w u) as [->|Nu]; [exact Eu|].
    destruct (Nat.eq_dec w z) as [->|Nwz]; [exact Ez|].
    destruct (AD w u) as [Au|Au]; [|apply (V w u); auto].
    destruct (AD w z) as [Awz|Awz]; [|apply (V w z); auto].
    destruct (Hoth w Hw Nu) as [?|Ewu]; [contradiction|].
    destruct (M_dec w u) as [K1|K1]; [apply (M_2 w u y); auto|].
    destruct (M_dec w z) as [K2|K2]; [apply (M_2 w z y); auto|].
    destruct (M_dec z w) as [K3|K3].
    { exfalso. apply K1. apply (M_1 z w u); auto. }
    assert (K4 : ~ M u w) by (intros K4; apply M_E in K4; apply (E_asym E r r_E _ _ K4 Ewu)).
    apply (M_3 w u z y); auto.
  - assert (Rvu : (r v < r u)%nat) by (apply r_E, L_E, Hv).
    assert (Ruy : (r u < r y)%nat) by (apply r_E, L_E, Huy).
    assert (Mvu : M v u) by (apply (IH u); auto; lia).
    assert (Avy : ~ adj E v y) by (intros [H|H]; [auto|apply r_E in H; lia]).
    assert (Nvy : v <> y) by (intros ->; lia).
    assert (Muy : M u y) by (apply (M_1 v u y); auto).
    destruct (Nat.eq_dec w u) as [->|Nu]; [exact Muy|].
    destruct (AD w u) as [Au|Au]; [|apply (V w u); auto].
    destruct (Hoth w Hw Nu) as [?|Ewu]; [contradiction|].
    destruct (L_dec w u) as [Lwu|Lwu].
    + apply (M_2 w u y); auto. apply (IH u); auto; lia.
    + assert (Rwu : (r w < r u)%nat) by (apply r_E, Ewu).
      assert (Lvw : L v w).
      { apply (unlabelled_same E r L E_dec r_E L_E latest_ex cond_dec L_all L_copy (S (r u)) u w); auto. }
      apply (M_1 v w y); auto. apply (IH w); auto; lia.
Qed.
End Closure.

(** The completed graph of a DAG lies inside every such relation. *)
Lemma completed_closure D : dag D -> exists C, completed D C /\
  forall M : nat -> nat -> Prop,
    (forall a b, M a b \/ ~ M a b) -> (forall a b, M a b -> directed D a b) ->
    (forall a b c, ucollider D a b c -> M a b) ->
    (forall v u y, M v u -> directed D u y -> v <> y -> ~ joined D v y -> M u y) ->
    (forall a j b, M a j -> M j b -> directed D a b -> M a b) ->
    (forall a j k b, joined D a j -> joined D a k -> ~ M a j -> ~ M j a -> ~ M a k -> ~ M k a -> M j b -> M k b ->
       directed D a b -> j <> k -> ~ joined D j k -> M a b) ->
    forall a b, directed C a b -> M a b.
Proof.
  intros Hd. set (fuel := S (gn D)).
  destruct (causal_order_correct D (fun _ => false) fuel) as (order & E & H1 & H2 & H3);
    [apply Hd|now apply dag_simple|apply Hd|unfold fuel; lia|].
  assert (Hall : forall v, In v order <-> (v < gn D)%nat) by (intros v; rewrite H2; tauto).
  assert (Htop : forall l1 v l2, order = l1 ++ v :: l2 -> forall p, dedge D p v -> In p l1) by (intros; eapply H3; eauto).
  assert (Hlen : (length order <= fuel)%nat).
  { apply Nat.le_trans with (length (seq 0 (gn D))).
    - apply NoDup_incl_length; [exact H1|]. intros v Hv. apply in_seq0. now apply Hall.
    - rewrite seq_length. unfold fuel. lia. }
  destruct (labels D order Hd H1 Hall Htop fuel Hlen) as (st & El & Hfst & Hsg & Hlab).
  pose proof (build_completed D order st Hd H1 Hall Htop Hfst Hsg Hlab) as HC.
  exists (cp_build (gn D) st). split; [exact HC|].
  intros M Mdec ME Mv M1 M2 M3 a b Hab.
  assert (HL : Lb st a b).
  { pose proof (proj1 (proj2 (proj2 (proj2 (proj2 HC)))) a b) as [HJ _]. destruct (HJ Hab) as [J All].
    destruct (L_dec st a b) as [|N]; [assumption|]. exfalso.
    assert (Dab : directed D a b).
    { apply All. split; [reflexivity|]. split; [exact Hd|]. split; [exact Hd|]. split; intros; reflexivity. }
    destruct (turnable D order st Hd H1 Hall Htop Hfst Hsg Hlab b a) as (D' & E1 & E2).
    - right. auto.
    - apply (dag_no_cycle2 D' a b); [apply E1|now apply All|exact E2]. }
  pose proof (adj_joined D Hd) as AJ.
  apply (labelled_in_closure (dE D) (rk order) (Lb st)) with (n := S (rk order b)); auto.
  - apply (E_dec D order); auto.
  - apply (r_E D order); auto.
  - intros x y. apply (L_E D order st); auto.
  - apply L_dec.
  - intros x y. apply (lat_ex D order); auto.
  - intros x y. apply (cnd_dec D order st); auto.
  - intros x y. apply (CpdagMain.L_all D order st); auto.
  - intros x y. apply (CpdagMain.L_copy D order st); auto.
  - intros x y z Hx Hz N NA. apply (Mv x y z). destruct Hx as (X1 & X2 & X3 & X4), Hz as (Z1 & Z2 & Z3 & Z4).
    repeat split; auto; try lia. destruct (Z.eq_dec (gm D x z) 0); [assumption|]. exfalso. apply NA, AJ. split; auto.
  - intros v u y K1 K2 K3 K4. apply (M1 v u y); auto. now rewrite <- AJ.
  - intros x j k y. rewrite !AJ. intros. apply (M3 x j k y); auto.
Qed.
