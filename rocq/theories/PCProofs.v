(** The orientation phase of PC on the true skeleton with correct information about colliders. *)
From Verif Require Import Base EdgeModel EdgeProofs GraphModel GraphSpec GraphProofs DpathProofs UtilsModel UtilsProofs NamedModel KnowledgeModel
  DsepSpec DsepProofs DsepTheory MeekModel MeekSpec MeekProofs CpdagSpec SkelModel SkelSpec SkelProofs SkelMain SkelSep SkelProps PCModel PCSpec MeekFull PCGraph.
Local Open Scope Z_scope.

(** ** dictionaries *)
Lemma tkey_eqb_iff t u : tkey_eqb t u = true <-> t = u.
Proof.
  destruct t as [[a b] c], u as [[a' b'] c']. unfold tkey_eqb, t1, t2, t3. cbn [fst snd].
  rewrite !andb_true_iff, !Nat.eqb_eq. split; [intros [[-> ->] ->]; reflexivity|intros [= -> -> ->]; auto].
Qed.
Lemma tput_keys d k v t : In t (map fst (tput d k v)) <-> t = k \/ In t (map fst d).
Proof.
  induction d as [|[k' v'] d IH]; cbn [tput map In fst].
  - split; [intros [<-|[]]; auto|intros [<-|[]]; auto].
  - destruct (tkey_eqb k' k) eqn:E; cbn [map In fst].
    + apply tkey_eqb_iff in E. subst k'. split; [auto|]. intros [->|H]; auto.
    + rewrite IH. split; intros [H|[H|H]]; subst; auto.
Qed.
Lemma tins_in desc x l y : In y (tins desc x l) <-> y = x \/ In y l.
Proof.
  induction l as [|z l IH]; cbn [tins In].
  - split; [intros [<-|[]]; auto|intros [<-|[]]; auto].
  - destruct (if desc then _ else _); cbn [In]; [split; intros [H|H]; auto|]. rewrite IH. split; intros [H|[H|H]]; subst; auto.
Qed.
Lemma sort_dict_in desc d t : In t (map fst (sort_dict desc d)) <-> In t (map fst d).
Proof.
  assert (H : forall y, In y (sort_dict desc d) <-> In y d).
  { induction d as [|x d IH]; intros y; [reflexivity|]. cbn [sort_dict fold_right]. fold (sort_dict desc d). rewrite tins_in, IH. cbn [In].
    split; intros [K|K]; auto. }
  rewrite !in_map_iff. split; intros (y & K1 & K2); exists y; (split; [exact K1|]); now apply H.
Qed.

(** ** The triples inspected *)
Lemma in_ordered g x y z : wf g -> partially_directed g -> In (x, y, z) (ordered_triples g) <-> unshielded g x y z /\ (x < z)%nat.
Proof.
  intros Hw Hp. unfold ordered_triples. rewrite filter_In, in_ut, !in_adj. unfold t1, t3. cbn [fst snd]. rewrite Nat.ltb_lt. unfold unshielded.
  assert (A : forall a b, (a < gn g)%nat /\ (b < gn g)%nat /\ (gm g b a = -1 \/ gm g b a = 1) <-> joined g a b).
  { intros a b. split.
    - intros (Ha & Hb & H). pose proof (proj2 Hw a b Ha Hb) as HL. split; [exact Ha|]. split; [exact Hb|].
      intros E. rewrite E in HL. pair_cases HL; lia.
    - intros J. destruct (Hp a b J) as [(? & ? & ? & ?)|[(? & ? & ? & ?)|(? & ? & ? & ?)]]; auto. }
  rewrite !A. assert (S : forall a b, joined g a b -> joined g b a).
  { intros a b J. destruct (Hp a b J) as [K|[K|K]]; [apply directed_joined in K|apply directed_joined in K|apply undirected_joined in K]; tauto. }
  split.
  - intros ((J1 & J2 & N & E) & L). split; [|exact L]. split; [exact J1|]. split; [now apply S|]. split; [exact N|]. intros (_ & _ & K). contradiction.
  - intros ((J1 & J2 & N & NJ) & L). split; [|exact L]. split; [exact J1|]. split; [now apply S|]. split; [exact N|].
    destruct (Z.eq_dec (gm g x z) 0); [assumption|]. exfalso. apply NJ. split; [apply J1|]. split; [apply J2|assumption].
Qed.

Section Oracle.
Variable n : nat.
Variable D : ggraph.
Hypothesis Dn : gn D = n.
Hypothesis HD : dag D.
(** The DAGs that remain possible. *)
Variable cls : ggraph -> Prop.
Hypothesis cls_D : cls D.
Hypothesis cls_eq : forall D', cls D' -> equivalent D D'.

Definition Inv (g : ggraph) : Prop :=
  built n g /\ (forall a b, joined g a b <-> joined D a b) /\ partially_directed g /\
  (forall a b, directed g a b -> forall D', cls D' -> directed D' a b).
Lemma ucol_cls a b c : ucollider D a b c -> forall D', cls D' -> directed D' a b.
Proof. intros H D' HC. apply cls_eq in HC. destruct HC as (_ & _ & HD' & _ & Hu). apply Hu in H. now apply ucollider_directed in H. Qed.
Lemma Inv_gn g : Inv g -> gn g = n.
Proof. intros (HB & _). now destruct (built_inv n g HB). Qed.
Lemma ucollider_sym x y z : ucollider D x y z -> ucollider D z y x.
Proof.
  intros (Ha & Hb & Hcb & N & E1 & E2 & E3 & E4 & E5). repeat split; auto.
  destruct (Z.eq_dec (gm D z x) 0) as [|NZ]; [assumption|]. pose proof HD as (_ & _ & Hd). specialize (Hd z x Hcb Ha NZ). lia.
Qed.
Lemma ucollider_unshielded x y z : ucollider D x y z -> unshielded D x y z.
Proof. intros (Ha & Hb & Hc & N & E1 & E2 & E3 & E4 & E5). repeat split; auto. intros (_ & _ & K). contradiction. Qed.
Lemma joinedD_neq x y : joined D x y -> x <> y.
Proof. intros (Hx & _ & N) ->. apply N. now apply (proj1 (proj1 HD)). Qed.

(** The two edges of a collider of D are undirected or point into it. *)
Lemma Inv_side g x y z : Inv g -> ucollider D x y z -> undirected g x y \/ directed g x y.
Proof.
  intros (HB & Hj & Hp & Hd) Hc. destruct (ucollider_directed D HD x y z Hc) as [H1 _].
  destruct (Hp x y) as [K|[K|K]]; auto.
  - apply Hj. exact (proj1 (directed_joined _ _ _ H1)).
  - exfalso. exact (directed_asym D HD _ _ H1 (Hd _ _ K D cls_D)).
Qed.
Definition two_arrows g x y z g2 : Prop :=
  gn g2 = gn g /\ gm g2 x y = -1 /\ gm g2 y x = 1 /\ gm g2 z y = -1 /\ gm g2 y z = 1 /\
  forall a b, ~ (a = x /\ b = y) -> ~ (a = y /\ b = x) -> ~ (a = z /\ b = y) -> ~ (a = y /\ b = z) -> gm g2 a b = gm g a b.
Lemma Inv_bounds g x y z : Inv g -> ucollider D x y z -> (x < n)%nat /\ (y < n)%nat /\ (z < n)%nat /\ x <> y /\ z <> y /\ x <> z.
Proof.
  intros HI Hc. pose proof (ucollider_unshielded _ _ _ Hc) as (J1 & J2 & N & _).
  pose proof (joinedD_neq _ _ J1). pose proof (joinedD_neq _ _ J2). destruct J1 as (B1 & B2 & _), J2 as (B3 & _ & _). rewrite Dn in B1, B2, B3. auto 10.
Qed.
Lemma keep_effect g x y z : Inv g -> ucollider D x y z ->
  fits g (x, y, z) = true /\ built n (keep_existing g (x, y, z)) /\ two_arrows g x y z (keep_existing g (x, y, z)).
Proof.
  intros HI Hc. destruct (Inv_bounds g x y z HI Hc) as (Hx & Hy & Hz & N1 & N2 & N3). pose proof HI as (HB & _).
  assert (HF : fits g (x, y, z) = true).
  { unfold fits. apply andb_true_iff. rewrite !negb_true_iff. unfold is_fully_directed.
    destruct (Inv_side g x y z HI Hc) as [(_ & _ & E1 & E2)|(_ & _ & E1 & E2)], (Inv_side g z y x HI (ucollider_sym _ _ _ Hc)) as [(_ & _ & E3 & E4)|(_ & _ & E3 & E4)];
    rewrite E1, E2, E3, E4; auto. }
  split; [exact HF|]. unfold keep_existing. rewrite HF.
  destruct (point_at_spec n g x y HB Hx Hy N1) as [HB1 A1]. destruct (point_at_spec n _ z y HB1 Hz Hy N2) as [HB2 A2].
  split; [exact HB2|]. exact (arrowed_trans g x y _ z _ N3 N1 N2 A1 A2).
Qed.
Lemma over_effect g x y z : Inv g -> ucollider D x y z -> built n (overwrite g (x, y, z)) /\ two_arrows g x y z (overwrite g (x, y, z)).
Proof.
  intros HI Hc. destruct (Inv_bounds g x y z HI Hc) as (Hx & Hy & Hz & N1 & N2 & N3). pose proof HI as (HB & _). unfold overwrite.
  destruct (over_spec n g x y HB Hx Hy N1) as [HB1 A1]. destruct (over_spec' n _ z y HB1 Hz Hy N2) as [HB2 A2].
  split; [exact HB2|]. exact (arrowed_trans g x y _ z _ N3 N1 N2 A1 A2).
Qed.
Lemma bi_effect g x y z : Inv g -> ucollider D x y z -> built n (bidirect g (x, y, z)) /\ two_arrows g x y z (bidirect g (x, y, z)).
Proof.
  intros HI Hc. destruct (Inv_bounds g x y z HI Hc) as (Hx & Hy & Hz & N1 & N2 & N3). pose proof HI as (HB & _). unfold bidirect.
  destruct (bi_spec n g x y HB (Inv_side g x y z HI Hc)) as [HB1 A1].
  destruct (bi_spec n (bi_point g x y) z y HB1) as [HB2 A2].
  { pose proof A1 as (P1 & P2 & P3 & P4). unfold undirected, directed. rewrite P1, !P4 by lia. exact (Inv_side g z y x HI (ucollider_sym _ _ _ Hc)). }
  split; [exact HB2|]. exact (arrowed_trans g x y _ z _ N3 N1 N2 A1 A2).
Qed.
Lemma now_effect prio g x y z : Inv g -> ucollider D x y z -> built n (now prio g (x, y, z)) /\ two_arrows g x y z (now prio g (x, y, z)).
Proof.
  intros HI Hc. destruct prio as [|[|p]]; cbn [now]; [now apply over_effect|now apply bi_effect|]. now apply keep_effect.
Qed.
Lemma effect_inv g x y z g2 : Inv g -> ucollider D x y z -> built n g2 -> two_arrows g x y z g2 ->
  Inv g2 /\ directed g2 x y /\ directed g2 z y /\ (forall a b, directed g a b -> directed g2 a b).
Proof.
  intros HI Hc HB2 (T0 & T1 & T2 & T3 & T4 & TF). pose proof HI as (HB & Hj & Hp & Hd).
  pose proof (ucollider_directed D HD _ _ _ Hc) as [U1 U2]. pose proof (ucollider_sym _ _ _ Hc) as Hc'.
  destruct (Inv_bounds g x y z HI Hc) as (Hx & Hy & Hz & N1 & N2 & N3). pose proof (Inv_gn g HI) as Hn.
  assert (X1 : directed g2 x y) by (unfold directed; rewrite T0, Hn; auto).
  assert (X2 : directed g2 z y) by (unfold directed; rewrite T0, Hn; auto).
  assert (Hcase : forall a b, (a = x /\ b = y) \/ (a = y /\ b = x) \/ (a = z /\ b = y) \/ (a = y /\ b = z) \/ (gm g2 a b = gm g a b /\ gm g2 b a = gm g b a)).
  { intros a b. destruct (same_pair a b x y) eqn:E1; [apply same_pair_iff in E1; tauto|]. destruct (same_pair a b z y) eqn:E2; [apply same_pair_iff in E2; tauto|].
    apply not_true_iff_false in E1, E2. rewrite same_pair_iff in E1, E2. repeat right. split; apply TF; tauto. }
  split; [|split; [exact X1|split; [exact X2|]]].
  - split; [exact HB2|]. split; [|split].
    + intros a b. rewrite <- Hj. destruct (Hcase a b) as [[-> ->]|[[-> ->]|[[-> ->]|[[-> ->]|[E1 E2]]]]].
      * split; intros _; [apply Hj; exact (proj1 (directed_joined _ _ _ U1))|exact (proj1 (directed_joined _ _ _ X1))].
      * split; intros _; [apply Hj; exact (proj2 (directed_joined _ _ _ U1))|exact (proj2 (directed_joined _ _ _ X1))].
      * split; intros _; [apply Hj; exact (proj1 (directed_joined _ _ _ U2))|exact (proj1 (directed_joined _ _ _ X2))].
      * split; intros _; [apply Hj; exact (proj2 (directed_joined _ _ _ U2))|exact (proj2 (directed_joined _ _ _ X2))].
      * unfold joined. now rewrite T0, E1.
    + intros a b J. destruct (Hcase a b) as [[-> ->]|[[-> ->]|[[-> ->]|[[-> ->]|[E1 E2]]]]]; auto.
      unfold directed, undirected. rewrite T0, E1, E2. apply (Hp a b). unfold joined in *. now rewrite T0, E1 in J.
    + intros a b J. destruct (Hcase a b) as [[-> ->]|[[-> ->]|[[-> ->]|[[-> ->]|[E1 E2]]]]]; eauto using ucol_cls.
      * destruct J as (_ & _ & K1 & K2). lia.
      * destruct J as (_ & _ & K1 & K2). lia.
      * apply Hd. unfold directed in *. now rewrite T0, E1, E2 in J.
  - intros a b J. destruct (Hcase a b) as [[-> ->]|[[-> ->]|[[-> ->]|[[-> ->]|[E1 E2]]]]]; auto.
    + exfalso. exact (directed_asym D HD _ _ U1 (Hd _ _ J D cls_D)).
    + exfalso. exact (directed_asym D HD _ _ U2 (Hd _ _ J D cls_D)).
    + unfold directed in *. now rewrite T0, E1, E2.
Qed.
(** Both arrows of every triple in [l] are in place. *)
Definition covers (l : list triple) (g : ggraph) : Prop := forall x y z, In (x, y, z) l -> directed g x y /\ directed g z y.
Definition true_colliders (l : list triple) : Prop := forall x y z, In (x, y, z) l -> ucollider D x y z.

Lemma now_fold prio l : forall g, Inv g -> true_colliders l ->
  let g' := fold_left (now prio) l g in Inv g' /\ covers l g' /\ (forall a b, directed g a b -> directed g' a b).
Proof.
  induction l as [|[[x y] z] l IH]; intros g HI HT g'.
  - split; [exact HI|]. split; [intros ? ? ? []|auto].
  - assert (Hc : ucollider D x y z) by (apply HT; now left). destruct (now_effect prio g x y z HI Hc) as [HB HE].
    destruct (effect_inv g x y z _ HI Hc HB HE) as (HI' & K1 & K2 & K3).
    destruct (IH _ HI' (fun a b c H => HT a b c (or_intror H))) as (L1 & L2 & L3). fold g' in L1, L2, L3.
    split; [exact L1|]. split; [|auto]. intros a b c [[= <- <- <-]|H]; [auto|now apply L2].
Qed.
Lemma Inv_midc g : Inv g -> (forall x y z, ucollider D x y z -> directed g x y) -> midc cls D g.
Proof.
  intros HI HA. pose proof HI as (HB & Hj & Hp & Hd). split; [rewrite (Inv_gn g HI); auto|]. auto.
Qed.

Lemma Inv_unshielded g x y z : Inv g -> unshielded g x y z <-> unshielded D x y z.
Proof. intros (_ & Hj & _). unfold unshielded. now rewrite !Hj. Qed.
(** A list of true colliders that contains every collider with x < z puts all of them in place. *)
Lemma covering l g' : Inv g' -> covers l g' -> (forall x y z, ucollider D x y z -> (x < z)%nat -> In (x, y, z) l) -> midc cls D g'.
Proof.
  intros HI HC HA. apply Inv_midc; [exact HI|]. intros x y z Hc.
  destruct (Nat.lt_total x z) as [L|[->|L]].
  - now destruct (HC x y z (HA x y z Hc L)).
  - destruct Hc as (_ & _ & _ & N & _). congruence.
  - now destruct (HC z y x (HA z y x (ucollider_sym _ _ _ Hc) L)).
Qed.
End Oracle.
