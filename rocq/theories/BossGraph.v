(** The graph built from the parents, and the ancestors found by get_ancestors. *)
From Verif Require Import Base EdgeModel GraphModel GraphSpec GraphProofs RankLib UtilsModel UtilsProofs DsepSpec MeekSpec CpdagModel CpdagSpec CpdagMain ExactSpec BossModel BossTree BossProofs BossSpec.
From Coq Require Import Permutation.
Local Open Scope Z_scope.

Lemma fold_nested {A B C} (f : A -> B -> C -> A) (h : B -> list C) (l : list B) : forall a,
  fold_left (fun a b => fold_left (fun a c => f a b c) (h b) a) l a = fold_left (fun a q => f a (fst q) (snd q)) (flat_map (fun b => map (pair b) (h b)) l) a.
Proof.
  induction l as [|b l IH]; intros a; [reflexivity|]. cbn [fold_left flat_map]. rewrite fold_left_app, <- IH. f_equal. clear.
  revert a. induction (h b) as [|c r IH]; intros a; [reflexivity|]. cbn. apply IH.
Qed.
Section G.
Variable p : nat.
Variable pa : nat -> list nat.
Hypothesis Hin : forall x y, (y < p)%nat -> In x (pa y) -> (x < p)%nat.
Hypothesis Hasym : forall x y, (x < p)%nat -> (y < p)%nat -> In x (pa y) -> ~ In y (pa x).
Lemma graph_of_parents_gm : gn (graph_of_parents p pa) = p /\
  forall x y, (x < p)%nat -> (y < p)%nat -> gm (graph_of_parents p pa) x y = if memb x (pa y) then -1 else if memb y (pa x) then 1 else 0.
Proof.
  unfold graph_of_parents. rewrite (fold_nested (fun g y x => add_directed_edge g x y) pa (seq 0 p) (empty_graph p)).
  set (L := flat_map _ _).
  assert (HL : forall y x, In (y, x) L <-> (y < p)%nat /\ In x (pa y)).
  { intros y x. unfold L. rewrite in_flat_map. split.
    - intros (y' & H1 & H2). apply in_map_iff in H2. destruct H2 as (x' & E & H2). injection E as <- <-. split; [now apply in_seq0|exact H2].
    - intros [H1 H2]. exists y. split; [now apply in_seq0|]. apply in_map_iff. now exists x. }
  assert (Gen : forall l D g, incl (D ++ l) L -> gn g = p ->
    (forall x y, (x < p)%nat -> (y < p)%nat -> (In (y, x) D /\ gm g x y = -1) \/ (~ In (y, x) D /\ In (x, y) D /\ gm g x y = 1) \/ (~ In (y, x) D /\ ~ In (x, y) D /\ gm g x y = 0)) ->
    let g' := fold_left (fun a q => add_directed_edge a (snd q) (fst q)) l g in gn g' = p /\
    (forall x y, (x < p)%nat -> (y < p)%nat -> (In (y, x) (D ++ l) /\ gm g' x y = -1) \/ (~ In (y, x) (D ++ l) /\ In (x, y) (D ++ l) /\ gm g' x y = 1) \/ (~ In (y, x) (D ++ l) /\ ~ In (x, y) (D ++ l) /\ gm g' x y = 0))).
  { induction l as [|[b a] l IH]; intros D g HI Hn HG; [rewrite app_nil_r; auto|]. cbn [fold_left fst snd].
    assert (HQ : (b < p)%nat /\ In a (pa b)) by (apply HL, HI, in_app_iff; right; now left). destruct HQ as [Hb Ha]. pose proof (Hin a b Hb Ha) as Ha'. pose proof (Hasym a b Ha' Hb Ha) as Hna.
    assert (HD : ~ In (a, b) D) by (intros H; assert (H' : In (a, b) L) by (apply HI, in_app_iff; now left); apply HL in H'; tauto).
    assert (Nab : a <> b) by (intros ->; now apply Hna).
    replace (D ++ (b, a) :: l) with ((D ++ [(b, a)]) ++ l) by (rewrite <- app_assoc; reflexivity). apply IH; [rewrite <- app_assoc; exact HI|exact Hn|].
    intros x y Hx Hy. cbn [add_directed_edge gm gn]. unfold upd2, upd. rewrite !in_app_iff. cbn [In].
    specialize (HG x y Hx Hy).
    destruct (Nat.eqb_spec x a) as [E1|N1], (Nat.eqb_spec y b) as [E2|N2], (Nat.eqb_spec y a) as [E3|N3], (Nat.eqb_spec x b) as [E4|N4]; cbn [andb]; subst; try congruence;
      try (left; split; [right; now left|reflexivity]); try (intuition congruence). }
  specialize (Gen L [] (empty_graph p) (incl_refl _) eq_refl). destruct Gen as [G1 G2].
  { intros x y _ _. right. right. split; [auto|]. split; [auto|reflexivity]. }
  split; [exact G1|]. intros x y Hx Hy. specialize (G2 x y Hx Hy). cbn [app] in G2. rewrite !HL in G2.
  destruct (memb x (pa y)) eqn:E1; [apply memb_In in E1|apply memb_not_In in E1]; [intuition|].
  destruct (memb y (pa x)) eqn:E2; [apply memb_In in E2|apply memb_not_In in E2]; intuition.
Qed.
Lemma graph_of_parents_dag (r : nat -> nat) : (forall x y, (y < p)%nat -> In x (pa y) -> (r x < r y)%nat) ->
  let D := graph_of_parents p pa in dag D /\ gn D = p /\ forall x y, directed D x y <-> (y < p)%nat /\ In x (pa y).
Proof.
  intros Hr D. destruct graph_of_parents_gm as [Hn Hg]. fold D in Hn, Hg.
  assert (CS : forall x y, (x < p)%nat -> (y < p)%nat -> (In x (pa y) /\ ~ In y (pa x) /\ gm D x y = -1) \/ (In y (pa x) /\ ~ In x (pa y) /\ gm D x y = 1) \/ (~ In x (pa y) /\ ~ In y (pa x) /\ gm D x y = 0)).
  { intros x y Hx Hy. rewrite (Hg x y Hx Hy). destruct (memb x (pa y)) eqn:E1; [apply memb_In in E1; left; auto|apply memb_not_In in E1].
    destruct (memb y (pa x)) eqn:E2; [apply memb_In in E2|apply memb_not_In in E2]; auto. }
  assert (DE : forall x y, (x < p)%nat -> (y < p)%nat -> gm D x y = -1 -> In x (pa y)) by (intros x y Hx Hy E; destruct (CS x y Hx Hy) as [H|[H|H]]; [tauto|lia|lia]).
  split; [split; [split|split]|split; [exact Hn|]].
  - intros i Hi. rewrite Hn in Hi. destruct (CS i i Hi Hi) as [H|[H|H]]; tauto.
  - intros i j Hi Hj. rewrite Hn in Hi, Hj. unfold legal_pair, legal_pairs.
    destruct (CS i j Hi Hj) as [(H1 & H2 & ->)|[(H1 & H2 & ->)|(H1 & H2 & ->)]]; destruct (CS j i Hj Hi) as [(K1 & K2 & ->)|[(K1 & K2 & ->)|(K1 & K2 & ->)]]; try contradiction; cbn; tauto.
  - apply (rank_acyclic _ r). intros x y (Hx & Hy & [[E1 _]|[E1 _]]); rewrite Hn in Hx, Hy; [apply Hr; auto|]. destruct (CS x y Hx Hy) as [H|[H|H]]; lia.
  - intros i j Hi Hj N. rewrite Hn in Hi, Hj.
    destruct (CS i j Hi Hj) as [(H1 & H2 & E)|[(H1 & H2 & E)|(H1 & H2 & E)]]; destruct (CS j i Hj Hi) as [(K1 & K2 & F)|[(K1 & K2 & F)|(K1 & K2 & F)]]; try contradiction; auto.
  - intros x y. unfold directed. rewrite Hn. split.
    + intros (Hx & Hy & E & _). auto.
    + intros [Hy H]. pose proof (Hin x y Hy H) as Hx. destruct (CS x y Hx Hy) as [(_ & H2 & E)|[(_ & H2 & _)|(H2 & _)]]; [|contradiction|contradiction]. split; [exact Hx|]. split; [exact Hy|]. split; [exact E|].
      destruct (CS y x Hy Hx) as [(K & _)|[(_ & _ & K)|(K & K' & _)]]; [contradiction|exact K|contradiction].
Qed.

(** *** Ancestors *)
Lemma get_anc_spec fuel : forall y anc, (y < p)%nat -> ~ In y anc -> NoDup anc -> (forall v, In v anc -> (v < p)%nat) -> (p < fuel + length anc)%nat ->
  let r := get_anc fuel pa y anc in
  NoDup r /\ (forall v, In v r -> (v < p)%nat) /\ incl anc r /\ In y r /\ (length anc < length r)%nat /\
  (forall v, In v r -> In v anc \/ ancestor pa v y) /\ (forall v x, In v r -> ~ In v anc -> In x (pa v) -> In x r).
Proof.
  induction fuel as [|f IH]; intros y anc Hy Ny HN HB HF.
  - exfalso. assert (L : (length anc <= p)%nat). { rewrite <- (seq_length p 0). apply NoDup_incl_length; [exact HN|]. intros v Hv. apply in_seq0. auto. } lia.
  - cbn zeta. cbn [get_anc].
    assert (N1 : NoDup (anc ++ [y])). { eapply Permutation_NoDup; [apply Permutation_app_comm|]. cbn. now constructor. }
    assert (Gen : forall l r0, incl l (pa y) -> NoDup r0 -> (forall v, In v r0 -> (v < p)%nat) -> incl (anc ++ [y]) r0 -> (length anc < length r0)%nat ->
      (forall v, In v r0 -> In v anc \/ ancestor pa v y) -> (forall v x, In v r0 -> ~ In v anc -> v <> y -> In x (pa v) -> In x r0) ->
      let r := fold_left (fun anc x => if memb x anc then anc else get_anc f pa x anc) l r0 in
      NoDup r /\ (forall v, In v r -> (v < p)%nat) /\ incl r0 r /\ (length r0 <= length r)%nat /\
      (forall v, In v r -> In v anc \/ ancestor pa v y) /\ (forall v x, In v r -> ~ In v anc -> v <> y -> In x (pa v) -> In x r) /\ incl l r).
    { induction l as [|x l IHl]; intros r0 HL A B C D E F; cbn zeta; cbn [fold_left].
      - split; [exact A|]. split; [exact B|]. split; [apply incl_refl|]. split; [lia|]. split; [exact E|]. split; [exact F|]. intros v [].
      - destruct (memb x r0) eqn:Ex.
        + apply memb_In in Ex. specialize (IHl r0 (fun v H => HL v (or_intror H)) A B C D E F). cbn zeta in IHl. destruct IHl as (I1 & I2 & I3 & I4 & I5 & I6 & I7).
          do 6 (split; [assumption|]). intros v [<-|Hv]; [now apply I3|now apply I7].
        + apply memb_not_In in Ex. assert (Hxp : In x (pa y)) by (apply HL; now left).
          assert (Hx : (x < p)%nat) by (apply (Hin x y); auto).
          destruct (IH x r0 Hx Ex A B ltac:(lia)) as (J1 & J2 & J3 & J4 & J5 & J6 & J7). set (r1 := get_anc f pa x r0) in *.
          assert (E1 : forall v, In v r1 -> In v anc \/ ancestor pa v y).
          { intros v Hv. destruct (J6 v Hv) as [H|H]; [auto|]. right. clear - H Hxp. induction H as [|a b c H1 H2 IH2]; [eapply anc_parent; [exact Hxp|constructor]|]. eapply anc_parent; eauto. }
          assert (F1 : forall v z, In v r1 -> ~ In v anc -> v <> y -> In z (pa v) -> In z r1).
          { intros v z Hv Nv Nvy Hz. destruct (in_dec Nat.eq_dec v r0) as [H|H]; [apply J3; eauto|eauto]. }
          specialize (IHl r1 (fun v H => HL v (or_intror H)) J1 J2 (fun v H => J3 v (C v H)) ltac:(lia) E1 F1). cbn zeta in IHl. destruct IHl as (I1 & I2 & I3 & I4 & I5 & I6 & I7).
          split; [exact I1|]. split; [exact I2|]. split; [intros v Hv; apply I3, J3, Hv|]. split; [lia|]. split; [exact I5|]. split; [exact I6|].
          intros v [<-|Hv]; [now apply I3|now apply I7]. }
    specialize (Gen (pa y) (anc ++ [y]) (incl_refl _) N1).
    destruct Gen as (I1 & I2 & I3 & I4 & I5 & I6 & I7).
    + intros v Hv. apply in_app_iff in Hv. destruct Hv as [Hv|[<-|[]]]; auto.
    + apply incl_refl.
    + rewrite app_length. cbn. lia.
    + intros v Hv. apply in_app_iff in Hv. destruct Hv as [Hv|[<-|[]]]; [now left|right; constructor].
    + intros v x Hv Nv Nvy. apply in_app_iff in Hv. destruct Hv as [Hv|[<-|[]]]; [contradiction|congruence].
    + rewrite app_length in I4. cbn in I4. split; [exact I1|]. split; [exact I2|]. split; [intros v Hv; apply I3, in_app_iff; now left|]. split; [apply I3, in_app_iff; right; now left|]. split; [lia|].
      split; [exact I5|]. intros v x Hv Nv Hx. destruct (Nat.eq_dec v y) as [->|N]; [now apply I7|eauto].
Qed.
Lemma get_anc_all y : (y < p)%nat -> forall v, In v (get_anc (S p) pa y []) <-> ancestor pa v y.
Proof.
  intros Hy v. destruct (get_anc_spec (S p) y [] Hy (fun H => H) (NoDup_nil _) (fun v (H : In v []) => match H with end) ltac:(cbn; lia)) as (_ & _ & _ & I1 & _ & I2 & I3).
  split; [intros H; now destruct (I2 v H)|]. intros H. induction H as [|a b c H1 H2 IH]; [exact I1|]. apply (I3 b a); auto.
Qed.
End G.
