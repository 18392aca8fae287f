(** PC with an arbitrary test: the code runs to the end, and what the knowledge demands is respected. *)
From Verif Require Import Base EdgeModel EdgeProofs GraphModel GraphSpec GraphProofs DpathProofs UtilsModel UtilsProofs NamedModel KnowledgeModel
  DsepSpec MeekModel MeekSpec MeekProofs MeekProps SkelModel SkelSpec SkelProofs SkelMain SkelProps PCModel PCSpec MeekFull PCGraph PCProofs PCMain PCAny.
Local Open Scope Z_scope.

(** ** Removed pairs have a recorded separating set *)
Section Rec.
Variable ind : nat -> nat -> list nat -> bool.
Variable ban : nat -> nat -> bool.
Variable stable : bool.
Variable n : nat.
Notation fasm := false.
Definition recd (st : sk) : Prop := built n (skG st) /\
  (forall a b, (a < n)%nat -> (b < n)%nat -> a <> b -> joined (skG st) a b \/ skS st a b <> []) /\
  (forall a b, In (a, b) (skR st) -> skS st a b <> [] /\ skS st b a <> []).
Lemma append_both_ne s x y v a b : s a b <> [] \/ same_pair a b x y = true -> append_both s x y v a b <> [].
Proof.
  unfold append_both, upd_f. rewrite same_pair_iff. intros H.
  destruct (Nat.eqb_spec a y), (Nat.eqb_spec b x), (Nat.eqb_spec a x), (Nat.eqb_spec b y), (Nat.eqb_spec y x), (Nat.eqb_spec x y); cbn [andb]; subst;
  try (intros E; apply app_eq_nil in E; destruct E; discriminate); try congruence; destruct H as [H|[[]|[]]]; try congruence; tauto.
Qed.
Lemma removed_recd st x y cs : recd st -> recd (removed_now fasm st x y cs).
Proof.
  intros (HB & H1 & H2). unfold removed_now. destruct (rie_any n _ x y HB) as [HB1 G1]. destruct (rie_any n _ y x HB1) as [HB2 G2].
  split; [exact HB2|]. cbn [skG skS skR]. split.
  - intros a b Ha Hb N. destruct (same_pair a b x y) eqn:E; [right; apply append_both_ne; auto|].
    destruct (H1 a b Ha Hb N) as [J|J]; [|right; apply append_both_ne; auto]. left.
    destruct (built_inv n _ HB) as (Hn & _). destruct (built_inv n _ HB2) as (Hn2 & _). unfold joined. rewrite Hn2, G2, G1, E.
    assert (same_pair a b y x = false) as -> by (unfold same_pair in *; now rewrite orb_comm). destruct J as (_ & _ & J). auto.
  - intros a b K. destruct (H2 a b K). split; apply append_both_ne; auto.
Qed.
Lemma s_loop_memp x y Ss : forall st ss, memp x y (skR st) = true -> memp x y (skR (fst (s_loop ind stable fasm x y Ss st ss))) = true.
Proof.
  induction Ss as [|c q IH]; intros st t M; cbn [s_loop]; [exact M|]. destruct (ind x y c); [|now apply IH]. destruct stable; [|exact M]. apply IH. cbn.
  unfold memp in *. rewrite existsb_app. now rewrite M.
Qed.
Lemma s_loop_recd x y Ss : forall st ss,
  (stable = false -> recd st -> recd (fst (s_loop ind stable fasm x y Ss st ss))) /\
  (stable = true -> skG (fst (s_loop ind stable fasm x y Ss st ss)) = skG st /\ skS (fst (s_loop ind stable fasm x y Ss st ss)) = skS st /\
     forall a b, In (a, b) (skR (fst (s_loop ind stable fasm x y Ss st ss))) -> In (a, b) (skR st) \/ (same_pair a b x y = true /\ memp x y (skR (fst (s_loop ind stable fasm x y Ss st ss))) = true)).
Proof.
  pose proof s_loop_memp as s_loop_memp.
  induction Ss as [|cs r IH]; intros st ss; cbn [s_loop]; [split; auto|].
  destruct (ind x y cs); [|apply IH]. destruct stable.
  - split; [discriminate|]. intros _. destruct (IH (to_remove st x y) (add_all ss cs)) as [_ H]. destruct (H eq_refl) as (H1 & H2 & H3).
    split; [exact H1|]. split; [exact H2|]. intros a b K. destruct (H3 a b K) as [K1|K1]; [|auto]. cbn in K1. apply in_app_iff in K1.
    destruct K1 as [K1|K1]; [auto|]. right. split.
    + apply same_pair_iff. cbn in K1. destruct K1 as [[= <- <-]|[[= <- <-]|[]]]; auto.
    + apply s_loop_memp. cbn. unfold memp. rewrite existsb_app. cbn. rewrite !Nat.eqb_refl. cbn. apply orb_true_r.
  - split; [|discriminate]. intros _ R. now apply removed_recd.
Qed.
Lemma y_loop_recd depth x neigh ys : forall st, recd st -> recd (y_loop ind ban stable fasm depth x neigh ys st).
Proof.
  induction ys as [|y r IH]; intros st H; cbn [y_loop]; [exact H|].
  destruct (ban x y && negb stable) eqn:EB; [now apply removed_recd|].
  set (Ss := combs depth (filter (fun z => negb (Nat.eqb z y)) neigh)). set (st1 := if ban x y then to_remove st x y else st).
  destruct (s_loop_recd x y Ss st1 []) as [A1 A2]. pose proof (s_loop_memp x y Ss st1 []) as A3. destruct (s_loop ind stable fasm x y Ss st1 []) as [st2 ss]. cbn [fst] in A1, A2, A3. apply IH.
  cbn [orb].
  assert (APP : recd st2 -> recd (mkSk (skG st2) (append_both (skS st2) x y ss) (skR st2) (skD st2))).
  { intros (Q0 & Q1 & Q2). split; [exact Q0|]. cbn [skG skS skR]. split.
    - intros a b Ha Hb N. destruct (Q1 a b Ha Hb N); [now left|right; apply append_both_ne; auto].
    - intros a b K. destruct (Q2 a b K). split; apply append_both_ne; auto. }
  destruct stable.
  - destruct (A2 eq_refl) as (E1 & E2 & E3). pose proof H as (Q0 & Q1 & Q2).
    assert (S1 : skG st1 = skG st /\ skS st1 = skS st) by (unfold st1; destruct (ban x y); auto). destruct S1 as [S1 S2]. rewrite S1 in E1. rewrite S2 in E2.
    assert (M1 : forall a b, In (a, b) (skR st1) -> In (a, b) (skR st) \/ (same_pair a b x y = true /\ ban x y = true)).
    { unfold st1. intros a b. destruct (ban x y); [|auto]. cbn. rewrite in_app_iff. intros [K|K]; [auto|]. right. split; [|reflexivity].
      apply same_pair_iff. cbn in K. destruct K as [[= <- <-]|[[= <- <-]|[]]]; auto. }
    assert (M2 : ban x y = true -> memp x y (skR st2) = true).
    { intros B. apply A3. unfold st1. rewrite B. cbn. unfold memp. rewrite existsb_app. cbn. rewrite !Nat.eqb_refl. cbn. apply orb_true_r. }
    destruct (memp x y (skR st2)) eqn:EM; cbn [orb].
    + split; [rewrite E1; exact Q0|]. cbn [skG skS skR]. rewrite E1, E2. split.
      * intros a b Ha Hb N. destruct (Q1 a b Ha Hb N); [now left|right; apply append_both_ne; auto].
      * intros a b K. destruct (E3 a b K) as [K1|[K1 _]].
        -- apply M1 in K1. destruct K1 as [K1|[K1 _]]; [destruct (Q2 a b K1); split; apply append_both_ne; auto|].
           split; apply append_both_ne; right; [exact K1|now rewrite same_pair_sym].
        -- split; apply append_both_ne; right; [exact K1|now rewrite same_pair_sym].
    + assert (R2 : recd st2).
      { split; [rewrite E1; exact Q0|]. rewrite E1, E2. split; [exact Q1|]. intros a b K. destruct (E3 a b K) as [K1|[_ K1]]; [|congruence].
        apply M1 in K1. destruct K1 as [K1|[_ K1]]; [auto|]. specialize (M2 K1). congruence. }
      destruct (match get_edge (skG st2) x y with Ok None => true | _ => false end); auto.
  - assert (st1 = st) as -> by (unfold st1; destruct (ban x y); [discriminate|reflexivity]).
    specialize (A1 eq_refl H). destruct (memp x y (skR st2) || _); auto.
Qed.
Lemma sk_pass_recd depth st : recd st -> recd (sk_pass ind ban stable fasm depth st).
Proof.
  intros (Q0 & Q1 & _). unfold sk_pass.
  set (st1 := fold_left (x_step ind ban stable fasm depth) (seq 0 (gn (skG st))) (mkSk (skG st) (skS st) [] (skD st))).
  assert (H : recd st1).
  { unfold st1. apply (fold_left_inv _ recd).
    - split; [exact Q0|]. split; [exact Q1|]. intros a b [].
    - intros s x _ Hs. unfold x_step. destruct (Nat.ltb _ _); [exact Hs|]. now apply y_loop_recd. }
  enough (K : recd (fold_left (remove_step fasm) (skR st1) st1) /\ skR (fold_left (remove_step fasm) (skR st1) st1) = skR st1) by apply K.
  apply (fold_left_inv _ (fun s => recd s /\ skR s = skR st1)); [auto|].
  intros s [x y] Hin [(R0 & R1 & R2) ER]. unfold remove_step. cbn [skG skS skR]. split; [|exact ER].
  destruct (rie_any n _ x y R0) as [HB1 G1]. split; [exact HB1|]. cbn [skG skS skR]. split; [|exact R2].
  intros a b Ha Hb N. destruct (same_pair a b x y) eqn:E.
  - right. rewrite <- ER in Hin. destruct (R2 x y Hin) as [K1 K2]. apply same_pair_iff in E. destruct E as [[-> ->]|[-> ->]]; assumption.
  - destruct (R1 a b Ha Hb N) as [J|J]; [left|now right]. destruct (built_inv n _ R0) as (Hn & _). destruct (built_inv n _ HB1) as (Hn1 & _).
    unfold joined in *. rewrite Hn1, G1, E. rewrite Hn in J. exact J.
Qed.
Lemma search_recd fuel limit st : sk_search ind ban stable fasm fuel limit n = Some st -> recd st.
Proof.
  unfold sk_search. enough (H : forall k s, recd s -> sk_loop ind ban stable fasm fuel limit k s = Some st -> recd st).
  { apply H. split; [apply complete_built|]. split; [|intros a b []]. intros a b Ha Hb N. left. apply complete_spec. auto. }
  induction fuel as [|f IH]; intros k s Hs E; cbn [sk_loop] in E; destruct (_ && _); try discriminate; try (injection E as <-; exact Hs).
  revert E. apply IH. now apply sk_pass_recd.
Qed.
End Rec.
Lemma skeleton_recorded ind ban stable fuel n g sep a b : skeleton_discovery ind ban stable fuel n = Some (g, sep) ->
  (a < n)%nat -> (b < n)%nat -> a <> b -> ~ joined g a b -> sep a b <> [].
Proof.
  unfold skeleton_discovery. destruct (sk_search _ _ _ _ _ _ _) as [st|] eqn:E; [|discriminate]. intros [= <- <-] Ha Hb N NJ.
  destruct (search_recd _ _ _ _ _ _ _ E) as (_ & H & _). destruct (H a b Ha Hb N); [contradiction|assumption].
Qed.

(** ** The three collider rules as sequences of processed triples *)
Section Rules.
Variable pv : nat -> nat -> list nat -> Z.
Variable blk : nat -> nat -> bool.
Definition qual (sep : nat -> nat -> list (list nat)) (t : triple) : bool := negb (blocked blk t) && coll sep t.
Lemma uc_raise prio sep l : fold_left (uc_step blk prio sep) l Raise = Raise.
Proof. induction l as [|t l IH]; [reflexivity|exact IH]. Qed.
Lemma uc_fold_eq prio sep l : forall s r, fold_left (uc_step blk prio sep) l (Ok s) = Ok r ->
  r = if Nat.leb prio 2 then (fold_left (now prio) (filter (qual sep) l) (fst s), snd s) else (fst s, snd s ++ filter (qual sep) l).
Proof.
  induction l as [|[[x y] z] l IH]; intros s r E; cbn [fold_left filter] in *.
  - injection E as <-. rewrite app_nil_r. destruct s, (Nat.leb prio 2); reflexivity.
  - unfold uc_step in E at 2. cbn [res_bind] in E. 
    change (qual sep (x, y, z)) with (negb (blocked blk (x, y, z)) && forallb (fun cs => negb (memb y cs)) (sep x z)).
    destruct (blocked blk (x, y, z)); cbn [negb andb]; [now apply IH|].
    destruct (sep x z) as [|c q] eqn:ES; [rewrite uc_raise in E; discriminate|]. rewrite <- ES in *.
    destruct (forallb _ (sep x z)); [|now apply IH].
    destruct (Nat.leb prio 2) eqn:EP; apply IH in E; rewrite E; cbn [fst snd fold_left]; [reflexivity|]. now rewrite <- app_assoc.
Qed.
Lemma uc_fold_ok prio sep l : (forall x y z, In (x, y, z) l -> sep x z <> []) -> forall s, exists r, fold_left (uc_step blk prio sep) l (Ok s) = Ok r.
Proof.
  induction l as [|[[x y] z] l IH]; intros HN s; cbn [fold_left]; [eauto|].
  unfold uc_step at 2. cbn [res_bind]. assert (HN' : forall x y z, In (x, y, z) l -> sep x z <> []) by (intros; eapply HN; right; eauto).
  destruct (blocked blk (x, y, z)); [now apply IH|]. pose proof (HN x y z (or_introl eq_refl)) as Hne.
  destruct (sep x z) as [|c q]; [congruence|]. destruct (forallb _ _); [|now apply IH]. destruct (Nat.leb prio 2); now apply IH.
Qed.

Variable n : nat.
Variable g0 : ggraph.
Hypothesis HB0 : built n g0.
Hypothesis HP0 : partially_directed g0.
Lemma ot_unshielded x y z : In (x, y, z) (ordered_triples g0) -> unshielded g0 x y z.
Proof. intros H. destruct (built_inv n g0 HB0) as (_ & Hw & _). apply in_ordered in H; tauto. Qed.
(** Unblocked unshielded triples. *)
Definition free (t : triple) : Prop := In t (ordered_triples g0) /\ blocked blk t = false.
Definition freec (sep : nat -> nat -> list (list nat)) (t : triple) : Prop := free t /\ coll sep t = true.
Lemma free_unshielded x y z : free (x, y, z) -> unshielded g0 x y z.
Proof. intros [H _]. now apply ot_unshielded. Qed.
Lemma fold_now_runs prio (P : triple -> Prop) l g : (forall t, In t l -> P t) -> runs prio P g (fold_left (now prio) l g).
Proof. intros H. apply runs_fold; [|constructor]. intros h t K. right. auto. Qed.
Lemma apply_runs (P : triple -> Prop) l g : (forall t, In t l -> blocked blk t = false -> P t) -> runs 2 P g (apply_sorted blk g l).
Proof.
  intros H. unfold apply_sorted. apply runs_fold; [|constructor]. intros h t K. destruct (blocked blk t) eqn:E; [now left|]. right. auto.
Qed.
Lemma fill_keys f l : forall d d', fill_dict f l d = Ok d' -> forall t, In t (map fst d') <-> In t (map fst d) \/ In t l.
Proof.
  induction l as [|u l IH]; intros d d' E t; cbn [fill_dict] in E.
  - injection E as <-. cbn. tauto.
  - destruct (f u) as [v|]; [|discriminate]. cbn [res_bind] in E. rewrite (IH _ _ E), tput_keys. cbn [In]. intuition.
Qed.
Definition eff (prio : nat) : nat := if Nat.leb prio 2 then prio else 2%nat.
Lemma uc_sepset_runs prio sep g' : uc_sepset pv blk prio sep g0 = Ok g' ->
  runs (eff prio) (freec sep) g0 g' /\ (forall t, freec sep t -> exists l1 l2, fold_left (now (eff prio)) (l1 ++ t :: l2) g0 = g' /\ forall u, In u (l1 ++ t :: l2) -> freec sep u).
Proof.
  unfold uc_sepset, eff. intros E. destruct (Nat.leb prio 4); [|discriminate].
  destruct (fold_left (uc_step blk prio sep) (ordered_triples g0) (Ok (g0, []))) as [r|] eqn:EF; [|discriminate]. cbn [res_bind] in E.
  apply uc_fold_eq in EF.
  assert (HQ : forall t, In t (filter (qual sep) (ordered_triples g0)) <-> freec sep t).
  { intros t. rewrite filter_In. unfold qual, freec, free. rewrite andb_true_iff, negb_true_iff. tauto. }
  destruct (Nat.leb prio 2) eqn:E2.
  - injection E as <-. subst r. cbn [fst]. split; [apply fold_now_runs; intros t K; now apply HQ|]. intros t Ht. apply HQ in Ht. apply in_split in Ht.
    destruct Ht as (l1 & l2 & Hs). exists l1, l2. rewrite <- Hs. split; [reflexivity|]. intros u Hu. now apply HQ.
  - subst r. cbn [fst snd app] in E. destruct (fill_dict _ _ _) as [d|] eqn:ED; [|discriminate]. cbn [res_bind] in E. injection E as <-.
    pose proof (fill_keys _ _ _ _ ED) as HK. cbn [map In] in HK.
    assert (HK' : forall t, In t (map fst (sort_dict (Nat.eqb prio 4) d)) <-> freec sep t) by (intros t; rewrite sort_dict_in, HK, HQ; tauto).
    set (l := map fst (sort_dict (Nat.eqb prio 4) d)) in *.
    assert (EA : apply_sorted blk g0 l = fold_left (now 2) l g0).
    { unfold apply_sorted. assert (HB : forall t, In t l -> blocked blk t = false) by (intros t K; apply HK' in K; apply K). clear - HB.
      generalize g0. induction l as [|t l IH]; intros g; [reflexivity|]. cbn [fold_left]. rewrite (HB t (or_introl eq_refl)). apply IH. intros; apply HB; now right. }
    rewrite EA. split; [apply fold_now_runs; intros t K; now apply HK'|]. intros t Ht. apply HK' in Ht. apply in_split in Ht.
    destruct Ht as (l1 & l2 & Hs). exists l1, l2. rewrite <- Hs. split; [reflexivity|]. intros u Hu. now apply HK'.
Qed.
Lemma uc_sepset_ok prio sep : (prio <= 4)%nat -> (forall x y z, In (x, y, z) (ordered_triples g0) -> sep x z <> []) ->
  exists g', uc_sepset pv blk prio sep g0 = Ok g'.
Proof.
  intros Hp HN. unfold uc_sepset. apply Nat.leb_le in Hp. rewrite Hp.
  destruct (uc_fold_ok prio sep _ HN (g0, [])) as (r & E). rewrite E. cbn [res_bind]. apply uc_fold_eq in E.
  destruct (Nat.leb prio 2) eqn:E2; [eauto|]. rewrite E. cbn [fst snd app].
  destruct (fill_ok (if Nat.eqb prio 3 then p_with pv g0 else p_without pv g0) (filter (qual sep) (ordered_triples g0))) with (d := @nil (triple * Z)) as (d & Ed & Hd).
  { intros [[x y] z] K. apply filter_In in K. destruct K as [K _]. apply ot_unshielded in K.
    assert (HW : find_cond_sets_with_mid g0 x z y <> []).
    { intros Q. assert (H : In (filter (fun _ => true) (neighbors g0 x)) (find_cond_sets_with_mid g0 x z y)); [|rewrite Q in H; exact H].
      unfold find_cond_sets_with_mid. apply filter_In. split; [apply in_app_iff; left; apply powerset_filter|]. apply memb_In, filter_In.
      split; [|reflexivity]. apply in_neighbors; [apply K|]. apply K. }
    destruct (Nat.eqb prio 3); [destruct (maxl_map (pv x z) _ 0 HW) as (m & Em & _)|destruct (maxl_map (pv x z) _ 0 (without_mid_nonempty g0 x y z)) as (m & Em & _)]; exists m; exact Em. }
  unfold tdict in *. rewrite Ed. cbn [res_bind]. eauto.
Qed.
Lemma with_ok g x y z : base n g0 g -> unshielded g0 x y z -> exists v, p_with pv g (x, y, z) = Ok v.
Proof.
  intros (HB & _ & _ & Hj) K. assert (J : joined g x y) by (apply Hj; apply K).
  assert (HW : find_cond_sets_with_mid g x z y <> []).
  { intros Q. assert (H : In (filter (fun _ => true) (neighbors g x)) (find_cond_sets_with_mid g x z y)); [|rewrite Q in H; exact H].
    unfold find_cond_sets_with_mid. apply filter_In. split; [apply in_app_iff; left; apply powerset_filter|]. apply memb_In, filter_In.
    split; [|reflexivity]. apply in_neighbors; [apply J|exact J]. }
  destruct (maxl_map (pv x z) _ 0 HW) as (m & Em & _). exists m. exact Em.
Qed.
Lemma without_ok g x y z : exists v, p_without pv g (x, y, z) = Ok v.
Proof. destruct (maxl_map (pv x z) _ 0 (without_mid_nonempty g x y z)) as (m & Em & _). exists m. exact Em. Qed.
Lemma maxp_runs prio : (prio <= 4)%nat -> exists g', maxp pv blk prio g0 = Ok g' /\ runs (eff prio) free g0 g'.
Proof.
  intros Hp. unfold maxp. apply Nat.leb_le in Hp. rewrite Hp.
  assert (H : forall l h d, incl l (ordered_triples g0) -> runs (eff prio) free g0 h -> (forall t, In t (map fst d) -> free t) -> ((2 < prio)%nat -> h = g0) ->
    exists h' d', fold_left (maxp_step pv blk prio) l (Ok (h, d)) = Ok (h', d') /\ runs (eff prio) free g0 h' /\ (forall t, In t (map fst d') -> free t) /\ ((2 < prio)%nat -> h' = g0)).
  { induction l as [|[[x y] z] l IH]; intros h d HL HR HD HE; cbn [fold_left]; [eauto 10|].
    assert (HL' : incl l (ordered_triples g0)) by (intros t K; apply HL; now right).
    pose proof (HL _ (or_introl eq_refl)) as Hin. pose proof (ot_unshielded _ _ _ Hin) as Hu.
    unfold maxp_step at 2. cbn [res_bind fst snd]. destruct (blocked blk (x, y, z)) eqn:EB; [now apply IH|].
    assert (Hf : free (x, y, z)) by (split; assumption).
    pose proof (runs_base n (eff prio) free g0 HB0 HP0 free_unshielded h HR) as HBs.
    destruct (with_ok h x y z HBs Hu) as (pw & ->). destruct (without_ok h x y z) as (po & ->). cbn [res_bind].
    destruct (po >? pw); [|now apply IH]. destruct (Nat.leb prio 2) eqn:E2.
    - apply IH; auto.
      + assert (eff prio = prio) as EP by (unfold eff; now rewrite E2). rewrite EP in *. now constructor.
      + apply Nat.leb_le in E2. lia.
    - apply IH; auto. intros t K. apply tput_keys in K. destruct K as [->|K]; auto. }
  destruct (H (ordered_triples g0) g0 [] (incl_refl _)) as (h & d & EF & HR & HD & HE); [constructor|intros t []|auto|].
  unfold tdict in *. rewrite EF. cbn [res_bind fst snd]. destruct (Nat.leb prio 2) eqn:E2; [eauto|].
  apply Nat.leb_gt in E2. rewrite (HE E2). eexists. split; [reflexivity|].
  assert (eff prio = 2%nat) as -> by (unfold eff; destruct (Nat.leb_spec prio 2); lia).
  apply apply_runs. intros t K _. apply sort_dict_in in K. auto.
Qed.
Lemma definite_runs alpha prio : (2 <= prio <= 4)%nat -> exists g' UC NUC, definite_maxp pv blk alpha prio g0 = Ok (g', UC, NUC) /\ runs 2 free g0 g' /\
  forall x y z, In (x, y, z) NUC -> unshielded g0 x y z.
Proof.
  intros [P1 P2]. unfold definite_maxp. apply Nat.leb_le in P1, P2. rewrite P1, P2. cbn [andb].
  assert (H : forall l s, incl l (ordered_triples g0) -> (forall t, In t (map fst (fst s)) \/ In t (snd s) -> In t (ordered_triples g0)) ->
    forall t, In t (map fst (fst (fold_left (definite_step pv alpha prio g0) l s))) \/ In t (snd (fold_left (definite_step pv alpha prio g0) l s)) -> In t (ordered_triples g0)).
  { induction l as [|[[x y] z] l IH]; intros s HL HS; [exact HS|]. cbn [fold_left]. apply IH; [intros t K; apply HL; now right|].
    pose proof (HL _ (or_introl eq_refl)) as Hin. unfold definite_step. destruct (scan_with _ _ _) as [uc pw]. destruct (scan_without _ _ _ _ _) as [nuc po].
    intros t. destruct uc, nuc; [destruct (po >? pw)| | |]; cbn [fst snd]; rewrite ?tput_keys, ?in_app_iff; cbn [In];
    [intros [[K|K]|K]|intros [K|[K|[K|[]]]]|intros [[K|K]|K]|intros [K|[K|[K|[]]]]|intros K]; subst; auto. }
  specialize (H (ordered_triples g0) ([], []) (incl_refl _)).
  destruct (fold_left (definite_step pv alpha prio g0) (ordered_triples g0) ([], [])) as [d nuc]. cbn [fst snd] in H.
  assert (HK : forall t, In t (map fst d) \/ In t nuc -> In t (ordered_triples g0)) by (apply H; intros t [[]|[]]).
  set (d' := if Nat.eqb prio 3 then _ else _).
  assert (Hd' : forall t, In t (map fst d') -> In t (map fst d)).
  { intros t K. unfold d' in K. destruct (Nat.eqb prio 3); [now apply sort_dict_in in K|]. destruct (Nat.eqb prio 4); [now apply sort_dict_in in K|exact K]. }
  destruct (fold_left (definite_apply blk) (map fst d') (g0, [])) as [g' UC] eqn:EF. exists g', UC, nuc. split; [reflexivity|]. split.
  - assert (R : forall l s, incl l (map fst d') -> runs 2 free g0 (fst s) -> runs 2 free g0 (fst (fold_left (definite_apply blk) l s))).
    { induction l as [|t l IH]; intros s HL HR; [exact HR|]. cbn [fold_left]. apply IH; [intros u K; apply HL; now right|].
      unfold definite_apply. destruct (blocked blk t) eqn:EB; [exact HR|]. destruct (fits (fst s) t); [|exact HR]. cbn [fst].
      change (keep_existing (fst s) t) with (now 2 (fst s) t). constructor; [exact HR|]. split; [|exact EB]. apply HK. left. apply Hd', HL. now left. }
    specialize (R (map fst d') (g0, []) (incl_refl _) (runs_nil 2 free g0)). rewrite EF in R. exact R.
  - intros x y z K. apply ot_unshielded, HK. now right.
Qed.
End Rules.
