(** The loop of a phase of greedy equivalence search. *)
From Verif Require Import Base EdgeModel GraphModel GraphSpec GraphProofs UtilsModel DsepSpec DsepProofs MeekSpec MeekProofs SkelModel PCModel PdagModel PdagProofs
  CpdagModel CpdagSpec CpdagProps CpdagMain ExactSpec GESSpec GESTheory GESModel GESProofs GESSweep GESMain.
From Coq Require Import Sorted.
Local Open Scope Z_scope.

Lemma replace_last_length {A} (l : list A) x : length (replace_last l x) = length l.
Proof. induction l as [|a [|b r] IH]; [reflexivity|reflexivity|]. change (S (length (replace_last (b :: r) x)) = S (length (b :: r))). now rewrite IH. Qed.
Lemma overwrite_length st g : length (fst (overwrite st g)) = length (l_older st) /\ length (snd (overwrite st g)) = length (l_steps st).
Proof.
  unfold overwrite. destruct (l_steps st) as [|a r] eqn:E; cbn [fst snd].
  - now rewrite replace_last_length.
  - split; [reflexivity|]. apply replace_last_length.
Qed.

Section Loop.
Variables (n gf : nat) (sc : nat -> list nat -> Z) (big : Z).
Variable sweep : ggraph -> record -> outcome sweep_st.
Variable op : ggraph -> nat -> nat -> list nat -> res ggraph.
Variable valid : ggraph -> desc -> Prop.
Variable delta : ggraph -> desc -> Z.
Variable mu : ggraph -> nat.
Variable change : ggraph -> nat -> nat -> ggraph -> Prop.
Hypothesis Hbig : 0 <= big.
Hypothesis Hsweep : forall g s rec, good n sc g s -> record_ok sc rec ->
  exists rec' best, sweep g rec = Ret (rec', best) /\ record_ok sc rec' /\ best_ok big (delta g) (valid g) best.
Hypothesis Hstep : forall C s i j T, good n sc C s -> valid C (i, j, T) ->
  exists P D1 C1, op C i j T = Ok P /\ pdag2dag gf P = Some D1 /\ dag2cpdag gf D1 = Ret C1 /\
    good n sc C1 (s + delta C (i, j, T)) /\ (mu C1 < mu C)%nat /\
    exists G G', dag G /\ completed G C /\ change G i j G' /\ completed G' C1 /\ s = dag_score sc G /\ s + delta C (i, j, T) = dag_score sc G'.

Theorem ges_loop_spec fuel : forall st, (mu (l_G st) < fuel)%nat -> good n sc (l_G st) (l_score_new st) -> record_ok sc (l_rec st) ->
  exists st' s us ss, ges_loop fuel gf sweep op st = Ret (st', s) /\ good n sc (l_G st') s /\ record_ok sc (l_rec st') /\
    (forall d, valid (l_G st') d -> 0 <= delta (l_G st') d) /\
    l_updates st' = l_updates st ++ us /\ l_scores st' = l_scores st ++ ss /\
    climbs change sc (l_G st) (map fst us) ss (l_G st') /\ last ss 0 = s /\
    length (l_older st') = length (l_older st) /\ length (l_steps st') = (length (l_steps st) + length us)%nat /\
    (us = [] -> l_older st' = l_older st /\ l_steps st' = l_steps st) /\
    (us <> [] -> exists pre, l_steps st' = pre ++ [l_G st']).
Proof.
  induction fuel as [|f IH]; intros st Hmu Hg Hr; [lia|]. cbn [ges_loop].
  destruct (Hsweep (l_G st) (l_score_new st) (l_rec st) Hg Hr) as (rec & [mn md] & Es & Hr' & Hb). rewrite Es. cbn [obind].
  destruct Hb as (B1 & B2 & B3). cbn [fst snd] in *.
  assert (Stop : (forall d, valid (l_G st) d -> 0 <= delta (l_G st) d) ->
    exists st' s us ss, Ret (mkL (l_G st) (l_older st) (l_steps st) rec (l_score_new st) (l_updates st) (l_scores st ++ [l_score_new st]), l_score_new st) = Ret (st', s) /\
    good n sc (l_G st') s /\ record_ok sc (l_rec st') /\
    (forall d, valid (l_G st') d -> 0 <= delta (l_G st') d) /\
    l_updates st' = l_updates st ++ us /\ l_scores st' = l_scores st ++ ss /\
    climbs change sc (l_G st) (map fst us) ss (l_G st') /\ last ss 0 = s /\
    length (l_older st') = length (l_older st) /\ length (l_steps st') = (length (l_steps st) + length us)%nat /\
    (us = [] -> l_older st' = l_older st /\ l_steps st' = l_steps st) /\
    (us <> [] -> exists pre, l_steps st' = pre ++ [l_G st'])).
  { intros Hv. eexists _, _, [], [l_score_new st]. split; [reflexivity|]. cbn [l_G l_older l_steps l_rec l_updates l_scores].
    rewrite app_nil_r. repeat split; auto.
    - cbn [map]. destruct Hg as (D & Dn & Hd & HC & Es'). rewrite Es'. now constructor 1.
    - congruence. }
  destruct md as [[[i j] T]|].
  - destruct B3 as [Hv Em].
    destruct (Z.leb_spec (l_score_new st - (l_score_new st + mn)) 0) as [L|L].
    + apply Stop. intros d Hd. specialize (B2 d Hd). lia.
    + destruct (Hstep (l_G st) (l_score_new st) i j T Hg Hv) as (P & D1 & C1 & E1 & E2 & E3 & HG1 & Hm & G & G' & Hdg & HG & HA & HG' & S1 & S2).
      rewrite E1. cbn [of_res obind]. rewrite E2. cbn [of_opt obind]. rewrite E3. cbn [obind].
      destruct (overwrite st P) as [older steps] eqn:Ow.
      pose proof (overwrite_length st P) as [O1 O2]. rewrite Ow in O1, O2. cbn [fst snd] in O1, O2.
      set (st1 := mkL C1 older (steps ++ [C1]) rec (l_score_new st + mn) (l_updates st ++ [(i, j, T)]) (l_scores st ++ [l_score_new st])).
      destruct (IH st1) as (st' & s & us & ss & R1 & R2 & R3 & R4 & R5 & R6 & R7 & R8 & R9 & R10 & R11 & R12).
      * cbn [l_G st1]. lia.
      * cbn [l_G l_score_new st1]. now rewrite Em.
      * exact Hr'.
      * exists st', s, ((i, j, T) :: us), (l_score_new st :: ss). split; [exact R1|]. split; [exact R2|]. split; [exact R3|]. split; [exact R4|].
        cbn [l_updates l_scores l_older l_steps st1] in *.
        split; [rewrite R5, <- app_assoc; reflexivity|]. split; [rewrite R6, <- app_assoc; reflexivity|].
        split; [|split; [|split; [|split; [|split]]]].
        -- cbn [map fst].
           rewrite S1. apply climbs_step with G' C1; auto. lia.
        -- destruct ss as [|a ss]; [inversion R7|exact R8].
        -- congruence.
        -- rewrite R10, app_length. cbn [length]. lia.
        -- discriminate.
        -- intros _. destruct us as [|u us]; [|apply R12; discriminate].
           destruct R11 as [_ R11]; [reflexivity|]. exists steps. rewrite R11. inversion R7; subst. change C1 with (l_G st1). congruence.
  - apply Stop. intros d Hd. specialize (B2 d Hd). lia.
Qed.
End Loop.

(** The same loop for a score that need not be score equivalent. *)
Section LoopAny.
Variables (n gf : nat) (sc : nat -> list nat -> Z) (big : Z).
Let sc0 : nat -> list nat -> Z := fun _ _ => 0.
Variable sweep : ggraph -> record -> outcome sweep_st.
Variable op : ggraph -> nat -> nat -> list nat -> res ggraph.
Variable valid : ggraph -> desc -> Prop.
Variable delta : ggraph -> desc -> Z.
Variable mu : ggraph -> nat.
Variable change : ggraph -> nat -> nat -> ggraph -> Prop.
Hypothesis Hbig : 0 <= big.
Hypothesis Hsweep : forall g rec, good n sc0 g 0 -> record_ok sc rec ->
  exists rec' best, sweep g rec = Ret (rec', best) /\ record_ok sc rec' /\ best_ok big (delta g) (valid g) best.
Hypothesis Hstep : forall C i j T, good n sc0 C 0 -> valid C (i, j, T) ->
  exists P D1 C1, op C i j T = Ok P /\ pdag2dag gf P = Some D1 /\ dag2cpdag gf D1 = Ret C1 /\
    good n sc0 C1 0 /\ (mu C1 < mu C)%nat /\
    exists G G', dag G /\ completed G C /\ change G i j G' /\ completed G' C1.

Theorem ges_loop_any fuel : forall st, (mu (l_G st) < fuel)%nat -> good n sc0 (l_G st) 0 -> record_ok sc (l_rec st) ->
  exists st' s us ss, ges_loop fuel gf sweep op st = Ret (st', s) /\ good n sc0 (l_G st') 0 /\ record_ok sc (l_rec st') /\
    (forall d, valid (l_G st') d -> 0 <= delta (l_G st') d) /\
    l_updates st' = l_updates st ++ us /\ l_scores st' = l_scores st ++ ss /\
    walks change (l_G st) (map fst us) (l_G st') /\
    length ss = S (length us) /\ StronglySorted Z.gt ss /\ hd 0 ss = l_score_new st /\ last ss 0 = s /\
    length (l_older st') = length (l_older st) /\ length (l_steps st') = (length (l_steps st) + length us)%nat /\
    (us = [] -> l_older st' = l_older st /\ l_steps st' = l_steps st) /\
    (us <> [] -> exists pre, l_steps st' = pre ++ [l_G st']).
Proof.
  induction fuel as [|f IH]; intros st Hmu Hg Hr; [lia|]. cbn [ges_loop].
  destruct (Hsweep (l_G st) (l_rec st) Hg Hr) as (rec & [mn md] & Es & Hr' & Hb). rewrite Es. cbn [obind].
  destruct Hb as (B1 & B2 & B3). cbn [fst snd] in *.
  assert (Stop : (forall d, valid (l_G st) d -> 0 <= delta (l_G st) d) ->
    exists st' s us ss, Ret (mkL (l_G st) (l_older st) (l_steps st) rec (l_score_new st) (l_updates st) (l_scores st ++ [l_score_new st]), l_score_new st) = Ret (st', s) /\
    good n sc0 (l_G st') 0 /\ record_ok sc (l_rec st') /\
    (forall d, valid (l_G st') d -> 0 <= delta (l_G st') d) /\
    l_updates st' = l_updates st ++ us /\ l_scores st' = l_scores st ++ ss /\
    walks change (l_G st) (map fst us) (l_G st') /\
    length ss = S (length us) /\ StronglySorted Z.gt ss /\ hd 0 ss = l_score_new st /\ last ss 0 = s /\
    length (l_older st') = length (l_older st) /\ length (l_steps st') = (length (l_steps st) + length us)%nat /\
    (us = [] -> l_older st' = l_older st /\ l_steps st' = l_steps st) /\
    (us <> [] -> exists pre, l_steps st' = pre ++ [l_G st'])).
  { intros Hv. eexists _, _, [], [l_score_new st]. split; [reflexivity|]. cbn [l_G l_older l_steps l_rec l_updates l_scores].
    rewrite app_nil_r. repeat split; auto.
    - cbn [map]. destruct Hg as (D & Dn & Hd & HC & _). now constructor 1 with D.
    - constructor; constructor.
    - congruence. }
  destruct md as [[[i j] T]|].
  - destruct B3 as [Hv Em].
    destruct (Z.leb_spec (l_score_new st - (l_score_new st + mn)) 0) as [L|L].
    + apply Stop. intros d Hd. specialize (B2 d Hd). lia.
    + destruct (Hstep (l_G st) i j T Hg Hv) as (P & D1 & C1 & E1 & E2 & E3 & HG1 & Hm & G & G' & Hdg & HG & HA & HG').
      rewrite E1. cbn [of_res obind]. rewrite E2. cbn [of_opt obind]. rewrite E3. cbn [obind].
      destruct (overwrite st P) as [older steps] eqn:Ow.
      pose proof (overwrite_length st P) as [O1 O2]. rewrite Ow in O1, O2. cbn [fst snd] in O1, O2.
      set (st1 := mkL C1 older (steps ++ [C1]) rec (l_score_new st + mn) (l_updates st ++ [(i, j, T)]) (l_scores st ++ [l_score_new st])).
      destruct (IH st1) as (st' & s & us & ss & R1 & R2 & R3 & R4 & R5 & R6 & R7 & W1 & W2 & W3 & R8 & R9 & R10 & R11 & R12).
      * cbn [l_G st1]. lia.
      * exact HG1.
      * exact Hr'.
      * exists st', s, ((i, j, T) :: us), (l_score_new st :: ss). split; [exact R1|]. split; [exact R2|]. split; [exact R3|]. split; [exact R4|].
        cbn [l_updates l_scores l_older l_steps st1] in *.
        split; [rewrite R5, <- app_assoc; reflexivity|]. split; [rewrite R6, <- app_assoc; reflexivity|].
        split; [|split; [|split; [|split; [|split; [|split; [|split; [|split]]]]]]].
        -- cbn [map fst].
           now apply walks_step with G G' C1.
        -- cbn [length]. lia.
        -- constructor; [exact W2|]. cbn [l_score_new st1] in W3. destruct ss as [|a ss]; [discriminate|]. cbn [hd] in W3. subst a.
           apply StronglySorted_inv in W2. constructor; [lia|]. eapply Forall_impl; [|apply W2]. cbn. intros; lia.
        -- reflexivity.
        -- destruct ss as [|a ss]; [discriminate|exact R8].
        -- congruence.
        -- rewrite R10, app_length. cbn [length]. lia.
        -- discriminate.
        -- intros _. destruct us as [|u us]; [|apply R12; discriminate].
           destruct R11 as [_ R11]; [reflexivity|]. exists steps. rewrite R11. inversion R7; subst. change C1 with (l_G st1). congruence.
  - apply Stop. intros d Hd. specialize (B2 d Hd). lia.
Qed.
End LoopAny.
