(** Greedy equivalence search: what the returned record says about the data's score. *)
From Verif Require Import Base EdgeModel EdgeProofs GraphModel GraphSpec GraphProofs RankLib UtilsModel UtilsProofs
  DsepSpec DsepProofs MeekSpec MeekProofs CheckLib PdagModel PdagProofs PdagProps CpdagModel CpdagSpec CpdagProofs CpdagMain CpdagProps
  SkelModel SkelProofs PCModel ExactSpec GESSpec GESTheory GESModel GESProofs GESSweep GESMain GESLoop.
From Coq Require Import Permutation Sorted.
Local Open Scope Z_scope.

Lemma empty_dag n : dag (empty_graph n).
Proof.
  split; [apply empty_wf|]. split.
  - apply (rank_acyclic _ (fun _ => 0%nat)). intros a b H. exfalso. destruct H as (_ & _ & [[H _]|[H _]]); discriminate H.
  - intros i j _ _ H. now cbn in H.
Qed.
Lemma filter_none {A} (f : A -> bool) l : (forall x, In x l -> f x = false) -> filter f l = [].
Proof. induction l as [|a l IH]; intros H; [reflexivity|]. cbn [filter]. rewrite (H a (or_introl eq_refl)). apply IH. intros x Hx. apply H. now right. Qed.
Lemma score_g_empty sc n : score_g sc (empty_graph n) = dag_score sc (empty_graph n).
Proof.
  unfold score_g, dag_score. cbn [gn empty_graph].
  assert (K : forall l a, fold_left (fun s i => s + sc i (get_parents (empty_graph n) i)) l a = a + fold_right Z.add 0 (map (fun v => sc v (parents (empty_graph n) v)) l)).
  { induction l as [|v l IH]; intros a; cbn [fold_left fold_right map]; [lia|]. rewrite IH.
    replace (get_parents (empty_graph n) v) with (parents (empty_graph n) v); [lia|].
    unfold parents, get_parents. rewrite !filter_none; auto. }
  rewrite K. lia.
Qed.

Definition ges_fuel (n : nat) : nat := S (n * n + n + Wt n n).

(** Everything the two loops establish, in one statement. *)
Lemma ges_spec n maxP big sc : set_score sc -> score_equivalent n sc -> 0 <= big ->
  forall fuel gf vf, (ges_fuel n <= fuel)%nat -> (ges_fuel n <= gf)%nat -> (ges_fuel n <= vf)%nat ->
  exists R C0 C1, ges fuel gf vf n maxP big sc = Ret R /\ completed (empty_graph n) C0 /\
    climbs adds sc C0 (map fst (r_update1 R)) (r_scores1 R) C1 /\
    climbs drops sc C1 (map fst (r_update2 R)) (r_scores2 R) (r_G R) /\
    (exists s1, good n sc C1 s1 /\ last (r_scores1 R) 0 = s1) /\ good n sc (r_G R) (r_score R) /\ last (r_scores2 R) 0 = r_score R /\
    (forall d, valid_ins C1 maxP d -> 0 <= delta_ins C1 sc d) /\
    (forall d, valid_del (r_G R) d -> 0 <= delta_del (r_G R) sc d) /\
    length (r_step1 R) = length (r_update1 R) /\ length (r_step2 R) = length (r_update2 R) /\
    (r_update2 R = [] -> r_G R = C1 /\ (r_update1 R <> [] -> exists pre, r_step1 R = pre ++ [r_G R])) /\
    (r_update2 R <> [] -> exists pre, r_step2 R = pre ++ [r_G R]).
Proof.
  intros Hset Heq Hbig fuel gf vf Hf Hgf Hvf. unfold ges_fuel in *. unfold ges.
  assert (Hgf' : (n < gf)%nat) by lia.
  assert (HE : extension (empty_graph n) (empty_graph n)).
  { split; [reflexivity|]. split; [apply empty_dag|]. split; [tauto|]. split; [tauto|]. tauto. }
  destruct (resume n gf sc Heq Hgf' (empty_graph n) (empty_graph n)) as (D1 & C0 & E1 & E2 & HG0 & J0 & HC0); auto.
  { apply dag_pdag, empty_dag. }
  rewrite E1. cbn [of_opt obind]. rewrite E2. cbn [obind].
  pose (stA := mkL C0 [] [] (fun _ => []) (score_g sc (empty_graph n)) [] []). fold stA.
  destruct (ges_loop_spec n gf sc big (fwd_sweep vf maxP big sc) insert_op (fun g => valid_ins g maxP) (fun g => delta_ins g sc) (fun g => (n * n - ecount g)%nat) adds Hbig) with (fuel := fuel) (st := stA)
    as (s1 & z1 & us1 & ss1 & R1 & R2 & R3 & R4 & R5 & R6 & R7 & R8 & R9 & R10 & R11 & R12).
  - intros g s rec Hg Hr. apply fwd_sweep_spec; auto; [eapply good_pdag; eauto|]. rewrite (good_n _ _ _ _ Hg). lia.
  - intros C s i j T Hg Hv. destruct (insert_step n gf sc Hset Heq Hgf' C s maxP i j T Hg Hv) as (P & D & C1 & H1 & H2 & H3 & H4 & H5 & H6).
    exists P, D, C1. repeat (split; [assumption|]). split; [|exact H6].
    pose proof (ecount_le C1) as L. rewrite (good_n _ _ _ _ H4) in L. lia.
  - cbn [l_G stA]. lia.
  - cbn [l_G l_score_new stA]. rewrite score_g_empty. exact HG0.
  - intros j e [].
  - rewrite R1. cbn [obind].
    pose (stB := mkL (l_G s1) (l_steps s1) [] (l_rec s1) z1 [] []). fold stB.
    destruct (ges_loop_spec n gf sc big (bwd_sweep big sc) delete_op valid_del (fun g => delta_del g sc) ecount drops Hbig) with (fuel := fuel) (st := stB)
      as (s2 & z2 & us2 & ss2 & Q1 & Q2 & Q3 & Q4 & Q5 & Q6 & Q7 & Q8 & Q9 & Q10 & Q11 & Q12).
    + intros g s rec Hg Hr. apply bwd_sweep_spec; auto. eapply good_pdag; eauto.
    + intros C s i j T Hg Hv. now apply delete_step.
    + cbn [l_G stB]. pose proof (ecount_le (l_G s1)) as L. rewrite (good_n _ _ _ _ R2) in L. lia.
    + exact R2.
    + exact R3.
    + rewrite Q1. cbn [obind]. eexists _, C0, (l_G s1). split; [reflexivity|]. split; [exact HC0|].
      cbn [r_update1 r_update2 r_step1 r_step2 r_G r_score r_scores1 r_scores2].
      cbn [l_G l_updates l_scores l_older l_steps stA stB app length] in *.
      rewrite R5, R6, Q5, Q6. split; [exact R7|]. split; [exact Q7|]. split; [eauto|]. split; [exact Q2|]. split; [exact Q8|].
      split; [exact R4|]. split; [exact Q4|]. split; [lia|]. split; [lia|]. split; [|exact Q12].
      intros ->. destruct Q11 as [Q11 _]; [reflexivity|]. cbn [map] in Q7. inversion Q7; subst.
      split; [congruence|]. intros N. rewrite Q11. destruct (R12 N) as [pre Hp]. exists pre. congruence.
Qed.

(** C39: on a score that gives equivalent DAGs equal scores, the search terminates, and it is a hill climb over equivalence
    classes: the forward phase starts at the class of the empty graph and every recorded update adds one edge to a member of
    the current class, the backward phase then removes one edge at a time, every step strictly lowers the score, the
    reported graph is the completed graph of a DAG and the reported score is the score of that DAG. *)
Theorem C39_ges_hill_climb n maxP big sc : set_score sc -> score_equivalent n sc -> 0 <= big ->
  exists f0, forall fuel gf vf, (f0 <= fuel)%nat -> (f0 <= gf)%nat -> (f0 <= vf)%nat ->
  exists R C0 C1, ges fuel gf vf n maxP big sc = Ret R /\ completed (empty_graph n) C0 /\
    climbs adds sc C0 (map fst (r_update1 R)) (r_scores1 R) C1 /\
    climbs drops sc C1 (map fst (r_update2 R)) (r_scores2 R) (r_G R) /\
    (exists D, gn D = n /\ dag D /\ completed D (r_G R) /\ r_score R = dag_score sc D) /\
    length (r_step1 R) = length (r_update1 R) /\ length (r_step2 R) = length (r_update2 R).
Proof.
  intros H1 H2 H3. exists (ges_fuel n). intros fuel gf vf F1 F2 F3.
  destruct (ges_spec n maxP big sc H1 H2 H3 fuel gf vf F1 F2 F3) as (R & C0 & C1 & E & HC & K1 & K2 & _ & K3 & _ & _ & _ & L1 & L2 & _).
  exists R, C0, C1. split; [exact E|]. split; [exact HC|]. split; [exact K1|]. split; [exact K2|]. split; [exact K3|]. auto.
Qed.

Lemma completed_members D D' C : dag D -> dag D' -> completed D C -> completed D' C -> equivalent D D'.
Proof.
  intros Hd Hd' HC HC'. split; [rewrite <- (proj1 HC'); apply HC|]. split; [exact Hd|]. split; [exact Hd'|].
  assert (J : forall a b, joined D a b <-> joined D' a b).
  { intros a b. destruct HC as (_ & _ & J1 & _), HC' as (_ & _ & J2 & _). now rewrite <- J1, J2. }
  split; [exact J|].
  assert (K : forall D D', dag D -> dag D' -> completed D C -> completed D' C -> (forall a b, joined D a b <-> joined D' a b) ->
    forall a b c, ucollider D a b c -> ucollider D' a b c).
  { clear. intros D D' Hd Hd' HC HC' J a b c H. apply dag_ucollider in H; [|exact Hd]. destruct H as (H1 & H2 & H3 & H4).
    apply dag_ucollider; [exact Hd'|].
    assert (JC : forall a b, joined C a b <-> joined D a b) by apply HC.
    split; [|split; [|split; [exact H3|now rewrite <- J]]].
    - apply (cl_dir D' C HC' a b); [|apply (equivalent_refl D' Hd')].
      eapply (cl_ucoll D C HC D a b c); eauto using equivalent_refl. now rewrite JC.
    - apply (cl_dir D' C HC' c b); [|apply (equivalent_refl D' Hd')].
      eapply (cl_ucoll D C HC D c b a); eauto using equivalent_refl. rewrite JC. intros X. apply H4. now apply wf_joined_sym; [apply Hd|]. }
  intros a b c. split; [eapply K; eauto|]. eapply K; eauto. intros. now rewrite J.
Qed.

(** One more score than updates, and the scores strictly decrease from the score of the first class to that of the last. *)
Theorem C39_scores_strictly_decrease n (change : ggraph -> nat -> nat -> ggraph -> Prop) sc C us ss E : (forall G x y G', change G x y G' -> dag G' /\ gn G' = gn G) ->
  gn C = n -> score_equivalent n sc -> climbs change sc C us ss E ->
  length ss = S (length us) /\ StronglySorted Z.gt ss /\
  (exists D, dag D /\ completed D C /\ hd 0 ss = dag_score sc D) /\ (exists D, dag D /\ completed D E /\ last ss 0 = dag_score sc D).
Proof.
  intros Hch Hn Heq H. revert Hn. induction H as [C D Hd HC|C G x y G' C' us ss E Hd HC HA HC' Hlt H IH]; intros Hn.
  - split; [reflexivity|]. split; [constructor; constructor|]. split; exists D; auto.
  - destruct (Hch _ _ _ _ HA) as [Hd' Hn'].
    assert (HnC' : gn C' = n) by (rewrite (proj1 HC'), Hn', <- (proj1 HC); exact Hn).
    destruct (IH HnC') as (L & Srt & (D0 & HD0 & HCD0 & Eh) & Last).
    assert (Eq : dag_score sc G' = dag_score sc D0).
    { apply Heq; [rewrite <- (proj1 HC'); exact HnC'|]. eapply completed_members; eauto. }
    split; [cbn [length]; lia|]. split; [|split; [exists G; auto|]].
    + constructor; [exact Srt|]. destruct ss as [|a ss]; [discriminate|]. cbn [hd] in Eh. subst a.
      apply StronglySorted_inv in Srt. constructor; [lia|]. eapply Forall_impl; [|apply Srt]. cbn. intros; lia.
    + destruct ss as [|a ss]; [discriminate|]. exact Last.
Qed.

(** C88: the forward phase stops only at a local optimum: no single edge added to any member of the class it ends in lowers
    the score, as long as the child has at most maxP compelled parents. *)
Theorem C88_forward_local_optimum n maxP big sc fuel gf vf : set_score sc -> score_equivalent n sc -> 0 <= big ->
  (ges_fuel n <= fuel)%nat -> (ges_fuel n <= gf)%nat -> (ges_fuel n <= vf)%nat ->
  exists R C0 C1, ges fuel gf vf n maxP big sc = Ret R /\ completed (empty_graph n) C0 /\
    climbs adds sc C0 (map fst (r_update1 R)) (r_scores1 R) C1 /\ climbs drops sc C1 (map fst (r_update2 R)) (r_scores2 R) (r_G R) /\
    forall G x y G', dag G -> completed G C1 -> adds G x y G' -> Z.of_nat (length (parents C1 y)) <= maxP ->
      dag_score sc G <= dag_score sc G'.
Proof.
  intros H1 H2 H3 F1 F2 F3. assert (Hgf : (n < gf)%nat) by (unfold ges_fuel in F2; lia).
  destruct (ges_spec n maxP big sc H1 H2 H3 fuel gf vf F1 F2 F3) as (R & C0 & C1 & E & HC & K1 & K2 & (s1 & G1 & _) & _ & _ & V1 & _).
  exists R, C0, C1. split; [exact E|]. split; [exact HC|]. split; [exact K1|]. split; [exact K2|].
  intros G x y G' Hd HCG HA Hm. destruct (insert_considered n gf sc H1 Hgf C1 s1 maxP G x y G' G1 HCG Hd HA Hm) as (T & Hv & Ed).
  specialize (V1 _ Hv). lia.
Qed.

(** C89: the returned class is a local optimum for deletions: no single edge removed from any of its members lowers the
    score. *)
Theorem C89_backward_local_optimum n maxP big sc fuel gf vf : set_score sc -> score_equivalent n sc -> 0 <= big ->
  (ges_fuel n <= fuel)%nat -> (ges_fuel n <= gf)%nat -> (ges_fuel n <= vf)%nat ->
  exists R, ges fuel gf vf n maxP big sc = Ret R /\
    forall G x y G', dag G -> completed G (r_G R) -> drops G x y G' -> dag_score sc G <= dag_score sc G'.
Proof.
  intros H1 H2 H3 F1 F2 F3. assert (Hgf : (n < gf)%nat) by (unfold ges_fuel in F2; lia).
  destruct (ges_spec n maxP big sc H1 H2 H3 fuel gf vf F1 F2 F3) as (R & C0 & C1 & E & HC & K1 & K2 & _ & G1 & _ & _ & V1 & _).
  exists R. split; [exact E|].
  intros G x y G' Hd HCG HA. destruct (delete_considered n gf sc H1 Hgf (r_G R) (r_score R) G x y G' G1 HCG Hd HA) as (T & Hv & Ed).
  specialize (V1 _ Hv). lia.
Qed.

(* ---------- consequences for consistent scores ---------- *)
Lemma parents_add G x y G' : dag G -> adds G x y G' -> forall p, In p (parents G' y) <-> In p (x :: parents G y).
Proof.
  intros Hd (Hn & Hd' & Hx & Hy & NJ & He) p. rewrite in_parents by (auto; lia). cbn [In]. rewrite in_parents by auto. rewrite He.
  split; [intros [H|[-> _]]; auto|intros [<-|H]; auto].
Qed.
Lemma score_add sc G x y G' : set_score sc -> dag G -> adds G x y G' ->
  dag_score sc G' - dag_score sc G = sc y (x :: parents G y) - sc y (parents G y).
Proof.
  intros Hs Hd HA. rewrite (adds_score sc G x y G' Hd HA). replace (sc y (parents G' y)) with (sc y (x :: parents G y)); [lia|].
  apply sc_same; auto using nodup_parents.
  - constructor; [|apply nodup_parents]. pose proof HA as (_ & _ & _ & Hy & NJ & _). rewrite in_parents by auto. intros K. apply NJ. now apply directed_joined.
  - intros p. symmetry. apply (parents_add G x y G' Hd HA).
Qed.

Lemma climbs_n sc C us ss E : climbs adds sc C us ss E -> gn E = gn C.
Proof.
  induction 1 as [|C G x y G' C' us ss E Hd HC HA HC' Hlt H IH]; [reflexivity|].
  rewrite IH, (proj1 HC'), (proj1 HA), <- (proj1 HC). reflexivity.
Qed.

(** C90: if the score improves exactly when the new parent depends on the child given the other parents, every member DAG
    of the class the unrestricted forward phase ends in satisfies the local Markov property: a variable is independent, given
    its parents, of every variable that is neither a parent nor a descendant. *)
Theorem C90_forward_local_markov n maxP big sc (dep : nat -> nat -> list nat -> Prop) fuel gf vf :
  set_score sc -> score_equivalent n sc -> 0 <= big -> Z.of_nat n <= maxP ->
  (forall x y P, (x < n)%nat -> (y < n)%nat -> ~ In x P -> ~ In y P -> x <> y -> (sc y (x :: P) < sc y P <-> dep x y P)) ->
  (ges_fuel n <= fuel)%nat -> (ges_fuel n <= gf)%nat -> (ges_fuel n <= vf)%nat ->
  exists R C0 C1, ges fuel gf vf n maxP big sc = Ret R /\ completed (empty_graph n) C0 /\
    climbs adds sc C0 (map fst (r_update1 R)) (r_scores1 R) C1 /\ climbs drops sc C1 (map fst (r_update2 R)) (r_scores2 R) (r_G R) /\
    forall G x y, dag G -> completed G C1 -> (x < n)%nat -> (y < n)%nat -> x <> y ->
      ~ directed G x y -> ~ reach (directed G) y x -> ~ dep x y (parents G y).
Proof.
  intros H1 H2 H3 Hm Hdep F1 F2 F3.
  destruct (C88_forward_local_optimum n maxP big sc fuel gf vf H1 H2 H3 F1 F2 F3) as (R & C0 & C1 & E & HC & K1 & K2 & K3).
  exists R, C0, C1. split; [exact E|]. split; [exact HC|]. split; [exact K1|]. split; [exact K2|].
  intros G x y Hd HCG Hx Hy N ND NR Dep.
  assert (Gn : gn G = n).
  { rewrite <- (proj1 HCG), (climbs_n _ _ _ _ _ K1). apply HC. }
  assert (NJ : ~ joined G x y).
  { intros J. apply dag_joined in J; [|exact Hd]. destruct J as [J|J]; [contradiction|]. apply NR. apply reach_step with x; [exact J|constructor]. }
  destruct (adds_exists G x y) as (G' & HA); auto; try lia.
  assert (L : dag_score sc G <= dag_score sc G').
  { apply (K3 G x y G' Hd HCG HA). unfold parents. pose proof (filter_length_le (fun p => gm C1 y p =? 1) (seq 0 (gn C1))) as L. rewrite seq_length in L.
    rewrite (proj1 HCG) in L at 2. lia. }
  pose proof (score_add sc G x y G' H1 Hd HA) as Es.
  apply Hdep in Dep; auto; [lia| |].
  - rewrite in_parents by (auto; lia). exact ND.
  - rewrite in_parents by (auto; lia). apply dag_irr. exact Hd.
Qed.

(** A step of the backward phase never removes an edge that every set of other parents supports. *)
Lemma climbs_keeps sc x y C us ss E : set_score sc ->
  (forall P, ~ In x P -> ~ In y P -> sc y (x :: P) < sc y P) -> (forall P, ~ In x P -> ~ In y P -> sc x (y :: P) < sc x P) ->
  climbs drops sc C us ss E -> joined C x y -> joined E x y.
Proof.
  intros Hs Hx Hy H. induction H as [C D Hd HC|C G u v G' C' us ss E Hd HC HA HC' Hlt H IH]; intros J; [exact J|].
  apply IH. apply HC'. assert (JG : joined G x y) by (destruct HC as (_ & _ & K & _); now apply K).
  pose proof HA as (Hn & Hd' & Huv & He).
  assert (Es : dag_score sc G = dag_score sc G' + (sc v (u :: parents G' v) - sc v (parents G' v))).
  { rewrite (drops_score sc G u v G' Hd HA). replace (sc v (u :: parents G' v)) with (sc v (parents G v)); [lia|].
    destruct Huv as (Hu & Hv & _).
    apply sc_same; auto using nodup_parents.
    - constructor; [|apply nodup_parents]. rewrite in_parents by (auto; lia). rewrite He. tauto.
    - intros p. cbn [In]. rewrite !in_parents by (auto; lia). rewrite He. destruct HA as (_ & _ & K & _).
      destruct (Nat.eq_dec u p) as [->|N]; [tauto|]. split; [intros Hp; right; split; [exact Hp|]; intros [Q _]; congruence|]. tauto. }
  assert (Hvl : (v < gn G')%nat) by (rewrite Hn; apply Huv).
  assert (NP : ~ In u (parents G' v)) by (rewrite in_parents by auto; rewrite He; tauto).
  assert (NP' : ~ In v (parents G' v)) by (rewrite in_parents by auto; now apply dag_irr).
  apply dag_joined; [exact Hd'|]. rewrite !He. apply dag_joined in JG; [|exact Hd].
  destruct JG as [JG|JG].
  - left. split; [exact JG|]. intros [-> ->]. specialize (Hx _ NP NP'). lia.
  - right. split; [exact JG|]. intros [-> ->]. specialize (Hy _ NP' NP). lia.
Qed.

(** C91: a pair whose score improves whatever the other parents are is adjacent in the returned graph. *)
Theorem C91_strong_adjacency_found n maxP big sc fuel gf vf x y :
  set_score sc -> score_equivalent n sc -> 0 <= big -> Z.of_nat n <= maxP ->
  (x < n)%nat -> (y < n)%nat -> x <> y ->
  (forall P, ~ In x P -> ~ In y P -> sc y (x :: P) < sc y P) -> (forall P, ~ In x P -> ~ In y P -> sc x (y :: P) < sc x P) ->
  (ges_fuel n <= fuel)%nat -> (ges_fuel n <= gf)%nat -> (ges_fuel n <= vf)%nat ->
  exists R, ges fuel gf vf n maxP big sc = Ret R /\ joined (r_G R) x y.
Proof.
  intros H1 H2 H3 Hm Hx Hy N Sx Sy F1 F2 F3. assert (Hgf : (n < gf)%nat) by (unfold ges_fuel in F2; lia).
  destruct (ges_spec n maxP big sc H1 H2 H3 fuel gf vf F1 F2 F3) as (R & C0 & C1 & E & HC & K1 & K2 & (s1 & G1 & _) & _ & _ & V1 & _).
  exists R. split; [exact E|]. eapply climbs_keeps; eauto.
  destruct (joined_dec C1 x y) as [J|NJ]; [exact J|]. exfalso.
  pose proof G1 as (G & Gn & Hd & HCG & _).
  assert (NJG : ~ joined G x y) by (destruct HCG as (_ & _ & K & _); now rewrite <- K).
  assert (NJG' : ~ joined G y x) by (intros J; apply NJG; now apply wf_joined_sym; [apply Hd|]).
  assert (Any : forall a b G', (a = x /\ b = y) \/ (a = y /\ b = x) -> adds G a b G' -> dag_score sc G <= dag_score sc G').
  { intros a b G' _ HA. destruct (insert_considered n gf sc H1 Hgf C1 s1 maxP G a b G') as (T & Hv & Ed); auto.
    - unfold paj. pose proof (filter_length_le (fun k => gm C1 b k =? 1) (seq 0 (gn C1))) as L. rewrite seq_length in L.
      rewrite (proj1 HCG) in L at 2. lia.
    - specialize (V1 _ Hv). lia. }
  assert (Pn : forall a b, (b < n)%nat -> In a (parents G b) -> joined G a b).
  { intros a b Hb Ha. rewrite in_parents in Ha by (auto; lia). now apply directed_joined. }
  assert (B : ~ reach (directed G) x y -> False).
  { intros NR. destruct (adds_exists G y x) as (G' & HA); auto; try lia.
    pose proof (Any y x G' (or_intror (conj eq_refl eq_refl)) HA) as L. pose proof (score_add sc G y x G' H1 Hd HA) as Es.
    apply Z.lt_irrefl with (dag_score sc G). enough (sc x (y :: parents G x) < sc x (parents G x)) by lia.
    apply Sy; [rewrite in_parents by (auto; lia); now apply dag_irr|]. intros K. apply NJG'. now apply Pn. }
  assert (B' : ~ reach (directed G) y x -> False).
  { intros NR. destruct (adds_exists G x y) as (G' & HA); auto; try lia.
    pose proof (Any x y G' (or_introl (conj eq_refl eq_refl)) HA) as L. pose proof (score_add sc G x y G' H1 Hd HA) as Es.
    apply Z.lt_irrefl with (dag_score sc G). enough (sc y (x :: parents G y) < sc y (parents G y)) by lia.
    apply Sx; [intros K; apply NJG; now apply Pn|]. rewrite in_parents by (auto; lia). now apply dag_irr. }
  apply B. intros RX. apply B'. intros RY. inversion RX as [|? b ? Hb Rb]; subst; [congruence|].
  pose proof Hd as (_ & Ac & Dg). apply (Ac x). exists b. split; [now apply dag_dedge|].
  apply reach_trans with y; [|]; eapply reach_mono; try eassumption; intros ? ? K; now apply dag_dedge.
Qed.

(* ---------- scores that are not score equivalent ---------- *)
Lemma zero_sets : set_score (fun _ _ => 0). Proof. now intros i P P' _. Qed.
Lemma zero_equiv n : score_equivalent n (fun _ _ => 0).
Proof. intros D D' _ (Hn & _). unfold dag_score. rewrite Hn. reflexivity. Qed.

(** C92: whatever the score, the search terminates, it walks from class to class by single-edge changes, the returned graph is
    the completed graph of a DAG, and the running score decreases strictly from the score of the empty graph to the reported
    score. *)
Theorem C92_ges_any_score n maxP big sc : set_score sc -> 0 <= big ->
  exists f0, forall fuel gf vf, (f0 <= fuel)%nat -> (f0 <= gf)%nat -> (f0 <= vf)%nat ->
  exists R C0 C1, ges fuel gf vf n maxP big sc = Ret R /\ completed (empty_graph n) C0 /\
    walks adds C0 (map fst (r_update1 R)) C1 /\ walks drops C1 (map fst (r_update2 R)) (r_G R) /\
    (exists D, gn D = n /\ dag D /\ completed D (r_G R)) /\
    length (r_scores1 R) = S (length (r_update1 R)) /\ length (r_scores2 R) = S (length (r_update2 R)) /\
    StronglySorted Z.gt (r_scores1 R) /\ StronglySorted Z.gt (r_scores2 R) /\
    hd 0 (r_scores1 R) = dag_score sc (empty_graph n) /\ hd 0 (r_scores2 R) = last (r_scores1 R) 0 /\ last (r_scores2 R) 0 = r_score R.
Proof.
  intros Hset Hbig. exists (ges_fuel n). intros fuel gf vf Hf Hgf Hvf. unfold ges_fuel in *. unfold ges.
  pose proof (zero_equiv n) as Heq. pose proof zero_sets as Hz.
  assert (Hgf' : (n < gf)%nat) by lia.
  assert (HE : extension (empty_graph n) (empty_graph n)).
  { split; [reflexivity|]. split; [apply empty_dag|]. split; [tauto|]. split; [tauto|]. tauto. }
  assert (Z0 : forall D, dag_score (fun _ _ => 0) D = 0).
  { intros D. unfold dag_score. induction (seq 0 (gn D)) as [|v l IH]; [reflexivity|]. cbn [map fold_right]. lia. }
  destruct (resume n gf (fun _ _ => 0) Heq Hgf' (empty_graph n) (empty_graph n)) as (D1 & C0 & E1 & E2 & HG0 & J0 & HC0); auto.
  { apply dag_pdag, empty_dag. }
  rewrite Z0 in HG0.
  rewrite E1. cbn [of_opt obind]. rewrite E2. cbn [obind].
  pose (stA := mkL C0 [] [] (fun _ => []) (score_g sc (empty_graph n)) [] []). fold stA.
  assert (Dz : forall g d, delta_ins g (fun _ _ => 0) d = 0) by (now intros g [[i j] T]).
  assert (Dz' : forall g d, delta_del g (fun _ _ => 0) d = 0) by (now intros g [[i j] T]).
  destruct (ges_loop_any n gf sc big (fwd_sweep vf maxP big sc) insert_op (fun g => valid_ins g maxP) (fun g => delta_ins g sc) (fun g => (n * n - ecount g)%nat) adds Hbig) with (fuel := fuel) (st := stA)
    as (s1 & z1 & us1 & ss1 & R1 & R2 & R3 & R4 & R5 & R6 & R7 & A1 & A2 & A3 & A4 & R9 & R10 & R11 & R12).
  - intros g rec Hg Hr. apply fwd_sweep_spec; auto; [eapply good_pdag; eauto|]. rewrite (good_n _ _ _ _ Hg). lia.
  - intros C i j T Hg Hv. destruct (insert_step n gf (fun _ _ => 0) Hz Heq Hgf' C 0 maxP i j T Hg Hv) as (P & D & C1 & H1 & H2 & H3 & H4 & H5 & G & G' & H6 & H7 & H8 & H9 & _).
    exists P, D, C1. rewrite Dz in H4. repeat (split; [assumption|]). split; [|eauto 8].
    pose proof (ecount_le C1) as L. rewrite (good_n _ _ _ _ H4) in L. lia.
  - cbn [l_G stA]. lia.
  - exact HG0.
  - intros j e [].
  - rewrite R1. cbn [obind].
    pose (stB := mkL (l_G s1) (l_steps s1) [] (l_rec s1) z1 [] []). fold stB.
    destruct (ges_loop_any n gf sc big (bwd_sweep big sc) delete_op valid_del (fun g => delta_del g sc) ecount drops Hbig) with (fuel := fuel) (st := stB)
      as (s2 & z2 & us2 & ss2 & Q1 & Q2 & Q3 & Q4 & Q5 & Q6 & Q7 & B1 & B2 & B3 & B4 & Q9 & Q10 & Q11 & Q12).
    + intros g rec Hg Hr. apply bwd_sweep_spec; auto. eapply good_pdag; eauto.
    + intros C i j T Hg Hv. destruct (delete_step n gf (fun _ _ => 0) Hz Heq Hgf' C 0 i j T Hg Hv) as (P & D & C1 & H1 & H2 & H3 & H4 & H5 & G & G' & H6 & H7 & H8 & H9 & _).
      exists P, D, C1. rewrite Dz' in H4. repeat (split; [assumption|]). eauto 8.
    + cbn [l_G stB]. pose proof (ecount_le (l_G s1)) as L. rewrite (good_n _ _ _ _ R2) in L. lia.
    + exact R2.
    + exact R3.
    + rewrite Q1. cbn [obind]. eexists _, C0, (l_G s1). split; [reflexivity|]. split; [exact HC0|].
      cbn [r_update1 r_update2 r_step1 r_step2 r_G r_score r_scores1 r_scores2].
      cbn [l_G l_updates l_scores l_older l_steps l_score_new stA stB app length] in *.
      rewrite R5, R6, Q5, Q6. split; [exact R7|]. split; [exact Q7|].
      split; [destruct Q2 as (D & H1 & H2 & H3 & _); eauto|].
      repeat (split; [assumption|]). split; [rewrite A3; apply score_g_empty|]. split; [congruence|exact B4].
Qed.

(* ---------- a family of score equivalent scores ---------- *)
(** The score of a DAG is the sum of a symmetric weight over its edges. *)
Definition wsc (w : nat -> nat -> Z) (v : nat) (P : list nat) : Z := fold_right Z.add 0 (map (fun p => w p v) P).
Lemma sum_perm l m : Permutation l m -> fold_right Z.add 0 l = fold_right Z.add 0 m.
Proof. induction 1; cbn [fold_right]; lia. Qed.
Lemma wsc_sets w : set_score (wsc w).
Proof. intros i P P' H. apply sum_perm. now apply Permutation_map. Qed.
Definition dsum (h : nat -> nat -> Z) (l m : list nat) : Z := fold_right Z.add 0 (map (fun a => fold_right Z.add 0 (map (h a) m)) l).
Lemma sum_add {A} (f g : A -> Z) l : fold_right Z.add 0 (map (fun x => f x + g x) l) = fold_right Z.add 0 (map f l) + fold_right Z.add 0 (map g l).
Proof. induction l as [|a l IH]; cbn [map fold_right]; lia. Qed.
Lemma dsum_swap h l m : dsum h l m = dsum (fun a b => h b a) m l.
Proof.
  unfold dsum. induction l as [|a l IH]; cbn [map fold_right].
  - induction m as [|b m IHm]; cbn [map fold_right]; lia.
  - rewrite IH. rewrite <- (sum_add (h a) (fun b => fold_right Z.add 0 (map (fun a0 => h a0 b) l))). reflexivity.
Qed.
Lemma dsum_add f g l m : dsum (fun a b => f a b + g a b) l m = dsum f l m + dsum g l m.
Proof.
  unfold dsum. rewrite <- sum_add. f_equal. apply map_ext. intros a. apply sum_add.
Qed.
Lemma dsum_ext f g l m : (forall a b, In a l -> In b m -> f a b = g a b) -> dsum f l m = dsum g l m.
Proof. intros H. unfold dsum. f_equal. apply map_ext_in. intros a Ha. f_equal. apply map_ext_in. auto. Qed.
Lemma sum_filter {A} (f : A -> Z) (c : A -> bool) l : fold_right Z.add 0 (map f (filter c l)) = fold_right Z.add 0 (map (fun x => if c x then f x else 0) l).
Proof. induction l as [|a l IH]; cbn [map filter fold_right]; [reflexivity|]. destruct (c a); cbn [map fold_right]; lia. Qed.
Lemma wsc_dsum w D : dag_score (wsc w) D = dsum (fun v p => if gm D v p =? 1 then w p v else 0) (seq 0 (gn D)) (seq 0 (gn D)).
Proof. unfold dag_score, dsum, wsc, parents. f_equal. apply map_ext. intros v. apply sum_filter. Qed.
Lemma wsc_equiv w n : (forall a b, w a b = w b a) -> score_equivalent n (wsc w).
Proof.
  intros Hw D D' Hn HE. pose proof HE as (Hn' & Hd & Hd' & J & _).
  assert (K : forall G, dag G -> 2 * dag_score (wsc w) G = dsum (fun v p => if gm G v p =? 0 then 0 else w p v) (seq 0 (gn G)) (seq 0 (gn G))).
  { clear -Hw. intros G (_ & _ & Hk). rewrite wsc_dsum.
    rewrite <- Z.add_diag. rewrite (dsum_swap _ (seq 0 (gn G)) (seq 0 (gn G))) at 2. rewrite <- dsum_add. apply dsum_ext.
    intros a b Ha Hb. apply in_seq0 in Ha, Hb. destruct (Z.eqb_spec (gm G a b) 0) as [E|N].
    - assert (gm G b a = 0). { destruct (Z.eq_dec (gm G b a) 0); [assumption|]. destruct (Hk b a Hb Ha n) as [[_ Q]|[_ Q]]; lia. }
      rewrite E, H. reflexivity.
    - destruct (Hk a b Ha Hb N) as [[Q1 Q2]|[Q1 Q2]]; rewrite Q1, Q2; cbn [Z.eqb Pos.eqb]; rewrite ?(Hw a b); lia. }
  enough (2 * dag_score (wsc w) D = 2 * dag_score (wsc w) D') by lia. rewrite !K, Hn' by auto. apply dsum_ext.
  intros a b Ha Hb. apply in_seq0 in Ha, Hb. specialize (J a b). unfold joined in J. rewrite Hn' in J.
  destruct (Z.eqb_spec (gm D a b) 0) as [E|N], (Z.eqb_spec (gm D' a b) 0) as [E'|N']; try reflexivity; tauto.
Qed.

(* ---------- concrete runs ---------- *)
Definition w3 (a b : nat) : Z :=
  match a, b with 0%nat, 1%nat | 1%nat, 0%nat => -3 | 1%nat, 2%nat | 2%nat, 1%nat => -2 | _, _ => 1 end.
Lemma w3_sym a b : w3 a b = w3 b a.
Proof. destruct a as [|[|[|a]]], b as [|[|[|b]]]; reflexivity. Qed.
Definition out {B} (d : B) (o : outcome ges_record) (f : ges_record -> B) : B := match o with Ret R => f R | _ => d end.
Definition rows (n : nat) (g : ggraph) : list (list Z) := map (fun i => map (gm g i) (seq 0 n)) (seq 0 n).
(** The hypotheses of C39, C88 and C89 are met by a score with weights of both signs, and the run takes two steps. *)
Example ges_chain : set_score (wsc w3) /\ score_equivalent 3 (wsc w3) /\
  let o := ges (ges_fuel 3) (ges_fuel 3) (ges_fuel 3) 3 3 10000000 (wsc w3) in
  out [] o (fun R => map fst (r_update1 R)) = [(0, 1)%nat; (1, 2)%nat] /\ out [] o r_scores1 = [0; -3; -5] /\
  out [] o (fun R => rows 3 (r_G R)) = [[0; -1; 0]; [-1; 0; -1]; [0; -1; 0]] /\ out 0 o r_score = -5.
Proof. split; [apply wsc_sets|]. split; [apply wsc_equiv, w3_sym|]. vm_compute. auto. Qed.
(** The hypotheses of C90 are met with the dependence "the weight is negative", those of C91 by the pair 0, 1. *)
Example ges_chain_dep : (forall x y P, (x < 3)%nat -> (y < 3)%nat -> ~ In x P -> ~ In y P -> x <> y -> (wsc w3 y (x :: P) < wsc w3 y P <-> w3 x y < 0)) /\
  (forall P, wsc w3 1 (0%nat :: P) < wsc w3 1 P) /\ (forall P, wsc w3 0 (1%nat :: P) < wsc w3 0 P).
Proof.
  assert (K : forall x y P, wsc w3 y (x :: P) = w3 x y + wsc w3 y P) by reflexivity.
  split; [intros; rewrite K; lia|]. split; intros P; rewrite K; cbn [w3]; lia.
Qed.

(** C93 (does not hold): maxP bounds the number of parents in the returned class.  The test counts compelled parents only,
    so with maxP = 0 the search returns a complete graph on three variables, and every DAG of its class has a variable with
    more than maxP parents. *)
Theorem C93_maxP_not_respected_refuted : exists n maxP sc R, set_score sc /\ score_equivalent n sc /\
  ges (ges_fuel n) (ges_fuel n) (ges_fuel n) n maxP 10000000 sc = Ret R /\
  forall D, dag D -> completed D (r_G R) -> exists v, (v < n)%nat /\ maxP < Z.of_nat (length (parents D v)).
Proof.
  destruct (ges_spec 3 0 10000000 (wsc (fun _ _ => -1)) (wsc_sets _) (wsc_equiv (fun _ _ => -1) 3 (fun a b => eq_refl)) ltac:(lia) (ges_fuel 3) (ges_fuel 3) (ges_fuel 3))
    as (R & C0 & C1 & E & _ & _ & _ & _ & (D0 & Dn & _ & Hc0 & _) & _); try lia.
  exists 3%nat, 0, (wsc (fun _ _ => -1)), R. split; [apply wsc_sets|]. split; [now apply wsc_equiv|]. split; [exact E|].
  intros D Hd HC.
  assert (Gn : gn (r_G R) = 3%nat) by (rewrite (proj1 Hc0); exact Dn).
  assert (M : gm (r_G R) 0%nat 1%nat = -1).
  { change (gm (r_G R) 0%nat 1%nat) with (out 0 (Ret R) (fun R => gm (r_G R) 0%nat 1%nat)). rewrite <- E. vm_compute. reflexivity. }
  assert (J : joined D 0%nat 1%nat) by (destruct HC as (_ & _ & K & _); apply K; split; [lia|]; split; [lia|]; lia).
  assert (Dn' : gn D = 3%nat) by (rewrite <- (proj1 HC); exact Gn).
  apply dag_joined in J; [|exact Hd].
  assert (P : forall a b, (b < 3)%nat -> directed D a b -> 0 < Z.of_nat (length (parents D b))).
  { intros a b Hb Hab. apply in_parents in Hab; auto; [|lia]. destruct (parents D b); [destruct Hab|cbn [length]; lia]. }
  destruct J as [J|J]; [exists 1%nat|exists 0%nat]; (split; [lia|]); eapply P; eauto; lia.
Qed.

(** C94 (does not hold): Record['G_step1'] holds the class reached after each update.  insert changes the recorded graph
    object in place: after a run with the updates (0, 1) and (1, 2) the first recorded graph joins 1 and 2. *)
Theorem C94_recorded_steps_refuted : exists n sc R g1 C0, set_score sc /\ score_equivalent n sc /\
  ges (ges_fuel n) (ges_fuel n) (ges_fuel n) n (Z.of_nat n) 10000000 sc = Ret R /\ completed (empty_graph n) C0 /\
  length (r_update1 R) = 2%nat /\ length (r_step1 R) = 2%nat /\ nth_error (r_step1 R) 0 = Some g1 /\
  forall C, walks adds C0 (firstn 1 (map fst (r_update1 R))) C -> ~ forall a b, joined C a b <-> joined g1 a b.
Proof.
  destruct (ges_spec 3 3 10000000 (wsc w3) (wsc_sets _) (wsc_equiv _ 3 w3_sym) ltac:(lia) (ges_fuel 3) (ges_fuel 3) (ges_fuel 3))
    as (R & C0 & C1 & E & H0 & _ & _ & _ & _ & _ & _ & _ & L1 & _); try lia.
  assert (U : map fst (r_update1 R) = [(0, 1)%nat; (1, 2)%nat]).
  { change (map fst (r_update1 R)) with (out [] (Ret R) (fun R => map fst (r_update1 R))). rewrite <- E. vm_compute. reflexivity. }
  assert (LU : length (r_update1 R) = 2%nat) by (pose proof (f_equal (@length _) U) as LU; rewrite map_length in LU; exact LU).
  assert (SG : match nth_error (r_step1 R) 0 with Some g => ((gn g =? 3)%nat, gm g 1%nat 2%nat) | None => (false, 0) end = (true, -1)).
  { change (out (false, 0) (Ret R) (fun R => match nth_error (r_step1 R) 0 with Some g => ((gn g =? 3)%nat, gm g 1%nat 2%nat) | None => (false, 0) end) = (true, -1)).
    rewrite <- E. vm_compute. reflexivity. }
  destruct (nth_error (r_step1 R) 0) as [g1|] eqn:Eg; [|discriminate].
  exists 3%nat, (wsc w3), R, g1, C0. split; [apply wsc_sets|]. split; [apply wsc_equiv, w3_sym|]. split; [exact E|]. split; [exact H0|].
  split; [exact LU|]. split; [lia|]. split; [exact Eg|]. intros C HW HJ. rewrite U in HW. cbn [firstn] in HW.
  assert (G3 : gn g1 = 3%nat) by (apply Nat.eqb_eq; congruence). assert (G12 : gm g1 1%nat 2%nat = -1) by congruence.
  assert (J : joined C 1%nat 2%nat) by (apply HJ; split; [lia|]; split; [lia|lia]).
  inversion HW as [|? G x y G' C' us E' Hd HC HA HC' HW']; subst. inversion HW' as [? D'' Hd'' HC''|]; subst.
  assert (JG : joined G' 1%nat 2%nat) by (destruct HC' as (_ & _ & K & _); now apply K).
  destruct HA as (_ & Hd' & _ & _ & _ & Ae). apply dag_joined in JG; [|exact Hd']. rewrite !Ae in JG.
  assert (NG : forall a b, ~ directed G a b).
  { intros a b Hab. apply directed_joined in Hab. destruct HC as (_ & _ & K & _), H0 as (_ & _ & K0 & _).
    apply K, K0 in Hab. destruct Hab as (_ & _ & Q). now cbn in Q. }
  destruct JG as [[K|[K _]]|[K|[K _]]]; try (now apply NG in K); discriminate K.
Qed.

(** C95 (does not hold): Record['score'] is the score of the DAG that pdag2dag makes of Record['G'].  Scores that depend on the
    direction of a single edge, as cross-validated likelihoods do, separate the two. *)
Definition sc_dir (v : nat) (P : list nat) : Z := match v, P with 0%nat, [1%nat] => -5 | 1%nat, [0%nat] => -10 | _, _ => 0 end.
Theorem C95_reported_score_refuted : exists n sc R D, set_score sc /\
  ges (ges_fuel n) (ges_fuel n) (ges_fuel n) n (Z.of_nat n) 10000000 sc = Ret R /\ pdag2dag (ges_fuel n) (r_G R) = Some D /\
  dag_score sc D <> r_score R.
Proof.
  assert (Hs : set_score sc_dir).
  { intros i P P' H. destruct P as [|p [|q P]].
    - now apply Permutation_nil in H; subst.
    - now apply Permutation_length_1_inv in H; subst.
    - pose proof (Permutation_length H) as L. destruct P' as [|p' [|q' P']]; try discriminate L.
      destruct i as [|[|i]], p as [|[|p]], p' as [|[|p']]; reflexivity. }
  destruct (ges (ges_fuel 2) (ges_fuel 2) (ges_fuel 2) 2 2 10000000 sc_dir) as [R| |] eqn:E; [|exfalso..].
  - destruct (pdag2dag (ges_fuel 2) (r_G R)) as [D|] eqn:ED.
    + exists 2%nat, sc_dir, R, D. split; [exact Hs|]. split; [exact E|]. split; [exact ED|].
      assert (K : out 0 (Ret R) r_score = -10) by (rewrite <- E; vm_compute; reflexivity). cbn [out] in K.
      assert (K2 : out 0 (Ret R) (fun R => match pdag2dag (ges_fuel 2) (r_G R) with Some D => dag_score sc_dir D | None => 0 end) = -5) by (rewrite <- E; vm_compute; reflexivity).
      cbn [out] in K2. rewrite ED in K2. lia.
    + exfalso. assert (K2 : out false (Ret R) (fun R => match pdag2dag (ges_fuel 2) (r_G R) with Some D => true | None => false end) = true) by (rewrite <- E; vm_compute; reflexivity).
      cbn [out] in K2. rewrite ED in K2. discriminate.
  - assert (K : out false (ges (ges_fuel 2) (ges_fuel 2) (ges_fuel 2) 2 2 10000000 sc_dir) (fun _ => true) = true) by (vm_compute; reflexivity). rewrite E in K. discriminate.
  - assert (K : out false (ges (ges_fuel 2) (ges_fuel 2) (ges_fuel 2) 2 2 10000000 sc_dir) (fun _ => true) = true) by (vm_compute; reflexivity). rewrite E in K. discriminate.
Qed.
