(** The choice of the operator: one sweep over all pairs and subsets finds the valid operator of least score. *)
From Verif Require Import Base EdgeModel EdgeProofs GraphModel GraphSpec GraphProofs UtilsModel UtilsProofs
  DsepSpec MeekSpec PdagProofs SkelModel SkelProofs PCModel ExactSpec GESSpec GESTheory GESModel GESProofs.
Local Open Scope Z_scope.

Lemma fold_prefix {A B} (f : A -> B -> A) (Inv : list B -> A -> Prop) l a :
  Inv [] a -> (forall pre x post a, l = pre ++ x :: post -> Inv pre a -> Inv (pre ++ [x]) (f a x)) -> Inv l (fold_left f l a).
Proof.
  intros H0 HS.
  enough (Gen : forall post pre a, l = pre ++ post -> Inv pre a -> Inv l (fold_left f post a)) by (apply (Gen l []); auto).
  induction post as [|x post IH]; intros pre b E Hb; [cbn; rewrite app_nil_r in E; now subst|].
  cbn [fold_left]. apply (IH (pre ++ [x])); [rewrite <- app_assoc; exact E|]. eapply HS; eauto.
Qed.

(* ---------- the best operator so far ---------- *)
Definition best_ok (big : Z) (delta : desc -> Z) (seen : desc -> Prop) (best : Z * option desc) : Prop :=
  fst best <= big /\ (forall d, seen d -> fst best <= delta d) /\
  match snd best with None => fst best = big | Some d => seen d /\ fst best = delta d end.
Lemma best_ok_ext big delta (s1 s2 : desc -> Prop) b : (forall d, s1 d <-> s2 d) -> best_ok big delta s1 b -> best_ok big delta s2 b.
Proof.
  intros H (H1 & H2 & H3). split; [exact H1|]. split; [intros d Hd; apply H2; now apply H|].
  destruct (snd b) as [d|]; [|exact H3]. split; [apply H|]; apply H3.
Qed.
Lemma consider_ok big delta seen b d : best_ok big delta seen b -> best_ok big delta (fun x => seen x \/ x = d) (consider (delta d) d b).
Proof.
  intros (H1 & H2 & H3). unfold consider. destruct (Z.ltb_spec (delta d) (fst b)) as [L|L].
  - split; [cbn [fst]; lia|]. split; [cbn [fst]; intros x [Hx|Hx]; [specialize (H2 x Hx); lia|subst; lia]|]. cbn [snd fst]. split; [now right|reflexivity].
  - split; [exact H1|]. split; [intros x [Hx|Hx]; [auto|subst; exact L]|]. destruct (snd b) as [e|]; [|exact H3]. destruct H3. split; [now left|assumption].
Qed.

(* ---------- flags ---------- *)
Lemma mark_length idx v : forall fl, length (mark idx v fl) = length fl.
Proof. induction idx as [|b idx IH]; intros [|s fl]; cbn; auto. Qed.
Lemma mark_nth idx v : forall fl m, nth m (mark idx v fl) 0%nat = nth m fl 0%nat \/ (nth m (mark idx v fl) 0%nat = v /\ nth m idx false = true).
Proof.
  induction idx as [|b idx IH]; intros [|s fl] m; try (now left); cbn [mark].
  destruct m as [|m]; cbn [nth]; [destruct b; auto|apply IH].
Qed.
Lemma find_subset_include_nth s0 sub m : nth m (find_subset_include s0 sub) false = true -> incl s0 (nth m sub []).
Proof.
  unfold find_subset_include. destruct s0 as [|x s0]; [intros _ y []|]. destruct sub as [|s sub]; [destruct m; discriminate|].
  set (f := fun s => _). intros H.
  assert (Hm : (m < length (s :: sub))%nat).
  { destruct (Nat.lt_ge_cases m (length (s :: sub))) as [|L]; [assumption|]. rewrite nth_overflow in H; [discriminate|]. now rewrite map_length. }
  rewrite (nth_indep _ false (f [])) in H by (rewrite map_length; exact Hm). rewrite map_nth in H. unfold f in H. cbn zeta in H.
  rewrite !andb_true_iff in H. destruct H as [[_ H] _]. rewrite forallb_forall in H. intros y Hy. apply H in Hy. apply memb_In in Hy.
  apply filter_In in Hy. now apply memb_In.
Qed.

Section Sweep.
Variables (g : ggraph) (sc : nat -> list nat -> Z) (big maxP : Z).
Hypothesis Hp : pdag g.
Hypothesis Hset : set_score sc.

(* ---------- forward ---------- *)
Definition delta_ins (d : desc) : Z := let '(i, j, T) := d in sc j (fst (insert_sets g i j T)) - sc j (snd (insert_sets g i j T)).
Definition open_ins (i j : nat) (T : list nat) : Prop :=
  ~ reach (fun u v => semi_step g u v /\ ~ In u (union1 g (NAset g i j) T)) j i.
Definition guard_ins (i j : nat) : Prop :=
  gm g i j = 0 /\ gm g j i = 0 /\ i <> j /\ Z.of_nat (length (paj g j)) <= maxP.
Definition valid_ins (d : desc) : Prop :=
  let '(i, j, T) := d in
  (i < gn g)%nat /\ (j < gn g)%nat /\ guard_ins i j /\
  In T (Combinatorial (T0set g i j)) /\ insert_test1 g i j T = true /\ open_ins i j T.

Lemma test1_anti i j T T' : incl T T' -> insert_test1 g i j T' = true -> insert_test1 g i j T = true.
Proof.
  intros Hi. unfold insert_test1. rewrite !check_clique_iff; auto using nodup_union1; try (intros a Ha; now apply in_union1 in Ha).
  intros H a b Ha Hb. apply H; apply in_union1; [apply in_union1 in Ha|apply in_union1 in Hb]; intuition.
Qed.
Lemma open_mono i j T T' : incl T T' -> open_ins i j T -> open_ins i j T'.
Proof.
  intros Hi H K. apply H. apply (reach_mono (fun u v => semi_step g u v /\ ~ In u (union1 g (NAset g i j) T'))); [|exact K].
  intros x y [H1 H2]. split; [exact H1|]. intros Hx. apply H2. apply in_union1 in Hx. apply in_union1. intuition.
Qed.

Section Pair.
Variables (vf i j : nat) (seen : desc -> Prop).
Hypothesis Hi : (i < gn g)%nat.
Hypothesis Hj : (j < gn g)%nat.
Hypothesis Hvf : (Wt (gn g) (gn g) < vf)%nat.
Let sub := Combinatorial (T0set g i j).
Definition ok_k (k : nat) : Prop := insert_test1 g i j (nth k sub []) = true /\ open_ins i j (nth k sub []).
Definition inner_inv (pre : list nat) (acc : outcome (list nat * sweep_st)) : Prop :=
  exists fl rec best, acc = Ret (fl, (rec, best)) /\ length fl = length sub /\ record_ok sc rec /\
    (forall m, nth m fl 0%nat = 1%nat -> open_ins i j (nth m sub [])) /\
    (forall m, nth m fl 0%nat = 2%nat -> insert_test1 g i j (nth m sub []) = false) /\
    (forall m, (nth m fl 0%nat <= 2)%nat) /\
    best_ok big delta_ins (fun d => seen d \/ exists k, In k pre /\ d = (i, j, nth k sub []) /\ ok_k k) best.

Lemma inner_step pre k acc : inner_inv pre acc -> inner_inv (pre ++ [k]) (fwd_subset vf sc g i j sub acc k).
Proof.
  intros (fl & rec & best & -> & Hlen & Hrec & F1 & F2 & F3 & Hb). unfold fwd_subset. cbn [obind].
  assert (Same : ~ ok_k k -> inner_inv (pre ++ [k]) (Ret (fl, (rec, best)))).
  { intros NK. exists fl, rec, best. repeat (split; [assumption || reflexivity|]).
    eapply best_ok_ext; [|exact Hb]. intros d. split; (intros [H|(m & Hm & H)]; [now left|right; exists m]).
    - split; [apply in_app_iff; now left|exact H].
    - apply in_app_iff in Hm. destruct Hm as [Hm|[<-|[]]]; [auto|]. destruct H as [_ H]. contradiction. }
  destruct (Nat.ltb_spec (nth k fl 0%nat) 2) as [L|L].
  - destruct (insert_test1 g i j (nth k sub [])) eqn:T1.
    + assert (Htest : exists b, (if Nat.eqb (nth k fl 0%nat) 0 then insert_test2 vf g i j (nth k sub []) else Ret true) = Ret b /\ (b = true <-> open_ins i j (nth k sub []))).
      { destruct (Nat.eqb_spec (nth k fl 0%nat) 0) as [E|E].
        - apply (vc2_spec g j i (union1 g (NAset g i j) (nth k sub [])) Hp Hj vf Hvf).
        - exists true. split; [reflexivity|]. split; [intros _; apply F1; lia|reflexivity]. }
      destruct Htest as (b & -> & Hbb). cbn [obind]. destruct b.
      * destruct (changed_score_ok sc rec j (fst (insert_sets g i j (nth k sub []))) (snd (insert_sets g i j (nth k sub []))) Hset Hrec) as [C1 C2];
          [apply nodup_union1|apply nodup_union1|].
        unfold insert_changed_score. destruct (changed_score sc rec j _ _) as [ch rec'] eqn:Ec. cbn [fst snd] in C1, C2.
        eexists _, _, _. split; [reflexivity|]. split; [now rewrite mark_length|]. split; [exact C2|].
        assert (Ho : open_ins i j (nth k sub [])) by now apply Hbb.
        split; [|split; [|split]].
        -- intros m Hm. destruct (mark_nth (find_subset_include (nth k sub []) sub) 1 fl m) as [E|[E1 E2]]; [apply F1; congruence|].
           apply find_subset_include_nth in E2. now apply (open_mono i j (nth k sub [])).
        -- intros m Hm. destruct (mark_nth (find_subset_include (nth k sub []) sub) 1 fl m) as [E|[E1 E2]]; [apply F2; congruence|congruence].
        -- intros m. destruct (mark_nth (find_subset_include (nth k sub []) sub) 1 fl m) as [E|[E1 E2]]; [rewrite E; auto|lia].
        -- subst ch. change (sc j (fst (insert_sets g i j (nth k sub []))) - sc j (snd (insert_sets g i j (nth k sub [])))) with (delta_ins (i, j, nth k sub [])).
           eapply best_ok_ext; [|apply consider_ok; exact Hb]. intros d. cbn beta. split.
           ++ intros [[H|(m & Hm & H)]| ->]; [now left|right; exists m|right; exists k].
              ** split; [apply in_app_iff; now left|exact H].
              ** split; [apply in_app_iff; right; now left|]. split; [reflexivity|]. split; auto.
           ++ intros [H|(m & Hm & H)]; [auto|]. apply in_app_iff in Hm. destruct Hm as [Hm|[<-|[]]]; [left; right; eauto|right; apply H].
      * apply Same. intros [_ K]. apply Hbb in K. discriminate.
    + exists (mark (find_subset_include (nth k sub []) sub) 2 fl), rec, best. split; [reflexivity|]. split; [now rewrite mark_length|]. split; [exact Hrec|].
      split; [|split; [|split]].
      * intros m Hm. destruct (mark_nth (find_subset_include (nth k sub []) sub) 2 fl m) as [E|[E1 E2]]; [apply F1; congruence|congruence].
      * intros m Hm. destruct (mark_nth (find_subset_include (nth k sub []) sub) 2 fl m) as [E|[E1 E2]]; [apply F2; congruence|].
        apply find_subset_include_nth in E2. destruct (insert_test1 g i j (nth m sub [])) eqn:E; [|reflexivity].
        apply (test1_anti i j (nth k sub [])) in E; [congruence|exact E2].
      * intros m. destruct (mark_nth (find_subset_include (nth k sub []) sub) 2 fl m) as [E|[E1 E2]]; [rewrite E; auto|lia].
      * eapply best_ok_ext; [|exact Hb]. intros d. split; (intros [H|(m & Hm & H)]; [now left|right; exists m]).
        -- split; [apply in_app_iff; now left|exact H].
        -- apply in_app_iff in Hm. destruct Hm as [Hm|[<-|[]]]; [auto|]. destruct H as [_ [H _]]. congruence.
  - apply Same. intros [K _]. assert (nth k fl 0%nat = 2%nat) by (specialize (F3 k); lia). rewrite F2 in K by assumption. discriminate.
Qed.

Lemma inner_loop rec best : record_ok sc rec -> best_ok big delta_ins seen best ->
  exists fl rec' best', fold_left (fwd_subset vf sc g i j sub) (seq 0 (length sub)) (Ret (map (fun _ => 0%nat) sub, (rec, best))) = Ret (fl, (rec', best')) /\
    record_ok sc rec' /\
    best_ok big delta_ins (fun d => seen d \/ exists T, In T sub /\ d = (i, j, T) /\ insert_test1 g i j T = true /\ open_ins i j T) best'.
Proof.
  intros Hr Hb.
  assert (I : inner_inv (seq 0 (length sub)) (fold_left (fwd_subset vf sc g i j sub) (seq 0 (length sub)) (Ret (map (fun _ => 0%nat) sub, (rec, best))))).
  { apply fold_prefix.
    - assert (Z0 : forall m, nth m (map (fun _ : list nat => 0%nat) sub) 0%nat = 0%nat).
      { intros m. generalize sub. intros l. revert m. induction l as [|x l IH]; intros [|m]; cbn; auto. }
      eexists _, _, _. split; [reflexivity|]. split; [apply map_length|]. split; [exact Hr|].
      split; [|split; [|split]]; try (intros m; rewrite Z0; (discriminate || lia)).
      eapply best_ok_ext; [|exact Hb]. intros d. split; [auto|]. intros [H|(m & [] & _)]. exact H.
    - intros pre x post a _ Ha. now apply inner_step. }
  destruct I as (fl & rec' & best' & E & _ & Hr' & _ & _ & _ & Hb'). exists fl, rec', best'. split; [exact E|]. split; [exact Hr'|].
  eapply best_ok_ext; [|exact Hb']. intros d. split; (intros [H|H]; [now left|right]).
  - destruct H as (k & Hk & -> & H1 & H2). apply in_seq0 in Hk. exists (nth k sub []). split; [now apply nth_In|]. auto.
  - destruct H as (T & HT & -> & H1 & H2). destruct (In_nth _ _ [] HT) as (k & Hk & <-). exists k. split; [now apply in_seq0|]. split; [reflexivity|]. split; auto.
Qed.
End Pair.

Lemma in_all_ij n i j : In (i, j) (all_ij n) <-> (i < n)%nat /\ (j < n)%nat.
Proof.
  unfold all_ij. rewrite in_flat_map. split.
  - intros (x & Hx & H). apply in_map_iff in H. destruct H as (y & [= <- <-] & Hy). apply in_seq0 in Hx, Hy. auto.
  - intros [H1 H2]. exists i. split; [now apply in_seq0|]. apply in_map_iff. exists j. split; [reflexivity|now apply in_seq0].
Qed.

Lemma fwd_sweep_spec vf rec : (Wt (gn g) (gn g) < vf)%nat -> record_ok sc rec ->
  exists rec' best, fwd_sweep vf maxP big sc g rec = Ret (rec', best) /\ record_ok sc rec' /\ best_ok big delta_ins valid_ins best.
Proof.
  intros Hvf Hr. unfold fwd_sweep.
  set (Inv := fun (pre : list (nat * nat)) (acc : outcome sweep_st) => exists rec' best, acc = Ret (rec', best) /\ record_ok sc rec' /\
    best_ok big delta_ins (fun d => In (fst d) pre /\ valid_ins d) best).
  assert (I : Inv (all_ij (gn g)) (fold_left (fwd_pair vf maxP sc g) (all_ij (gn g)) (Ret (rec, (big, None))))).
  { apply fold_prefix.
    - exists rec, (big, None). split; [reflexivity|]. split; [exact Hr|]. split; [cbn; lia|]. split; [now intros d [[] _]|reflexivity].
    - intros pre [i j] post a E (rec1 & best1 & -> & Hr1 & Hb1).
      assert (Hij : (i < gn g)%nat /\ (j < gn g)%nat) by (apply in_all_ij; rewrite E; apply in_app_iff; right; now left). destruct Hij as [Hi Hj].
      unfold fwd_pair. cbn [obind].
      destruct ((gm g i j =? 0) && (gm g j i =? 0) && negb (Nat.eqb i j) && (Z.of_nat (length (paj g j)) <=? maxP)) eqn:Gd.
      + rewrite !andb_true_iff, !Z.eqb_eq, negb_true_iff, Nat.eqb_neq, Z.leb_le in Gd.
        destruct (inner_loop vf i j _ Hi Hj Hvf rec1 best1 Hr1 Hb1) as (fl & rec2 & best2 & E2 & Hr2 & Hb2).
        match goal with |- context [obind ?x _] => replace x with (Ret (fl, (rec2, best2)) : outcome (list nat * sweep_st)) by (symmetry; exact E2) end. cbn [obind snd]. exists rec2, best2. split; [reflexivity|]. split; [exact Hr2|].
        eapply best_ok_ext; [|exact Hb2]. intros d. rewrite in_app_iff. split.
        * intros [[H1 H2]|(T & HT & -> & H1 & H2)]; [auto|]. split; [right; now left|]. cbn [valid_ins]. unfold guard_ins. tauto.
        * intros [[H1|[H1|[]]] H2]; [auto|]. right. destruct d as [[i' j'] T]. cbn [fst] in H1. injection H1 as <- <-.
          cbn [valid_ins] in H2. exists T. tauto.
      + exists rec1, best1. split; [reflexivity|]. split; [exact Hr1|]. eapply best_ok_ext; [|exact Hb1]. intros d. rewrite in_app_iff. split; [tauto|].
        intros [[H1|[H1|[]]] H2]; [auto|]. exfalso. destruct d as [[i' j'] T]. cbn [fst] in H1. injection H1 as <- <-.
        cbn [valid_ins] in H2. unfold guard_ins in H2. destruct H2 as (_ & _ & (K1 & K2 & K3 & K4) & _).
        rewrite K1, K2 in Gd. apply Nat.eqb_neq in K3. rewrite K3 in Gd. apply Z.leb_le in K4. rewrite K4 in Gd. discriminate. }
  destruct I as (rec' & best & E & Hr' & Hb). exists rec', best. split; [exact E|]. split; [exact Hr'|].
  eapply best_ok_ext; [|exact Hb]. intros [[i j] T]. cbn [fst]. split; [tauto|]. intros H. split; [|exact H]. apply in_all_ij. cbn [valid_ins] in H. tauto.
Qed.

(* ---------- backward ---------- *)
Definition delta_del (d : desc) : Z := let '(i, j, T) := d in sc j (fst (delete_sets g i j T)) - sc j (snd (delete_sets g i j T)).
Definition guard_del (i j : nat) : Prop := (gm g j i = -1 /\ gm g i j = -1) \/ gm g j i = 1.
Definition valid_del (d : desc) : Prop :=
  let '(i, j, T) := d in
  (i < gn g)%nat /\ (j < gn g)%nat /\ guard_del i j /\ In T (Combinatorial (NAset g i j)) /\ delete_test g i j T = true.

Lemma dtest_mono i j T T' : (i < gn g)%nat -> (j < gn g)%nat -> incl T T' -> delete_test g i j T = true -> delete_test g i j T' = true.
Proof.
  intros Hi Hj Hinc. unfold delete_test.
  assert (R : forall f a, In a (filter f (NAset g i j)) -> (a < gn g)%nat).
  { intros f a Ha. apply filter_In in Ha. destruct Ha as [Ha _]. apply in_NA in Ha; auto; [apply Ha|apply Hp]. }
  rewrite !check_clique_iff; eauto using nodup_NA, NoDup_filter.
  intros H a b Ha Hb. apply H; apply filter_In; [apply filter_In in Ha; destruct Ha as [Ha Ka]|apply filter_In in Hb; destruct Hb as [Hb Kb]];
  (split; [assumption|]); rewrite negb_true_iff, memb_not_In in *; intuition.
Qed.

Section PairD.
Variables (i j : nat) (seen : desc -> Prop).
Hypothesis Hi : (i < gn g)%nat.
Hypothesis Hj : (j < gn g)%nat.
Let sub := Combinatorial (NAset g i j).
Definition innerd_inv (pre : list nat) (acc : list nat * sweep_st) : Prop :=
  exists fl rec best, acc = (fl, (rec, best)) /\ length fl = length sub /\ record_ok sc rec /\
    (forall m, (m < length sub)%nat -> nth m fl 0%nat = 1%nat \/ (nth m fl 0%nat = 2%nat /\ delete_test g i j (nth m sub []) = true)) /\
    best_ok big delta_del (fun d => seen d \/ exists k, In k pre /\ d = (i, j, nth k sub []) /\ delete_test g i j (nth k sub []) = true) best.
Lemma mark_nth_lt idx v : forall fl m, (m < length fl)%nat -> nth m (mark idx v fl) 0%nat = nth m fl 0%nat \/ (nth m (mark idx v fl) 0%nat = v /\ nth m idx false = true).
Proof. intros. apply mark_nth. Qed.

Lemma innerd_step pre k acc : (k < length sub)%nat -> innerd_inv pre acc -> innerd_inv (pre ++ [k]) (bwd_subset sc g i j sub acc k).
Proof.
  intros Hk (fl & rec & best & -> & Hlen & Hrec & F1 & Hb). unfold bwd_subset.
  assert (Eval : forall fl', delete_test g i j (nth k sub []) = true -> length fl' = length sub ->
    (forall m, (m < length sub)%nat -> nth m fl' 0%nat = 1%nat \/ (nth m fl' 0%nat = 2%nat /\ delete_test g i j (nth m sub []) = true)) ->
    innerd_inv (pre ++ [k]) (let '(ch, rec') := delete_changed_score sc g i j (nth k sub []) rec in (fl', (rec', consider ch (i, j, nth k sub []) best)))).
  { intros fl' T1 Hl' F1'.
    destruct (changed_score_ok sc rec j (fst (delete_sets g i j (nth k sub []))) (snd (delete_sets g i j (nth k sub []))) Hset Hrec) as [C1 C2];
      [apply NoDup_filter, nodup_union1|apply nodup_union1|].
    unfold delete_changed_score. destruct (changed_score sc rec j _ _) as [ch rec'] eqn:Ec. cbn [fst snd] in C1, C2.
    exists fl', rec', (consider ch (i, j, nth k sub []) best). split; [reflexivity|]. split; [exact Hl'|]. split; [exact C2|]. split; [exact F1'|].
    subst ch. change (sc j (fst (delete_sets g i j (nth k sub []))) - sc j (snd (delete_sets g i j (nth k sub [])))) with (delta_del (i, j, nth k sub [])).
    eapply best_ok_ext; [|apply consider_ok; exact Hb]. intros d. cbn beta. split.
    - intros [[H|(m & Hm & H)]| ->]; [now left|right; exists m|right; exists k].
      + split; [apply in_app_iff; now left|exact H].
      + split; [apply in_app_iff; right; now left|]. auto.
    - intros [H|(m & Hm & H)]; [auto|]. apply in_app_iff in Hm. destruct Hm as [Hm|[<-|[]]]; [left; right; eauto|right; apply H]. }
  destruct (Nat.eqb_spec (nth k fl 0%nat) 1) as [E|E].
  - destruct (delete_test g i j (nth k sub [])) eqn:T1.
    + apply Eval; [reflexivity|now rewrite mark_length|]. intros m Hm.
      destruct (mark_nth (find_subset_include (nth k sub []) sub) 2 fl m) as [E1|[E1 E2]]; [rewrite E1; now apply F1|]. right. split; [exact E1|].
      apply find_subset_include_nth in E2. now apply (dtest_mono i j (nth k sub [])).
    + exists fl, rec, best. repeat (split; [assumption || reflexivity|]).
      eapply best_ok_ext; [|exact Hb]. intros d. split; (intros [H|(m & Hm & H)]; [now left|right; exists m]).
      * split; [apply in_app_iff; now left|exact H].
      * apply in_app_iff in Hm. destruct Hm as [Hm|[<-|[]]]; [auto|]. destruct H as [_ H]. congruence.
  - apply Eval; auto. destruct (F1 k Hk) as [K|[_ K]]; [contradiction|exact K].
Qed.
Lemma innerd_loop rec best : record_ok sc rec -> best_ok big delta_del seen best ->
  exists fl rec' best', fold_left (bwd_subset sc g i j sub) (seq 0 (length sub)) (map (fun _ => 1%nat) sub, (rec, best)) = (fl, (rec', best')) /\
    record_ok sc rec' /\
    best_ok big delta_del (fun d => seen d \/ exists T, In T sub /\ d = (i, j, T) /\ delete_test g i j T = true) best'.
Proof.
  intros Hr Hb.
  assert (I : innerd_inv (seq 0 (length sub)) (fold_left (bwd_subset sc g i j sub) (seq 0 (length sub)) (map (fun _ => 1%nat) sub, (rec, best)))).
  { apply fold_prefix.
    - eexists _, _, _. split; [reflexivity|]. split; [apply map_length|]. split; [exact Hr|]. split.
      + intros m Hm. left. rewrite (nth_indep _ 0%nat 1%nat) by (rewrite map_length; exact Hm). clear. generalize sub. intros l. revert m.
        induction l as [|x l IH]; intros [|m]; cbn; auto.
      + eapply best_ok_ext; [|exact Hb]. intros d. split; [auto|]. intros [H|(m & [] & _)]. exact H.
    - intros pre x post a E Ha. apply innerd_step; [|exact Ha]. apply in_seq0. rewrite E. apply in_app_iff. right. now left. }
  destruct I as (fl & rec' & best' & E & _ & Hr' & _ & Hb'). exists fl, rec', best'. split; [exact E|]. split; [exact Hr'|].
  eapply best_ok_ext; [|exact Hb']. intros d. split; (intros [H|H]; [now left|right]).
  - destruct H as (k & Hk & -> & H1). apply in_seq0 in Hk. exists (nth k sub []). split; [now apply nth_In|]. auto.
  - destruct H as (T & HT & -> & H1). destruct (In_nth _ _ [] HT) as (k & Hk & <-). exists k. split; [now apply in_seq0|]. auto.
Qed.
End PairD.

Lemma bwd_sweep_spec rec : record_ok sc rec ->
  exists rec' best, bwd_sweep big sc g rec = Ret (rec', best) /\ record_ok sc rec' /\ best_ok big delta_del valid_del best.
Proof.
  intros Hr. unfold bwd_sweep.
  set (Inv := fun (pre : list (nat * nat)) (acc : sweep_st) => exists rec' best, acc = (rec', best) /\ record_ok sc rec' /\
    best_ok big delta_del (fun d => In (fst d) pre /\ valid_del d) best).
  assert (I : Inv (all_ij (gn g)) (fold_left (bwd_pair sc g) (all_ij (gn g)) (rec, (big, None)))).
  { apply fold_prefix.
    - exists rec, (big, None). split; [reflexivity|]. split; [exact Hr|]. split; [cbn; lia|]. split; [now intros d [[] _]|reflexivity].
    - intros pre [i j] post a E (rec1 & best1 & -> & Hr1 & Hb1).
      assert (Hij : (i < gn g)%nat /\ (j < gn g)%nat) by (apply in_all_ij; rewrite E; apply in_app_iff; right; now left). destruct Hij as [Hi Hj].
      unfold bwd_pair.
      destruct (((gm g j i =? -1) && (gm g i j =? -1)) || (gm g j i =? 1)) eqn:Gd.
      + rewrite orb_true_iff, andb_true_iff, !Z.eqb_eq in Gd.
        destruct (innerd_loop i j _ Hi Hj rec1 best1 Hr1 Hb1) as (fl & rec2 & best2 & E2 & Hr2 & Hb2).
        match goal with |- context [snd ?x] => replace x with ((fl, (rec2, best2)) : list nat * sweep_st) by (symmetry; exact E2) end. cbn [snd]. exists rec2, best2. split; [reflexivity|]. split; [exact Hr2|].
        eapply best_ok_ext; [|exact Hb2]. intros d. rewrite in_app_iff. split.
        * intros [[H1 H2]|(T & HT & -> & H1)]; [auto|]. split; [right; now left|]. cbn [valid_del]. unfold guard_del. tauto.
        * intros [[H1|[H1|[]]] H2]; [auto|]. right. destruct d as [[i' j'] T]. cbn [fst] in H1. injection H1 as <- <-.
          cbn [valid_del] in H2. exists T. tauto.
      + exists rec1, best1. split; [reflexivity|]. split; [exact Hr1|]. eapply best_ok_ext; [|exact Hb1]. intros d. rewrite in_app_iff. split; [tauto|].
        intros [[H1|[H1|[]]] H2]; [auto|]. exfalso. destruct d as [[i' j'] T]. cbn [fst] in H1. injection H1 as <- <-.
        cbn [valid_del] in H2. unfold guard_del in H2. destruct H2 as (_ & _ & [[K1 K2]|K] & _).
        * rewrite K1, K2 in Gd. discriminate.
        * rewrite K in Gd. rewrite orb_true_r in Gd. discriminate. }
  destruct I as (rec' & best & E & Hr' & Hb). exists rec', best. split; [f_equal; exact E|]. split; [exact Hr'|].
  eapply best_ok_ext; [|exact Hb]. intros [[i j] T]. cbn [fst]. split; [tauto|]. intros H. split; [|exact H]. apply in_all_ij. cbn [valid_del] in H. tauto.
Qed.
End Sweep.
