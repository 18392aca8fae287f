(** BOSS: better_mutation and the search loop. *)
From Verif Require Import Base UtilsModel UtilsProofs CpdagModel SkelModel SkelProofs CacheModel CacheProofs PCModel FinderProps ExactSpec BossModel BossTree.
From Coq Require Import Permutation Sorted.
Local Open Scope Z_scope.

Section Boss.
Variable sc : nat -> list nat -> Z.
Hypothesis Hsc : set_score sc.
Variable p : nat.
Notation val := (val sc p).
Notation gok := (gok sc p).

(** The total score of an order: every variable with the parents chosen among those before it. *)
Fixpoint tot (before rest : list nat) : Z := match rest with [] => 0 | v :: r => val v before + tot (before ++ [v]) r end.
Lemma tot_app l1 : forall before l2, tot before (l1 ++ l2) = tot before l1 + tot (before ++ l1) l2.
Proof.
  induction l1 as [|v l1 IH]; intros before l2; cbn [app tot]; [now rewrite app_nil_r|]. rewrite IH, <- app_assoc. cbn. lia.
Qed.
Lemma tot_ext l : forall b b', (forall x, In x b <-> In x b') -> tot b l = tot b' l.
Proof.
  induction l as [|v l IH]; intros b b' H; [reflexivity|]. cbn. rewrite (val_ext sc p v b b' H). f_equal. apply IH. intros x. rewrite !in_app_iff, H. reflexivity.
Qed.

Definition rest_of (v : nat) (l : list nat) : list nat := filter (fun w => negb (Nat.eqb v w)) l.
Lemma rest_app v l l' : rest_of v (l ++ l') = rest_of v l ++ rest_of v l'.
Proof. apply filter_app. Qed.
Lemma rest_In v l x : In x (rest_of v l) <-> In x l /\ x <> v.
Proof. unfold rest_of. rewrite filter_In, negb_true_iff, Nat.eqb_neq. intuition. Qed.

Lemma forward_spec v ws : forall j prefix score scores G, gok G ->
  let '(prefix', score', scores', G') := bm_forward sc p v ws j prefix score scores G in
  gok G' /\ prefix' = prefix ++ rest_of v ws /\ score' = score + tot prefix (rest_of v ws) /\
  (forall k, (j <= k < j + length ws)%nat -> scores' k = score + tot prefix (rest_of v (firstn (k - j) ws)) + val v (prefix ++ rest_of v (firstn (k - j) ws))) /\
  (forall k, (k < j \/ j + length ws <= k)%nat -> scores' k = scores k).
Proof.
  induction ws as [|w r IH]; intros j prefix score scores G HG.
  - cbn. rewrite app_nil_r. split; [exact HG|]. split; [reflexivity|]. split; [lia|]. split; [lia|auto].
  - cbn [bm_forward length]. pose proof (gst_trace_ok sc Hsc p G v prefix HG) as Q. destruct (gst_trace sc p G v prefix) as [[G1 t] ps]. destruct Q as (Q1 & Q2 & _).
    change (rest_of v (w :: r)) with (if negb (Nat.eqb v w) then w :: rest_of v r else rest_of v r).
    assert (F : forall k, (S j <= k)%nat -> firstn (k - j) (w :: r) = w :: firstn (k - S j) r).
    { intros k Hk. replace (k - j)%nat with (S (k - S j)) by lia. reflexivity. }
    destruct (Nat.eqb_spec v w) as [<-|N]; cbn [negb].
    + specialize (IH (S j) prefix score (fset scores j (t + score)) G1 Q1). destruct (bm_forward _ _ _ _ _ _ _ _ _) as [[[prefix' score'] scores'] G'].
      destruct IH as (I1 & I2 & I3 & I4 & I5). split; [exact I1|]. split; [exact I2|]. split; [exact I3|]. split.
      * intros k Hk. destruct (Nat.eq_dec k j) as [->|Nk].
        -- rewrite I5 by lia. unfold fset. rewrite Nat.eqb_refl, Nat.sub_diag. cbn. rewrite app_nil_r. lia.
        -- rewrite I4 by lia. rewrite F by lia. unfold rest_of at 3 4. cbn [filter]. rewrite Nat.eqb_refl. cbn [negb]. reflexivity.
      * intros k Hk. rewrite I5 by lia. unfold fset. destruct (Nat.eqb_spec k j); [lia|reflexivity].
    + pose proof (gst_trace_ok sc Hsc p G1 w prefix Q1) as R. destruct (gst_trace sc p G1 w prefix) as [[G2 t2] ps2]. destruct R as (R1 & R2 & _).
      specialize (IH (S j) (prefix ++ [w]) (score + t2) (fset scores j (t + score)) G2 R1). destruct (bm_forward _ _ _ _ _ _ _ _ _) as [[[prefix' score'] scores'] G'].
      destruct IH as (I1 & I2 & I3 & I4 & I5). split; [exact I1|]. split; [rewrite I2, <- app_assoc; reflexivity|]. split; [cbn [tot]; lia|]. split.
      * intros k Hk. destruct (Nat.eq_dec k j) as [->|Nk].
        -- rewrite I5 by lia. unfold fset. rewrite Nat.eqb_refl, Nat.sub_diag. cbn. rewrite app_nil_r. lia.
        -- rewrite I4 by lia. rewrite F by lia. unfold rest_of at 3 4. cbn [filter]. destruct (Nat.eqb_spec v w); [contradiction|]. cbn [negb tot].
           fold (rest_of v (firstn (k - S j) r)). rewrite <- app_assoc. cbn [app]. lia.
      * intros k Hk. rewrite I5 by lia. unfold fset. destruct (Nat.eqb_spec k j); [lia|reflexivity].
Qed.

Lemma backward_spec v ws : forall done_ prefix score scores best G, gok G -> NoDup ws ->
  prefix = rest_of v (rev ws) ++ [v] -> score = tot prefix (rest_of v done_) -> (length ws <= best)%nat ->
  let '(scores', best', G') := bm_backward sc p v ws prefix score scores best G in
  gok G' /\ (forall j, (j < length ws)%nat -> scores' j = scores j + tot (rest_of v (firstn j (rev ws)) ++ [v]) (rest_of v (skipn j (rev ws) ++ done_))) /\
  (forall j, (length ws <= j)%nat -> scores' j = scores j) /\ (best' < length ws \/ best' = best)%nat /\
  (forall j, (j < length ws)%nat -> scores' j <= scores' best') /\ scores' best <= scores' best'.
Proof.
  induction ws as [|w r IH]; intros done_ prefix score scores best G HG HN Ep Es Hb.
  - cbn. split; [exact HG|]. split; [intros; lia|]. split; [reflexivity|]. split; [now right|]. split; [intros; lia|lia].
  - cbn [bm_backward]. apply NoDup_cons_iff in HN. destruct HN as [N1 N2].
    set (T := if negb (Nat.eqb v w) then _ else _).
    assert (HT : exists G1, T = (rest_of v (rev r) ++ [v], tot (rest_of v (rev r) ++ [v]) (rest_of v (w :: done_)), G1) /\ gok G1).
    { unfold T. cbn [rev] in Ep. rewrite rest_app in Ep. unfold rest_of at 2 in Ep. unfold rest_of at 3. cbn [filter] in *. destruct (Nat.eqb_spec v w) as [<-|N]; cbn [negb] in *.
      - exists G. rewrite app_nil_r in Ep. subst. auto.
      - assert (E : lremove w prefix = rest_of v (rev r) ++ [v]).
        { rewrite Ep. rewrite <- app_assoc. cbn [app]. assert (K : ~ In w (rest_of v (rev r))) by (rewrite rest_In, <- in_rev; tauto).
          clear -K N. revert K. generalize (rest_of v (rev r)). intros l K. induction l as [|a l IH]; cbn.
          - now rewrite Nat.eqb_refl.
          - destruct (Nat.eqb_spec a w) as [->|H]; [destruct K; now left|]. f_equal. apply IH. intros H'. apply K. now right. }
        cbv zeta. rewrite E. pose proof (gst_trace_ok sc Hsc p G w (rest_of v (rev r) ++ [v]) HG) as Q. destruct (gst_trace sc p G w (rest_of v (rev r) ++ [v])) as [[G1 t] ps]. destruct Q as (Q1 & Q2 & _).
        exists G1. split; [|exact Q1]. f_equal. f_equal. cbn [tot]. fold (rest_of v done_). rewrite Es, Q2. rewrite Z.add_comm. f_equal. apply tot_ext.
        intros y. rewrite Ep. rewrite !in_app_iff. cbn. tauto. }
    destruct HT as (G1 & ET & HG1). rewrite ET. clear T ET. cbv zeta beta iota.
    set (score1 := tot (rest_of v (rev r) ++ [v]) (rest_of v (w :: done_))). set (scores1 := fset scores (length r) (scores (length r) + score1)).
    set (best1 := if scores1 best <? scores1 (length r) then length r else best).
    cbn [length] in Hb. assert (Hb1 : (length r <= best1)%nat) by (unfold best1; destruct (_ <? _); lia).
    specialize (IH (w :: done_) _ score1 scores1 best1 G1 HG1 N2 eq_refl eq_refl Hb1).
    destruct (bm_backward _ _ _ _ _ _ _ _ _) as [[scores' best'] G']. destruct IH as (I1 & I2 & I3 & I4 & I5 & I6).
    assert (A1 : scores1 (length r) = scores (length r) + score1) by (unfold scores1, fset; now rewrite Nat.eqb_refl).
    assert (A2 : forall j, j <> length r -> scores1 j = scores j) by (intros j Hj; unfold scores1, fset; destruct (Nat.eqb_spec j (length r)); [contradiction|reflexivity]).
    assert (LR : length (rev r) = length r) by apply rev_length.
    split; [exact I1|]. cbn [length rev]. split; [|split; [|split; [|split]]].
    + intros j Hj. destruct (Nat.eq_dec j (length r)) as [->|Nj].
      * rewrite I3 by lia. rewrite A1. unfold score1. rewrite firstn_app, skipn_app, LR, Nat.sub_diag. rewrite <- LR, firstn_all, skipn_all. cbn [firstn skipn app]. rewrite app_nil_r. reflexivity.
      * rewrite I2 by lia. rewrite A2 by exact Nj. rewrite firstn_app, skipn_app, LR. replace (j - length r)%nat with O by lia. cbn [firstn skipn]. rewrite app_nil_r, <- app_assoc. reflexivity.
    + intros j Hj. rewrite I3 by lia. apply A2. lia.
    + destruct I4 as [I4|I4]; [left; lia|]. unfold best1 in I4. destruct (_ <? _); [left; lia|now right].
    + intros j Hj. destruct (Nat.eq_dec j (length r)) as [->|Nj]; [|apply I5; lia]. etransitivity; [|exact I6]. rewrite !I3 by lia. unfold best1. destruct (Z.ltb_spec (scores1 best) (scores1 (length r))); lia.
    + etransitivity; [|exact I6]. rewrite !I3 by lia. unfold best1. destruct (Z.ltb_spec (scores1 best) (scores1 (length r))); lia.
Qed.

Lemma rest_id v l : ~ In v l -> rest_of v l = l.
Proof.
  induction l as [|a l IH]; intros N; [reflexivity|]. unfold rest_of in *. cbn. destruct (Nat.eqb_spec v a) as [->|E]; [destruct N; now left|]. cbn. f_equal. apply IH. intros H. apply N. now right.
Qed.
Lemma lindex_split v l : In v l -> NoDup l -> exists A B, l = A ++ v :: B /\ lindex v l = length A /\ lremove v l = A ++ B /\ ~ In v A /\ ~ In v B.
Proof.
  intros H HN. apply in_split in H. destruct H as (A & B & ->). exists A, B. apply NoDup_remove_2 in HN. rewrite in_app_iff in HN. split; [reflexivity|].
  assert (K : ~ In v A) by tauto. split; [|split; [|split; tauto]].
  - clear -K. induction A as [|a A IH]; cbn; [now rewrite Nat.eqb_refl|]. destruct (Nat.eqb_spec a v) as [->|N]; [destruct K; now left|]. f_equal. apply IH. intros H. apply K. now right.
  - clear -K. induction A as [|a A IH]; cbn; [now rewrite Nat.eqb_refl|]. destruct (Nat.eqb_spec a v) as [->|N]; [destruct K; now left|]. f_equal. apply IH. intros H. apply K. now right.
Qed.
Lemma tot_linsert v k l : tot [] (linsert k v l) = tot [] (firstn k l) + val v (firstn k l) + tot (firstn k l ++ [v]) (skipn k l).
Proof. unfold linsert. rewrite tot_app. cbn [tot app]. lia. Qed.
Lemma linsert_perm k v l : Permutation (linsert k v l) (v :: l).
Proof. unfold linsert. rewrite <- Permutation_middle, firstn_skipn. reflexivity. Qed.
Lemma in_firstn (x : nat) n l : In x (firstn n l) -> In x l.
Proof. intros H. rewrite <- (firstn_skipn n l). apply in_app_iff. now left. Qed.
Lemma in_skipn (x : nat) n l : In x (skipn n l) -> In x l.
Proof. intros H. rewrite <- (firstn_skipn n l). apply in_app_iff. now right. Qed.

Lemma better_mutation_spec eps v order G : gok G -> NoDup order -> In v order ->
  let '(b, order', G') := better_mutation sc p eps v order G in
  gok G' /\
  (b = true -> exists k, order' = linsert k v (lremove v order) /\ tot [] order + eps <= tot [] order' /\
     forall k', tot [] (linsert k' v (lremove v order)) <= tot [] order') /\
  (b = false -> order' = order /\ forall k, tot [] (linsert k v (lremove v order)) < tot [] order + eps).
Proof.
  intros HG HN Hv. destruct (lindex_split v order Hv HN) as (A & B & EO & EI & ER & NA & NB). unfold better_mutation. rewrite EI, ER.
  pose proof (forward_spec v order 0 [] 0 (fun _ => 0) G HG) as F. destruct (bm_forward _ _ _ _ _ _ _ _ _) as [[[prefix score] scores] G1]. destruct F as (F1 & F2 & F3 & F4 & _).
  pose proof (gst_trace_ok sc Hsc p G1 v prefix F1) as Q. destruct (gst_trace _ _ _ _ _) as [[G2 t] ps]. destruct Q as (Q1 & Q2 & _).
  assert (RV : rest_of v (v :: B) = B). { unfold rest_of. cbn [filter]. rewrite Nat.eqb_refl. cbn [negb]. now apply rest_id. }
  assert (RO : rest_of v order = A ++ B). { rewrite EO, rest_app, RV. now rewrite rest_id. }
  set (scores1 := fset scores (length order) (t + score)).
  assert (HNr : NoDup (rev order)) by now apply NoDup_rev.
  pose proof (backward_spec v (rev order) [] (prefix ++ [v]) 0 scores1 (length order) G2 Q1 HNr) as W. rewrite rev_involutive, rev_length in W. cbn [app] in F2. rewrite F2 in W at 1.
  specialize (W eq_refl eq_refl (Nat.le_refl _)). destruct (bm_backward _ _ _ _ _ _ _ _ _) as [[scores2 best] G3]. destruct W as (W1 & W2 & W3 & W4 & W5 & W6).
  assert (LO : length order = S (length A + length B)) by (rewrite EO, app_length; cbn; lia).
  set (pos := fun j => (j - (if Nat.ltb (length A) j then 1 else 0))%nat).
  assert (FE : forall j, rest_of v (firstn j order) = firstn (pos j) (A ++ B) /\ rest_of v (skipn j order) = skipn (pos j) (A ++ B)).
  { intros j. unfold pos. rewrite EO. rewrite !firstn_app, !skipn_app, !rest_app. destruct (Nat.ltb_spec (length A) j) as [L|L].
    - replace (j - length A)%nat with (S (j - 1 - length A)) by lia. cbn [firstn skipn]. unfold rest_of at 2. cbn [filter]. rewrite Nat.eqb_refl. cbn [negb].
      fold (rest_of v (firstn (j - 1 - length A) B)). rewrite !(firstn_all2 A), !(skipn_all2 A) by lia. rewrite !rest_id; auto; try (intros H; apply in_firstn in H; contradiction); try (intros H; apply in_skipn in H; contradiction).
    - replace (j - length A)%nat with O by lia. rewrite Nat.sub_0_r. replace (j - length A)%nat with O by lia. cbn [firstn skipn]. rewrite RV. rewrite !app_nil_r.
      rewrite !rest_id; auto; try (intros H; apply in_firstn in H; contradiction); try (intros H; apply in_skipn in H; contradiction). }
  assert (SC : forall j, (j <= length order)%nat -> scores2 j = tot [] (linsert (pos j) v (A ++ B))).
  { intros j Hj. rewrite tot_linsert. destruct (FE j) as [E1 E2]. rewrite <- E1, <- E2. destruct (Nat.eq_dec j (length order)) as [->|Nj].
    - rewrite W3 by lia. unfold scores1, fset. rewrite Nat.eqb_refl. rewrite firstn_all, skipn_all. cbn [rest_of filter tot]. fold (rest_of v order). rewrite Q2, F3, F2. lia.
    - rewrite W2 by lia. rewrite app_nil_r. unfold scores1, fset. destruct (Nat.eqb_spec j (length order)); [lia|]. rewrite F4 by lia. rewrite Nat.sub_0_r. cbn [app]. lia. }
  assert (SI : scores2 (length A) = tot [] order).
  { rewrite SC by lia. f_equal. unfold pos. rewrite Nat.ltb_irrefl, Nat.sub_0_r. unfold linsert. rewrite firstn_app, skipn_app, Nat.sub_diag, firstn_all, skipn_all. cbn. now rewrite app_nil_r. }
  assert (BM : forall k, tot [] (linsert k v (A ++ B)) <= scores2 best).
  { assert (BJ : forall j, (j <= length order)%nat -> scores2 j <= scores2 best).
    { intros j Hj. destruct (Nat.eq_dec j (length order)) as [->|Nj]; [exact W6|apply W5; lia]. }
    assert (HK : forall k, (k <= length (A ++ B))%nat -> tot [] (linsert k v (A ++ B)) <= scores2 best).
    { intros k Hk. rewrite app_length in Hk. destruct (Nat.le_gt_cases k (length A)) as [L|L].
      - etransitivity; [|apply (BJ k); lia]. rewrite SC by lia. unfold pos. destruct (Nat.ltb_spec (length A) k); [lia|]. rewrite Nat.sub_0_r. lia.
      - etransitivity; [|apply (BJ (S k)); lia]. rewrite SC by lia. unfold pos. destruct (Nat.ltb_spec (length A) (S k)); [|lia]. replace (S k - 1)%nat with k by lia. lia. }
    intros k. destruct (Nat.le_gt_cases k (length (A ++ B))) as [L|L]; [now apply HK|]. etransitivity; [|apply (HK (length (A ++ B))); lia].
    unfold linsert. rewrite !firstn_all2, !skipn_all2 by lia. lia. }
  assert (BL : (best <= length order)%nat) by (destruct W4; lia).
  destruct (Z.ltb_spec (scores2 best) (scores2 (length A) + eps)) as [L|L].
  - split; [exact W1|]. split; [discriminate|]. intros _. split; [reflexivity|]. intros k. specialize (BM k). lia.
  - split; [exact W1|]. split; [|discriminate]. intros _. exists (pos best). unfold pos at 1. split; [reflexivity|].
    change (best - (if (length A <? best)%nat then 1 else 0))%nat with (pos best). rewrite <- SC by exact BL. split; [lia|exact BM].
Qed.

(** *** One pass over the variables *)
Lemma lremove_linsert_perm k v l : In v l -> Permutation (linsert k v (lremove v l)) l.
Proof. intros H. rewrite linsert_perm. now apply lremove_perm. Qed.
Lemma boss_pass_spec eps vars : 0 < eps -> forall order G, gok G -> NoDup order -> incl vars order ->
  let '(imp, order', G') := boss_pass sc p eps vars order G in
  gok G' /\ Permutation order' order /\ (imp = true -> tot [] order + eps <= tot [] order') /\
  (imp = false -> order' = order /\ forall v k, In v vars -> tot [] (linsert k v (lremove v order)) < tot [] order + eps).
Proof.
  intros He order G HG HN HI. unfold boss_pass.
  assert (Gen : forall vs imp0 o G, gok G -> Permutation o order -> incl vs order -> (imp0 = true -> tot [] order + eps <= tot [] o) -> (imp0 = false -> o = order) ->
    let '(imp, order', G') := fold_left (fun t v => let '(imp, o, G) := t in let '(b, o', G') := better_mutation sc p eps v o G in (orb imp b, o', G')) vs (imp0, o, G) in
    gok G' /\ Permutation order' order /\ (imp = true -> tot [] order + eps <= tot [] order') /\
    (imp = false -> imp0 = false /\ order' = order /\ forall v k, In v vs -> tot [] (linsert k v (lremove v order)) < tot [] order + eps)).
  { clear HG HI vars G. induction vs as [|v vs IH]; intros imp0 o G HG HP HI H1 H0.
    - cbn. split; [exact HG|]. split; [exact HP|]. split; [exact H1|]. intros E. split; [exact E|]. split; [auto|]. intros v k [].
    - cbn [fold_left]. assert (Hv : In v o) by (rewrite HP; apply HI; now left). assert (HNo : NoDup o) by now rewrite HP.
      pose proof (better_mutation_spec eps v o G HG HNo Hv) as Q. destruct (better_mutation sc p eps v o G) as [[b o'] G'] eqn:E. destruct Q as (Q1 & Q2 & Q3).
      assert (HP' : Permutation o' order).
      { destruct b; [destruct (Q2 eq_refl) as (k & -> & _); rewrite lremove_linsert_perm by exact Hv; exact HP|destruct (Q3 eq_refl) as [-> _]; exact HP]. }
      specialize (IH (imp0 || b)%bool o' G' Q1 HP' (fun x H => HI x (or_intror H))).
      assert (K1 : (imp0 || b)%bool = true -> tot [] order + eps <= tot [] o').
      { destruct b.
        - intros _. destruct (Q2 eq_refl) as (k & _ & Q4 & _). destruct imp0; [specialize (H1 eq_refl); lia|rewrite (H0 eq_refl) in Q4; exact Q4].
        - destruct (Q3 eq_refl) as [-> _]. rewrite orb_false_r. exact H1. }
      assert (K0 : (imp0 || b)%bool = false -> o' = order).
      { intros E'. apply orb_false_iff in E'. destruct E' as [E1 E2]. destruct (Q3 E2) as [-> _]. auto. }
      specialize (IH K1 K0). destruct (fold_left _ vs _) as [[imp order'] G'']. destruct IH as (I1 & I2 & I3 & I4). split; [exact I1|]. split; [exact I2|]. split; [exact I3|].
      intros Ei. destruct (I4 Ei) as (I5 & I6 & I7). apply orb_false_iff in I5. destruct I5 as [E1 E2]. split; [exact E1|]. split; [exact I6|].
      intros u k [<-|Hu]; [|auto]. destruct (Q3 E2) as [_ Q4]. rewrite (H0 E1) in Q4. apply Q4. }
  specialize (Gen vars false order G HG (Permutation_refl _) HI ltac:(discriminate) (fun _ => eq_refl)). destruct (fold_left _ _ _) as [[imp o'] G'].
  destruct Gen as (A & B & C & D). split; [exact A|]. split; [exact B|]. split; [exact C|]. intros E. now destruct (D E) as (_ & ? & ?).
Qed.

(** *** Tracing all variables of an order *)
Lemma trace_all_spec rest : forall before G pa, gok G -> NoDup rest -> let '(G', pa') := trace_all sc p before rest G pa in
  gok G' /\ (forall l1 v l2, rest = l1 ++ v :: l2 -> Permutation (pa' v) (snd (tr sc p v (before ++ l1)))) /\ forall v, ~ In v rest -> pa' v = pa v.
Proof.
  induction rest as [|v r IH]; intros before G pa HG HN; cbn [trace_all].
  - split; [exact HG|]. split; [|auto]. intros [|? ?] v l2 E; discriminate.
  - pose proof (gst_trace_ok sc Hsc p G v before HG) as Q. destruct (gst_trace sc p G v before) as [[G1 s] ps]. destruct Q as (Q1 & _ & Q2). inversion HN as [|? ? N1 N2]; subst.
    specialize (IH (before ++ [v]) G1 (fset pa v ps) Q1 N2). destruct (trace_all _ _ _ _ _ _) as [G' pa']. destruct IH as (I1 & I2 & I3). split; [exact I1|]. split.
    + intros [|a l1] u l2 E; cbn in E; injection E as E1 E2.
      * subst u. rewrite I3 by exact N1. unfold fset. rewrite Nat.eqb_refl, app_nil_r. exact Q2.
      * subst a. specialize (I2 l1 u l2 E2). rewrite <- app_assoc in I2. exact I2.
    + intros u Hu. rewrite I3 by (intros H; apply Hu; now right). unfold fset. destruct (Nat.eqb_spec u v) as [->|]; [destruct Hu; now left|reflexivity].
Qed.

(** *** A bound on the scores *)
Lemma val_bound : exists M, 0 <= M /\ forall v prefix, (v < p)%nat -> val v prefix <= M.
Proof.
  exists (fold_right Z.max 0 (flat_map (fun v => map (sc v) (powerset (seq 0 p))) (seq 0 p))).
  assert (MX : forall l x, In x l -> x <= fold_right Z.max 0 l) by (induction l as [|a l IH]; intros x []; cbn; [lia|specialize (IH x H); lia]).
  split; [induction (flat_map _ _) as [|a l IH]; cbn; lia|]. intros v prefix Hv. apply MX. apply in_flat_map. exists v. split; [now apply in_seq0|].
  pose proof (tr_spec sc Hsc p v prefix) as Q. unfold BossTree.val. destruct (tr sc p v prefix) as [s ps]. destruct Q as (-> & _ & HN & HI & _). cbn [fst].
  apply in_map_iff. exists (filter (fun x => memb x ps) (seq 0 p)). split.
  - apply Hsc. apply NoDup_Permutation; [apply NoDup_filter, seq_NoDup|exact HN|]. intros x. rewrite filter_In, memb_In, in_seq0. split; [tauto|]. intros H. split; [now apply HI|exact H].
  - apply in_powerset; [apply seq_sorted|]. split; [apply filter_sorted, seq_sorted|]. intros x H. now apply filter_In in H.
Qed.
Lemma tot_bound : exists M, forall order, Permutation order (seq 0 p) -> tot [] order <= M.
Proof.
  destruct val_bound as (M & M0 & HM). exists (Z.of_nat p * M). intros order HP.
  assert (G : forall l b, (forall v, In v l -> (v < p)%nat) -> tot b l <= Z.of_nat (length l) * M).
  { induction l as [|v l IH]; intros b H; cbn [tot length]; [lia|]. specialize (IH (b ++ [v]) (fun x Hx => H x (or_intror Hx))). specialize (HM v b (H v (or_introl eq_refl))). nia. }
  specialize (G order []). rewrite (Permutation_length HP), seq_length in G. apply G. intros v Hv. rewrite HP in Hv. now apply in_seq0.
Qed.

(** *** The search *)
Variable sh : nat -> list nat -> list nat.
Hypothesis Hsh : forall k l, Permutation (sh k l) l.
Lemma boss_loop_spec eps verbose M : 0 < eps -> (forall order, Permutation order (seq 0 p) -> tot [] order <= M) ->
  forall fuel k vars order G, gok G -> Permutation order (seq 0 p) -> Permutation vars (seq 0 p) -> M - tot [] order < Z.of_nat fuel ->
  exists order' G', boss_loop sc p sh fuel eps verbose k vars order G = Some (order', G') /\ gok G' /\ Permutation order' (seq 0 p) /\ tot [] order <= tot [] order' /\
    forall v j, (v < p)%nat -> tot [] (linsert j v (lremove v order')) < tot [] order' + eps.
Proof.
  intros He HM. induction fuel as [|f IH]; intros k vars order G HG HO HV Hf; [specialize (HM order HO); lia|]. cbn [boss_loop].
  assert (NO : NoDup order) by (rewrite HO; apply seq_NoDup).
  set (G1 := if verbose then _ else _). assert (HG1 : gok G1).
  { unfold G1. destruct verbose; [|exact HG]. pose proof (trace_all_spec order [] G (fun _ => []) HG NO) as Q. destruct (trace_all _ _ _ _ _ _). apply Q. }
  assert (HV1 : Permutation (sh k vars) (seq 0 p)) by now rewrite Hsh.
  pose proof (boss_pass_spec eps (sh k vars) He order G1 HG1 NO) as Q. 
  assert (HI : incl (sh k vars) order) by (intros x Hx; rewrite HO; now rewrite HV1 in Hx). specialize (Q HI).
  destruct (boss_pass sc p eps (sh k vars) order G1) as [[[|] order1] G2]; destruct Q as (Q1 & Q2 & Q3 & Q4).
  - specialize (Q3 eq_refl). assert (HO1 : Permutation order1 (seq 0 p)) by now rewrite Q2. destruct (IH (S k) (sh k vars) order1 G2 Q1 HO1 HV1 ltac:(lia)) as (o' & G' & A & B & C & D & E).
    exists o', G'. split; [exact A|]. split; [exact B|]. split; [exact C|]. split; [lia|exact E].
  - destruct (Q4 eq_refl) as [-> Q5]. exists order, G2. split; [reflexivity|]. split; [exact Q1|]. split; [exact HO|]. split; [lia|]. intros v j Hv. apply Q5. rewrite HV1. now apply in_seq0.
Qed.
End Boss.
