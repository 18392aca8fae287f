(** The search for the causal order. *)
From Verif Require Import Base UtilsModel GraphSpec GraphProofs UtilsProofs LingamModel LingamSpec LingamProofs.
From Coq Require Import Permutation.
Local Open Scope Z_scope.

(** ** numpy.argmax *)
Lemma beats_trans x b y : beats x b = false -> beats y b = true -> beats x y = false.
Proof. unfold beats. destruct x, b, y; try congruence; rewrite ?Z.ltb_lt, ?Z.ltb_ge; lia. Qed.
Lemma beats_irrefl x : beats x x = false.
Proof. destruct x; cbn; [apply Z.ltb_irrefl|reflexivity]. Qed.
Lemma argmax_from_spec l : forall best bi i L pre, L = pre ++ l -> length pre = i -> (bi < i)%nat -> best = nth bi L None ->
  (forall j, (j < i)%nat -> beats (nth j L None) best = false) ->
  let r := argmax_from best bi i l in (r < length L)%nat /\ forall j, (j < length L)%nat -> beats (nth j L None) (nth r L None) = false.
Proof.
  induction l as [|x l IH]; intros best bi i L pre E Lp Hb Eb HB r.
  - rewrite app_nil_r in E. subst L r. cbn. rewrite Lp. split; [exact Hb|]. rewrite <- Eb. exact HB.
  - assert (Ex : nth i L None = x) by (rewrite E, app_nth2 by lia; now replace (i - length pre)%nat with 0%nat by lia).
    assert (E' : L = (pre ++ [x]) ++ l) by (now rewrite <- app_assoc).
    subst r. cbn [argmax_from]. destruct (beats x best) eqn:Q.
    + apply (IH x i (S i) L (pre ++ [x])); auto; [rewrite app_length; cbn; lia|].
      intros j Hj. destruct (Nat.eq_dec j i) as [->|]; [rewrite Ex; apply beats_irrefl|]. apply (beats_trans _ best); [apply HB; lia|exact Q].
    + apply (IH best bi (S i) L (pre ++ [x])); auto; [rewrite app_length; cbn; lia|].
      intros j Hj. destruct (Nat.eq_dec j i) as [->|]; [now rewrite Ex|]. apply HB. lia.
Qed.
Lemma np_argmax_spec l : l <> [] -> (np_argmax l < length l)%nat /\ forall j, (j < length l)%nat -> beats (nth j l None) (nth (np_argmax l) l None) = false.
Proof.
  destruct l as [|x l]; [congruence|]. intros _. cbn [np_argmax]. apply (argmax_from_spec l x 0%nat 1%nat (x :: l) [x]); auto.
  intros j Hj. replace j with 0%nat by lia. apply beats_irrefl.
Qed.

(** ** One step *)
Lemma search_some score d K U m : search_causal_order score d K U = Some m ->
  let Uc := fst (search_candidate d U) in let Vj := snd (search_candidate d U) in
  In m Uc /\ forall i, In i Uc -> beats (score K U Uc Vj i) (score K U Uc Vj m) = false.
Proof.
  unfold search_causal_order. destruct (search_candidate d U) as [Uc Vj]. cbn [fst snd]. destruct Uc as [|a [|b r]]; [discriminate| |].
  - intros E. injection E as <-. split; [now left|]. intros i [<-|[]]. apply beats_irrefl.
  - set (l := a :: b :: r). intros E. injection E as E.
    destruct (np_argmax_spec (map (score K U l Vj) l)) as [Q1 Q2]; [discriminate|]. rewrite map_length in Q1, Q2.
    change (nth (np_argmax (map (score K U l Vj) l)) l 0%nat = m) in E. subst m. split; [now apply nth_In|].
    intros i Hi. apply (In_nth _ _ 0%nat) in Hi. destruct Hi as (j & Hj & <-). specialize (Q2 j Hj).
    assert (EN : forall q, (q < length l)%nat -> nth q (map (score K U l Vj) l) None = score K U l Vj (nth q l 0%nat)).
    { intros q Hq. rewrite (nth_indep _ None (score K U l Vj 0%nat)) by (now rewrite map_length). apply map_nth. }
    rewrite !EN in Q2 by auto. exact Q2.
Qed.
Lemma search_none score d K U : search_causal_order score d K U = None <-> fst (search_candidate d U) = [].
Proof. unfold search_causal_order. destruct (search_candidate d U) as [Uc Vj]. cbn [fst]. destruct Uc as [|a [|b r]]; split; congruence. Qed.
Lemma candidates_incl d U : incl (fst (search_candidate d U)) U.
Proof.
  intros x. unfold search_candidate. destruct (d_knw d) as [k|]; [|auto]. destruct (negb (d_soft d)); cbn [fst].
  - intros H. now apply filter_In in H.
  - destruct (filter (fun j => is_val 0 (ksum (map (k j) (others U j)))) U) as [|y r] eqn:E; intros H; [now apply filter_In in H|]. rewrite <- E in H. now apply filter_In in H.
Qed.
Lemma drop_knw d m : d_knw (drop_orders d m) = d_knw d /\ d_soft (drop_orders d m) = d_soft d.
Proof. unfold drop_orders. destruct (d_knw d) eqn:E; [|auto]. destruct (d_soft d) eqn:F; auto. Qed.
Lemma drops_knw L : forall d, d_knw (fold_left drop_orders L d) = d_knw d /\ d_soft (fold_left drop_orders L d) = d_soft d.
Proof. induction L as [|m L IH]; intros d; [auto|]. cbn. destruct (IH (drop_orders d m)) as [-> ->]. apply drop_knw. Qed.

(** ** The loop *)
Lemma order_loop_spec s : forall score d K U K' d', NoDup U -> length U = s -> order_loop s score d K U = Some (K', d') ->
  exists L, K' = K ++ L /\ Permutation L U /\ d' = fold_left drop_orders L d /\
    forall L1 m L2, L = L1 ++ m :: L2 -> search_causal_order score (fold_left drop_orders L1 d) (K ++ L1) (fold_left others L1 U) = Some m.
Proof.
  induction s as [|s IH]; intros score d K U K' d' ND HL E.
  - injection E as <- <-. apply length_zero_iff_nil in HL. subst U. exists []. rewrite app_nil_r. repeat split; auto. intros [|? ?] ? ?; discriminate.
  - cbn [order_loop] in E. destruct (search_causal_order score d K U) as [m|] eqn:Em; [|discriminate].
    destruct (search_some _ _ _ _ _ Em) as [Hm _]. apply candidates_incl in Hm.
    destruct (IH score (drop_orders d m) (K ++ [m]) (others U m) K' d') as (L & -> & HP & -> & HS); auto.
    + now apply others_NoDup.
    + rewrite (others_length U m ND Hm) in HL. lia.
    + exists (m :: L). rewrite <- app_assoc. split; [reflexivity|]. split; [rewrite HP; symmetry; now apply others_perm|]. split; [reflexivity|].
      intros [|x L1] m' L2 EL; cbn [app] in EL; injection EL as <- EL.
      * rewrite app_nil_r. exact Em.
      * cbn [fold_left]. specialize (HS L1 m' L2 EL). now rewrite <- app_assoc in HS.
Qed.
Lemma order_loop_total (Inv : dlingam -> list nat -> Prop) score :
  (forall d U, Inv d U -> U <> [] -> fst (search_candidate d U) <> []) ->
  (forall d U m, Inv d U -> In m (fst (search_candidate d U)) -> Inv (drop_orders d m) (others U m)) ->
  forall s d K U, NoDup U -> length U = s -> Inv d U -> exists r, order_loop s score d K U = Some r.
Proof.
  intros H1 H2. induction s as [|s IH]; intros d K U ND HL HI; [eexists; reflexivity|]. cbn [order_loop].
  destruct (search_causal_order score d K U) as [m|] eqn:Em.
  - destruct (search_some _ _ _ _ _ Em) as [Hm _]. apply IH; [now apply others_NoDup| |now apply H2]. apply candidates_incl in Hm. rewrite (others_length U m ND Hm) in HL. lia.
  - exfalso. apply search_none in Em. apply (H1 d U); auto. intros ->. discriminate.
Qed.
Lemma in_drops L : forall U x, In x (fold_left others L U) <-> In x U /\ ~ In x L.
Proof. induction L as [|m L IH]; intros U x; cbn [fold_left]; [cbn; tauto|]. rewrite IH, in_others. cbn [In]. intuition congruence. Qed.
Lemma hard_orders L : forall d k, d_knw d = Some k -> d_soft d = false -> forall p, In p (d_orders (fold_left drop_orders L d)) <-> In p (d_orders d) /\ ~ In (fst p) L.
Proof.
  induction L as [|m L IH]; intros d k Hk Hs p; cbn [fold_left]; [cbn; tauto|]. destruct (drop_knw d m) as [Q1 Q2]. rewrite (IH (drop_orders d m) k) by congruence.
  unfold drop_orders. rewrite Hk, Hs. cbn [d_orders]. rewrite filter_In, negb_true_iff, Nat.eqb_neq. cbn [In]. intuition congruence.
Qed.

(** ** The partial orders *)
Lemma knw_iff pk i j v : 0 <= v -> to_knw pk i j = Some v <-> pk i j = v.
Proof. intros Hv. unfold to_knw. destruct (Z.ltb_spec (pk i j) 0); split; intros E; try lia; try congruence. Qed.
Lemma occ_swap l p : NoDup l -> occurrences (map swap l) p = 1%nat <-> In (swap p) l.
Proof. intros ND. rewrite (occ_1 _ p (NoDup_swap l ND)). destruct p as [a b]. apply in_swap. Qed.
Lemma occ_both l p : NoDup l -> (1 < occurrences (l ++ map swap l) p)%nat <-> In p l /\ In (swap p) l.
Proof.
  intros ND. rewrite occ_app. pose proof (occ_NoDup l p ND) as U1. pose proof (occ_NoDup _ p (NoDup_swap l ND)) as U2.
  rewrite <- (occ_1 l p ND), <- (occ_swap l p ND). lia.
Qed.
Lemma in_dups n k v p : In p (unique_counts n (fun c => Nat.ltb 1 c) (where_val n k v ++ map swap (where_val n k v))) <-> In p (where_val n k v) /\ In (swap p) (where_val n k v).
Proof.
  rewrite in_unique, Nat.ltb_lt, (occ_both _ p (where_val_NoDup n k v)). split; [tauto|]. intros [H1 H2]. split; [|rewrite in_app_iff; tauto].
  destruct p as [a b]. apply in_where_val in H1. apply in_all_pairs. tauto.
Qed.
Lemma extract_inconsistent n k : extract_partial_orders n k = Inconsistent <-> exists i j, (i < n)%nat /\ (j < n)%nat /\ k i j = Some 1 /\ k j i = Some 1.
Proof.
  unfold extract_partial_orders. destruct (unique_counts n (fun c => Nat.ltb 1 c) (where_val n k 1 ++ map swap (where_val n k 1))) as [|[a b] l] eqn:E.
  - split; [intros H; exfalso; destruct (where_val n k 1 ++ _) in H; discriminate|]. intros (i & j & Hi & Hj & H1 & H2). exfalso.
    assert (K : In (i, j) (unique_counts n (fun c => Nat.ltb 1 c) (where_val n k 1 ++ map swap (where_val n k 1)))) by (apply in_dups; unfold swap; cbn [fst snd]; rewrite !in_where_val; tauto).
    now rewrite E in K.
  - split; [|reflexivity]. intros _. assert (K : In (a, b) ((a, b) :: l)) by now left. rewrite <- E in K. apply in_dups in K. unfold swap in K; cbn [fst snd] in K. rewrite !in_where_val in K. exists a, b. tauto.
Qed.
Definition kasks (n : nat) (k : knw) (a b : nat) : Prop := (a < n)%nat /\ (b < n)%nat /\ (k b a = Some 1 \/ (k a b = Some 0 /\ k b a <> Some 0)).
Lemma in_check_pairs n k a b :
  In (a, b) (where_val n k 1 ++ map swap (unique_counts n (fun c => Nat.ltb c 2)
     (where_val n k 0 ++ unique_counts n (fun c => Nat.ltb 1 c) (where_val n k 0 ++ map swap (where_val n k 0))))) <-> kasks n k b a.
Proof.
  set (dup := unique_counts n (fun c => Nat.ltb 1 c) (where_val n k 0 ++ map swap (where_val n k 0))).
  assert (ND : NoDup dup) by apply NoDup_filter, NoDup_all_pairs.
  assert (D : forall p, In p dup <-> In p (where_val n k 0) /\ In (swap p) (where_val n k 0)) by apply in_dups.
  rewrite in_app_iff, in_swap, in_unique, in_app_iff, occ_app, Nat.ltb_lt, in_all_pairs, in_where_val. unfold kasks.
  pose proof (occ_1 _ (b, a) (where_val_NoDup n k 0)) as O1. pose proof (occ_1 _ (b, a) ND) as O2. pose proof (occ_NoDup _ (b, a) ND) as O3. pose proof (occ_NoDup _ (b, a) (where_val_NoDup n k 0)) as O4.
  specialize (D (b, a)). unfold swap in D; cbn [fst snd] in D. rewrite !in_where_val in D. rewrite in_where_val in O1 |- *.
  destruct (in_dec pair_dec (b, a) dup) as [I|I].
  - pose proof (proj1 D I) as (D1 & D2). pose proof (proj2 O2 I) as O2'. pose proof (proj2 O1 D1) as O1'. rewrite O2', O1'. split; [intros [Q|(_ & _ & Q)]; [tauto|lia]|].
    intros (Q1 & Q2 & [Q3|[Q3 Q4]]); [tauto|]. exfalso. apply Q4. tauto.
  - assert (O2' : occurrences dup (b, a) = 0%nat) by (now apply occ_0). rewrite O2'. split.
    + intros [Q|(Q1 & Q2 & Q3)]; [tauto|]. destruct Q2 as [Q2|Q2]; [|contradiction]. split; [tauto|]. split; [tauto|]. right. split; [tauto|]. intros Q. apply I, D. tauto.
    + intros (Q1 & Q2 & [Q3|[Q3 Q4]]); [tauto|]. right. split; [tauto|]. split; [tauto|]. lia.
Qed.
Lemma extract_discard n k : extract_partial_orders n k = Discard -> forall a b, ~ kasks n k a b.
Proof.
  intros E a b H. apply in_check_pairs in H. unfold extract_partial_orders in E.
  destruct (unique_counts n (fun c => Nat.ltb 1 c) (where_val n k 1 ++ map swap (where_val n k 1))); [|discriminate].
  match type of H with In _ ?l => destruct l eqn:F end; [destruct H|discriminate].
Qed.
Lemma extract_orders n k po : extract_partial_orders n k = Orders po -> po <> [] /\ forall a b, In (a, b) po <-> kasks n k a b.
Proof.
  unfold extract_partial_orders. destruct (unique_counts n (fun c => Nat.ltb 1 c) (where_val n k 1 ++ map swap (where_val n k 1))); [|discriminate].
  pose proof (in_check_pairs n k) as C. match type of C with forall a b, In _ ?l <-> _ => set (cp := l) in * end. intros E.
  assert (NE : cp <> [] /\ po = map swap (unique_counts n (fun _ => true) cp)) by (destruct cp; [discriminate|]; injection E as <-; split; [discriminate|reflexivity]).
  destruct NE as [NE ->].
  assert (K : forall a b, In (a, b) (map swap (unique_counts n (fun _ => true) cp)) <-> kasks n k a b).
  { intros a b. rewrite in_swap, in_unique, C, in_all_pairs. unfold kasks. tauto. }
  split; [|exact K]. destruct cp as [|[a b] r]; [congruence|]. intros F. assert (Q : kasks n k b a) by (apply C; now left). apply K in Q. now rewrite F in Q.
Qed.

(** ** Sums of knowledge *)
Lemma ksum_from l : forall s, (forall z, In (Some z) l -> 0 <= z) -> 0 <= s ->
  is_val 0 (fold_left (fun s x => match s, x with Some a, Some b => Some (a + b) | _, _ => None end) l (Some s)) = true <-> s = 0 /\ forall x, In x l -> x = Some 0.
Proof.
  induction l as [|x l IH]; intros s Hn Hs; cbn [fold_left].
  - cbn. rewrite Z.eqb_eq. split; [intros ->; split; [reflexivity|intros ? []]|tauto].
  - destruct x as [z|].
    + assert (Hz : 0 <= z) by (apply Hn; now left). rewrite IH; [|intros w Hw; apply Hn; now right|lia]. split.
      * intros [E K]. assert (s = 0 /\ z = 0) as [-> ->] by lia. split; [reflexivity|]. intros x [<-|Hx]; auto.
      * intros [-> K]. pose proof (K (Some z) (or_introl eq_refl)) as E. injection E as ->. split; [reflexivity|]. intros x Hx. apply K. now right.
    + assert (F : forall l', fold_left (fun s x => match s, x with Some a, Some b => Some (a + b) | _, _ => None end) l' (@None Z) = None) by (induction l'; auto).
      rewrite F. cbn. split; [discriminate|]. intros [_ K]. specialize (K None (or_introl eq_refl)). discriminate.
Qed.
Lemma ksum_0 l : (forall z, In (Some z) l -> 0 <= z) -> is_val 0 (ksum l) = true <-> forall x, In x l -> x = Some 0.
Proof. intros H. unfold ksum. rewrite ksum_from by (auto; lia). tauto. Qed.
Lemma nansum_from l : forall s, (forall z, In (Some z) l -> 0 <= z) -> 0 <= s ->
  0 < fold_left (fun s x => match x with Some b => s + b | None => s end) l s <-> 0 < s \/ exists z, In (Some z) l /\ 0 < z.
Proof.
  induction l as [|x l IH]; intros s Hn Hs; cbn [fold_left].
  - split; [tauto|]. intros [H|(z & [] & _)]. exact H.
  - assert (Hn' : forall w, In (Some w) l -> 0 <= w) by (intros w Hw; apply Hn; now right). destruct x as [z|].
    + assert (Hz : 0 <= z) by (apply Hn; now left). rewrite IH by (auto; lia). split.
      * intros [H|(w & H1 & H2)]; [|right; exists w; split; [now right|exact H2]]. destruct (Z.eq_dec z 0); [left; lia|right; exists z; split; [now left|lia]].
      * intros [H|(w & [E|H1] & H2)]; [left; lia|injection E as ->; left; lia|right; exists w; auto].
    + rewrite IH by auto. split.
      * intros [H|(w & H1 & H2)]; [auto|right; exists w; split; [now right|exact H2]].
      * intros [H|(w & [E|H1] & H2)]; [auto|discriminate|right; exists w; auto].
Qed.
Lemma nansum_pos l : (forall z, In (Some z) l -> 0 <= z) -> (0 <? nansum l) = true <-> exists z, In (Some z) l /\ 0 < z.
Proof. intros H. rewrite Z.ltb_lt. unfold nansum. rewrite nansum_from by (auto; lia). split; [intros [K|K]; [lia|exact K]|auto]. Qed.
Lemma knw_nonneg pk i j z : to_knw pk i j = Some z -> 0 <= z.
Proof. unfold to_knw. destruct (Z.ltb_spec (pk i j) 0); [discriminate|]. intros E. injection E as <-. lia. Qed.
