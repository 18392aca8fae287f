(** Properties of DirectLiNGAM and ICA-LiNGAM. *)
From Verif Require Import Base UtilsModel GraphSpec GraphProofs UtilsProofs LingamModel LingamSpec LingamProofs LingamMain.
From Coq Require Import Permutation.
Local Open Scope Z_scope.

(** ** C114: the adjacency matrix *)
(** Whatever the regressions return, every non-zero coefficient goes forward in the causal order; the estimated graph has no directed cycle. *)
Theorem C114_coefficients_follow_order : forall lasso k order, NoDup order -> let B := estimate_adjacency_matrix lasso k order in
  (forall a b, arrow B a b -> before order a b) /\ acyclic (arrow B).
Proof.
  intros lasso k order ND B. assert (H : forall a b, arrow B a b -> before order a b) by (intros a b Q; now apply (adjacency_arrow lasso k order ND)).
  split; [exact H|]. apply (rank_acyclic' _ (pos order)). intros a b Q. now apply before_pos, H.
Qed.
(** The row of a variable holds exactly the coefficients the regression on its predecessors gave (those the knowledge does not exclude). *)
Theorem C114_coefficients_kept : forall lasso k order, NoDup order -> (forall ps t, length (lasso ps t) = length ps) -> forall l1 t l2, order = l1 ++ t :: l2 ->
  let B := estimate_adjacency_matrix lasso k order in
  let ps := filter (fun p => match k with Some kn => negb (is_val 0 (kn t p)) | None => true end) l1 in
  (forall q, (q < length ps)%nat -> B t (nth q ps 0%nat) = nth q (lasso ps t) 0) /\ (forall j, ~ In j ps -> B t j = 0).
Proof.
  intros lasso k order ND HL l1 t l2 E B ps.
  assert (Et : nth (length l1) order 0%nat = t) by (rewrite E, app_nth2, Nat.sub_diag by lia; reflexivity).
  assert (Ep : preds k order (length l1) = ps).
  { unfold preds. rewrite Et. replace (firstn (length l1) order) with l1 by (rewrite E, firstn_app, Nat.sub_diag, firstn_all; cbn; now rewrite app_nil_r).
    unfold ps. apply filter_ext_in. intros p Hp. unfold allowed. destruct k as [kn|]; [|reflexivity]. destruct (Nat.eqb_spec t p) as [<-|]; [|reflexivity].
    exfalso. rewrite E in ND. apply NoDup_remove_2 in ND. apply ND, in_or_app. now left. }
  assert (Hl : (length l1 <= length order - 1)%nat) by (rewrite E, app_length; cbn; lia).
  destruct (adjacency_run lasso k order ND (length order - 1)) as [I1 I2]; [rewrite E, app_length; cbn; lia|].
  change (fold_left (adjacency_step lasso k order) (seq 1 (length order - 1)) zeros) with B in I1, I2. split.
  - intros q Hq. destruct (length l1) as [|i] eqn:El; [unfold ps in Hq; apply length_zero_iff_nil in El; subst l1; cbn in Hq; lia|]. specialize (I2 HL (S i) q). rewrite Ep, Et in I2. apply I2; [lia|exact Hq].
  - intros j Nj. destruct (Z.eq_dec (B t j) 0) as [|N]; [assumption|]. exfalso. destruct (I1 t j N) as (i & Hi & Ei & K).
    assert (i = length l1) by (apply (proj1 (NoDup_nth order 0%nat) ND i (length l1)); [lia|rewrite E, app_length; cbn; lia|congruence]). subst i. rewrite Ep in K. contradiction.
Qed.

(** ** C115: DirectLiNGAM's order *)
Lemma fit_order n score lasso d K B d' : dl_fit n score lasso d = Some (K, B, d') ->
  Permutation K (seq 0 n) /\ d' = fold_left drop_orders K d /\ B = estimate_adjacency_matrix lasso (d_knw d) K /\
  forall L1 m L2, K = L1 ++ m :: L2 -> search_causal_order score (fold_left drop_orders L1 d) L1 (fold_left others L1 (seq 0 n)) = Some m.
Proof.
  unfold dl_fit. destruct (order_loop n score d [] (seq 0 n)) as [[K0 d0]|] eqn:E; [|discriminate]. intros Q. injection Q as -> <- ->.
  destruct (order_loop_spec n score d [] (seq 0 n) K d') as (L & EK & HP & Hd & HS); auto; [apply seq_NoDup|apply seq_length|]. cbn in EK. subst L. auto.
Qed.
Lemma perm_NoDup n (K : list nat) : Permutation K (seq 0 n) -> NoDup K.
Proof. intros H. apply (Permutation_NoDup (Permutation_sym H)), seq_NoDup. Qed.
Lemma perm_in n (K : list nat) x : Permutation K (seq 0 n) -> In x K <-> (x < n)%nat.
Proof. intros H. rewrite <- in_seq0. split; apply Permutation_in; [exact H|now symmetry]. Qed.
(** A returned order lists every variable once, and the coefficient matrix is acyclic. *)
Theorem C115_order_is_permutation : forall n score lasso d K B d', dl_fit n score lasso d = Some (K, B, d') ->
  Permutation K (seq 0 n) /\ (forall a b, arrow B a b -> before K a b) /\ acyclic (arrow B).
Proof.
  intros n score lasso d K B d' E. destruct (fit_order _ _ _ _ _ _ _ E) as (HP & _ & -> & _). split; [exact HP|]. apply C114_coefficients_follow_order. now apply perm_NoDup in HP.
Qed.
(** Without knowledge fit never raises, and every variable is chosen because no remaining one scores higher. *)
Theorem C115_no_knowledge : forall n score lasso soft, exists d K B d',
  dl_init n None soft = Some d /\ dl_fit n score lasso d = Some (K, B, d') /\
  forall L1 m L2, K = L1 ++ m :: L2 -> let U := fold_left others L1 (seq 0 n) in
    (forall i, In i U <-> (i < n)%nat /\ ~ In i L1) /\ forall i, In i U -> beats (score L1 U U [] i) (score L1 U U [] m) = false.
Proof.
  intros n score lasso soft. set (d := mkDL None soft []).
  destruct (order_loop_total (fun d _ => d_knw d = None) score) with (s := n) (d := d) (K := @nil nat) (U := seq 0 n) as [[K d'] E]; auto.
  - intros d0 U Hd NU. unfold search_candidate. rewrite Hd. exact NU.
  - intros d0 U m Hd _. destruct (drop_knw d0 m). congruence.
  - apply seq_NoDup.
  - apply seq_length.
  - assert (EF : dl_fit n score lasso d = Some (K, estimate_adjacency_matrix lasso (d_knw d) K, d')) by (unfold dl_fit; now rewrite E).
    exists d, K, (estimate_adjacency_matrix lasso (d_knw d) K), d'. split; [reflexivity|]. split; [exact EF|]. intros L1 m L2 EK U.
    destruct (fit_order _ _ _ _ _ _ _ EF) as (_ & _ & _ & HS). specialize (HS L1 m L2 EK). split; [intros i; unfold U; now rewrite in_drops, in_seq0|].
    apply search_some in HS. fold U in HS. assert (EC : search_candidate (fold_left drop_orders L1 d) U = (U, [])) by (unfold search_candidate; destruct (drops_knw L1 d) as [-> _]; reflexivity).
    rewrite EC in HS. cbn [fst snd] in HS. apply HS.
Qed.

(** ** C116: prior knowledge applied in the strong way *)
Lemma kasks_iff n pk a b : kasks n (to_knw pk) a b <-> (a < n)%nat /\ (b < n)%nat /\ asks_before pk a b.
Proof. unfold kasks, asks_before. rewrite !knw_iff by lia. reflexivity. Qed.
Lemma init_cases n pk d : dl_init n (Some pk) false = Some d ->
  (d_knw d = None /\ d_orders d = [] /\ d_soft d = false /\ forall a b, (a < n)%nat -> (b < n)%nat -> ~ asks_before pk a b) \/
  (d_knw d = Some (to_knw pk) /\ d_soft d = false /\ d_orders d <> [] /\ forall a b, In (a, b) (d_orders d) <-> (a < n)%nat /\ (b < n)%nat /\ asks_before pk a b).
Proof.
  cbn [dl_init]. destruct (extract_partial_orders n (to_knw pk)) as [| |po] eqn:E; intros Q; [discriminate| |]; injection Q as <-; cbn [d_knw d_orders d_soft].
  - left. repeat split; auto. intros a b Ha Hb Q. apply (extract_discard _ _ E a b). apply kasks_iff. auto.
  - right. destruct (extract_orders _ _ _ E) as [N H]. do 2 (split; [reflexivity|]). split; [exact N|]. intros a b. now rewrite H, kasks_iff.
Qed.
(** The constructor raises exactly when the knowledge asks for a path in both directions (a path from a variable to itself included). *)
Theorem C116_constructor_raises : forall n pk, dl_init n (Some pk) false = None <-> exists i j, (i < n)%nat /\ (j < n)%nat /\ pk i j = 1 /\ pk j i = 1.
Proof.
  intros n pk. cbn [dl_init]. pose proof (extract_inconsistent n (to_knw pk)) as H. destruct (extract_partial_orders n (to_knw pk)) as [| |po] eqn:E.
  - split; [|reflexivity]. intros _. destruct (proj1 H eq_refl) as (i & j & Hi & Hj & H1 & H2). rewrite knw_iff in H1, H2 by lia. exists i, j. auto.
  - split; [discriminate|]. intros (i & j & Hi & Hj & H1 & H2). assert (Q : Discard = Inconsistent) by (apply H; exists i, j; rewrite !knw_iff by lia; auto). discriminate.
  - split; [discriminate|]. intros (i & j & Hi & Hj & H1 & H2). assert (Q : Orders po = Inconsistent) by (apply H; exists i, j; rewrite !knw_iff by lia; auto). discriminate.
Qed.
(** The order of a freshly built object respects the knowledge; "no path from j to i", unless the opposite is excluded too, holds of the result. *)
Theorem C116_order_respects_knowledge : forall n pk score lasso d K B d', dl_init n (Some pk) false = Some d -> dl_fit n score lasso d = Some (K, B, d') ->
  forall a b, (a < n)%nat -> (b < n)%nat -> asks_before pk a b -> before K a b /\ ~ reach1 (arrow B) b a.
Proof.
  intros n pk score lasso d K B d' EI EF a b Ha Hb HA. destruct (fit_order _ _ _ _ _ _ _ EF) as (HP & _ & EB & HS).
  pose proof (C115_order_is_permutation _ _ _ _ _ _ _ EF) as (_ & HB & _).
  enough (Q : before K a b).
  { split; [exact Q|]. intros R. apply (reach1_rank _ (pos K)) in R; [apply before_pos in Q; [lia|now apply perm_NoDup in HP]|]. intros x y Hxy. apply before_pos; [now apply perm_NoDup in HP|auto]. }
  destruct (init_cases n pk d EI) as [(_ & _ & _ & N)|(Ek & Es & _ & HO)]; [exfalso; now apply (N a b)|].
  assert (IK : In b K) by now apply (perm_in n K b HP). apply in_split in IK. destruct IK as (L1 & L2 & EK). specialize (HS L1 b L2 EK).
  apply search_some in HS. destruct HS as [Hm _]. unfold search_candidate in Hm. destruct (drops_knw L1 d) as [Q1 Q2]. rewrite Q1, Q2, Ek, Es in Hm. cbn [negb fst] in Hm.
  apply filter_In in Hm. destruct Hm as [_ Hm]. apply negb_true_iff, memb_not_In in Hm.
  destruct (in_dec Nat.eq_dec a L1) as [I|I]; [subst K; apply in_split in I; destruct I as (m1 & m2 & ->); exists m1, m2, L2; now rewrite <- app_assoc|].
  exfalso. apply Hm. apply in_map_iff. exists (a, b). split; [reflexivity|]. apply (hard_orders L1 d _ Ek Es). split; [apply HO; auto|exact I].
Qed.
(** fit succeeds exactly when some numbering of the variables is compatible with the knowledge. *)
Lemma min_exists (r : nat -> nat) U : U <> [] -> exists m, In m U /\ forall x, In x U -> (r m <= r x)%nat.
Proof.
  induction U as [|a U IH]; [congruence|]. intros _. destruct U as [|b U]; [exists a; split; [now left|intros x [<-|[]]; lia]|].
  destruct IH as (m & Hm & H); [discriminate|]. destruct (le_lt_dec (r a) (r m)) as [L|L].
  - exists a. split; [now left|]. intros x [<-|Hx]; [lia|]. specialize (H x Hx). lia.
  - exists m. split; [now right|]. intros x [<-|Hx]; [lia|]. now apply H.
Qed.
Theorem C116_fit_succeeds_iff : forall n pk score lasso d, dl_init n (Some pk) false = Some d ->
  ((exists K B d', dl_fit n score lasso d = Some (K, B, d')) <-> orderable n pk).
Proof.
  intros n pk score lasso d EI. split.
  - intros (K & B & d' & EF). exists (pos K). intros a b Ha Hb HA. destruct (C116_order_respects_knowledge n pk score lasso d K B d' EI EF a b Ha Hb HA) as [Q _].
    apply before_pos; [|exact Q]. destruct (fit_order _ _ _ _ _ _ _ EF) as (HP & _). now apply perm_NoDup in HP.
  - intros (r & Hr). enough (exists res, order_loop n score d [] (seq 0 n) = Some res) as [[K d'] E] by (unfold dl_fit; rewrite E; eauto).
    destruct (init_cases n pk d EI) as [(Ek & _ & _ & _)|(Ek & Es & _ & HO)].
    + apply (order_loop_total (fun d _ => d_knw d = None)); auto using seq_NoDup, seq_length.
      * intros d0 U Hd NU. unfold search_candidate. rewrite Hd. exact NU.
      * intros d0 U m Hd _. destruct (drop_knw d0 m). congruence.
    + apply (order_loop_total (fun d U => d_knw d = Some (to_knw pk) /\ d_soft d = false /\ forall a b, In (a, b) (d_orders d) -> In a U /\ (r a < r b)%nat)); auto using seq_NoDup, seq_length.
      * intros d0 U (Hk & Hs & H) NU. unfold search_candidate. rewrite Hk, Hs. cbn [negb fst]. destruct (min_exists r U NU) as (m & Hm & Hmin).
        intros F. assert (I : In m (filter (fun i => negb (memb i (map snd (d_orders d0)))) U)); [|now rewrite F in I].
        apply filter_In. split; [exact Hm|]. apply negb_true_iff, memb_not_In. intros I. apply in_map_iff in I. destruct I as ([x y] & Ey & I). cbn in Ey. subst y.
        apply H in I. destruct I as [I1 I2]. apply Hmin in I1. lia.
      * intros d0 U m (Hk & Hs & H) Hm. destruct (drop_knw d0 m) as [Q1 Q2]. split; [congruence|]. split; [congruence|]. intros a b I.
        apply (hard_orders [m] d0 _ Hk Hs (a, b)) in I. destruct I as [I1 I2]. apply H in I1. cbn [fst In] in I2. rewrite in_others. split; [|tauto]. split; [tauto|]. intros ->. apply I2. now left.
      * split; [exact Ek|]. split; [exact Es|]. intros a b I. apply HO in I. destruct I as (Ha & Hb & I). split; [now apply in_seq0|now apply Hr].
Qed.
(** Coefficients excluded by the knowledge are zero, as soon as the knowledge says something about the order (see C119). *)
Theorem C116_excluded_coefficients : forall n pk score lasso d K B d', dl_init n (Some pk) false = Some d -> dl_fit n score lasso d = Some (K, B, d') ->
  (exists a b, (a < n)%nat /\ (b < n)%nat /\ asks_before pk a b) -> forall i j, pk i j = 0 -> B i j = 0.
Proof.
  intros n pk score lasso d K B d' EI EF (a & b & Ha & Hb & HA) i j Z0. destruct (fit_order _ _ _ _ _ _ _ EF) as (HP & _ & -> & _).
  destruct (init_cases n pk d EI) as [(_ & _ & _ & N)|(Ek & _)]; [exfalso; now apply (N a b)|].
  destruct (Z.eq_dec (estimate_adjacency_matrix lasso (d_knw d) K i j) 0) as [|N]; [assumption|]. exfalso.
  apply (adjacency_arrow lasso (d_knw d) K (perm_NoDup n K HP)) in N. destruct N as [_ N]. rewrite Ek in N. unfold allowed in N.
  destruct (Nat.eqb i j); [discriminate|]. assert (Q : to_knw pk i j = Some 0) by (now apply knw_iff). rewrite Q in N. discriminate.
Qed.

(** ** C117: prior knowledge applied softly *)
Section Soft.
Variable pk : mat.
Let k := to_knw pk.
Lemma row_nonneg U i z : In (Some z) (map (k i) U) -> 0 <= z.
Proof. intros H. apply in_map_iff in H. destruct H as (x & E & _). now apply knw_nonneg in E. Qed.
Lemma col_nonneg U i z : In (Some z) (map (fun a => k a i) U) -> 0 <= z.
Proof. intros H. apply in_map_iff in H. destruct H as (x & E & _). now apply knw_nonneg in E. Qed.
Lemma exogenous_iff U j : is_val 0 (ksum (map (k j) (others U j))) = true <-> forall x, In x U -> x <> j -> pk j x = 0.
Proof.
  rewrite ksum_0 by apply row_nonneg. split.
  - intros H x Hx N. apply knw_iff; [lia|]. apply H. apply in_map_iff. exists x. rewrite in_others. auto.
  - intros H y Hy. apply in_map_iff in Hy. destruct Hy as (x & <- & Hx). apply in_others in Hx. apply knw_iff; [lia|]. now apply H.
Qed.
Lemma sink_iff U i : is_val 0 (ksum (map (fun a => k a i) (others U i))) = true <-> forall x, In x U -> x <> i -> pk x i = 0.
Proof.
  rewrite ksum_0 by apply col_nonneg. split.
  - intros H x Hx N. apply knw_iff; [lia|]. apply (H (k x i)). apply in_map_iff. exists x. rewrite in_others. auto.
  - intros H y Hy. apply in_map_iff in Hy. destruct Hy as (x & <- & Hx). apply in_others in Hx. apply knw_iff; [lia|]. now apply H.
Qed.
Lemma endogenous_iff U j : (0 <? nansum (map (k j) (others U j))) = true <-> exists x, In x U /\ x <> j /\ 0 < pk j x.
Proof.
  rewrite nansum_pos by apply row_nonneg. split.
  - intros (z & Hz & Hp). apply in_map_iff in Hz. destruct Hz as (x & E & Hx). apply in_others in Hx. exists x. split; [tauto|]. split; [tauto|].
    apply knw_iff in E; lia.
  - intros (x & Hx & N & Hp). exists (pk j x). split; [|exact Hp]. apply in_map_iff. exists x. split; [apply knw_iff; lia|]. rewrite in_others. auto.
Qed.
Lemma soft_candidates d U x : d_knw d = Some k -> d_soft d = true -> In x (fst (search_candidate d U)) -> In x U /\ forall y, In y U -> y <> x -> pk x y <= 0.
Proof.
  intros Hk Hs. unfold search_candidate. rewrite Hk, Hs. cbn [negb fst].
  destruct (filter (fun j => is_val 0 (ksum (map (k j) (others U j)))) U) as [|e r] eqn:E.
  - intros H. apply filter_In in H. destruct H as [H1 H2]. split; [exact H1|]. intros y Hy N. apply negb_true_iff, memb_not_In in H2. apply Z.nlt_ge. intros Q. apply H2.
    apply in_or_app. left. apply filter_In. split; [exact H1|]. apply endogenous_iff. exists y. auto.
  - intros H. rewrite <- E in H. apply filter_In in H. destruct H as [H1 H2]. split; [exact H1|]. intros y Hy N. rewrite exogenous_iff in H2. rewrite H2; auto; lia.
Qed.
Lemma soft_total d U (P : nat -> nat -> bool) : d_knw d = Some k -> d_soft d = true ->
  (forall a, P a a = false) -> (forall a b c, P a b = true -> P b c = true -> P a c = true) ->
  (forall a b, In a U -> In b U -> a <> b -> 0 < pk b a -> P a b = true) -> (forall a b, In a U -> In b U -> a <> b -> pk b a = 0 -> P a b = false) ->
  U <> [] -> fst (search_candidate d U) <> [].
Proof.
  intros Hk Hs Pi Pt P1 P0 NU. unfold search_candidate. rewrite Hk, Hs. cbn [negb fst].
  destruct (filter (fun j => is_val 0 (ksum (map (k j) (others U j)))) U) as [|e r] eqn:E; [|discriminate]. intros F.
  assert (All : forall i, In i U -> (exists x, In x U /\ x <> i /\ 0 < pk i x) \/ (forall x, In x U -> x <> i -> pk x i = 0)).
  { intros i Hi. destruct (memb i (filter (fun j => 0 <? nansum (map (k j) (others U j))) U ++ filter (fun i => is_val 0 (ksum (map (fun a => k a i) (others U i)))) U)) eqn:M.
    - apply memb_In in M. apply in_app_or in M. destruct M as [M|M]; apply filter_In in M; destruct M as [_ M]; [left; now apply endogenous_iff|right; now apply sink_iff].
    - exfalso. assert (I : In i (filter (fun i => negb (memb i (filter (fun j => 0 <? nansum (map (k j) (others U j))) U ++ filter (fun i => is_val 0 (ksum (map (fun a => k a i) (others U i)))) U))) U)) by (apply filter_In; rewrite M; auto).
      now rewrite F in I. }
  (* a minimal element below every element *)
  set (lower := fun u => filter (fun x => P x u) U).
  assert (Min : forall c u, In u U -> (length (lower u) <= c)%nat -> exists m, In m U /\ (m = u \/ P m u = true) /\ forall x, In x U -> P x m = false).
  { induction c as [|c IH]; intros u Hu Hc.
    - exists u. split; [exact Hu|]. split; [now left|]. intros x Hx. destruct (P x u) eqn:Q; [|reflexivity]. exfalso.
      assert (I : In x (lower u)) by (apply filter_In; auto). destruct (lower u); [destruct I|cbn in Hc; lia].
    - destruct (lower u) as [|x l] eqn:El.
      + exists u. split; [exact Hu|]. split; [now left|]. intros x Hx. destruct (P x u) eqn:Q; [|reflexivity]. exfalso. assert (I : In x (lower u)) by (apply filter_In; auto). now rewrite El in I.
      + assert (Ix : In x (lower u)) by (rewrite El; now left). apply filter_In in Ix. destruct Ix as [Ix Px].
        assert (HL : (length (lower x) < length (lower u))%nat).
        { unfold lower. clear - Pi Pt Px Ix. revert Ix. 
          assert (G : forall l, (length (filter (fun y => P y x) l) <= length (filter (fun y => P y u) l))%nat /\ (In x l -> (length (filter (fun y => P y x) l) < length (filter (fun y => P y u) l))%nat)).
          { induction l as [|y l [IH1 IH2]]; cbn; [split; [lia|intros []]|]. split.
            - destruct (P y x) eqn:A; [rewrite (Pt _ _ _ A Px); cbn; lia|]. destruct (P y u); cbn; lia.
            - intros [->|I]; [rewrite Pi, Px; cbn; lia|]. specialize (IH2 I). destruct (P y x) eqn:A; [rewrite (Pt _ _ _ A Px); cbn; lia|]. destruct (P y u); cbn; lia. }
          intros I. apply G. exact I. }
        rewrite El in HL. destruct (IH x Ix ltac:(cbn [length] in Hc, HL; lia)) as (m & Hm & [->|Q] & Hmin); [exists x; auto|]. exists m. split; [exact Hm|]. split; [right; eapply Pt; eauto|exact Hmin]. }
  assert (Sink : forall m, In m U -> (forall x, In x U -> P x m = false) -> forall x, In x U -> x <> m -> pk x m = 0).
  { intros m Hm Hmin. destruct (All m Hm) as [(x & Hx & N & Hp)|H]; [|exact H]. exfalso. pose proof (P1 x m Hx Hm N Hp) as Q. rewrite (Hmin x Hx) in Q. discriminate. }
  assert (Every : forall u, In u U -> forall x, In x U -> P x u = false).
  { intros u Hu. destruct (Min (length (lower u)) u Hu ltac:(lia)) as (m & Hm & [->|Q] & Hmin); [exact Hmin|]. exfalso.
    destruct (Nat.eq_dec m u) as [->|N]; [rewrite Pi in Q; discriminate|]. rewrite (P0 m u) in Q; auto; try discriminate. }
  destruct U as [|u U']; [congruence|]. assert (I : In u (filter (fun j => is_val 0 (ksum (map (k j) (others (u :: U') j)))) (u :: U'))).
  { apply filter_In. split; [now left|]. apply exogenous_iff. intros x Hx N. apply (Sink x Hx (Every x Hx) u); [now left|congruence]. }
  now rewrite E in I.
Qed.
End Soft.
(** Soft knowledge: a returned order still puts a variable after those it is said to descend from, and excluded coefficients are zero. *)
Theorem C117_soft_knowledge : forall n pk score lasso d K B d', dl_init n (Some pk) true = Some d -> dl_fit n score lasso d = Some (K, B, d') ->
  (forall a b, (a < n)%nat -> (b < n)%nat -> a <> b -> pk b a = 1 -> before K a b /\ ~ reach1 (arrow B) b a) /\ (forall i j, pk i j = 0 -> B i j = 0).
Proof.
  intros n pk score lasso d K B d' EI EF. pose proof (C115_order_is_permutation _ _ _ _ _ _ _ EF) as (_ & HB & _). destruct (fit_order _ _ _ _ _ _ _ EF) as (HP & _ & EB & HS).
  injection EI as <-. split.
  - intros a b Ha Hb N H1. enough (Q : before K a b).
    { split; [exact Q|]. intros R. apply (reach1_rank _ (pos K)) in R; [apply before_pos in Q; [lia|now apply perm_NoDup in HP]|]. intros x y Hxy. apply before_pos; [now apply perm_NoDup in HP|auto]. }
    assert (IK : In b K) by now apply (perm_in n K b HP). apply in_split in IK. destruct IK as (L1 & L2 & EK). specialize (HS L1 b L2 EK).
    apply search_some in HS. destruct HS as [Hm _]. destruct (drops_knw L1 (mkDL (Some (to_knw pk)) true [])) as [Q1 Q2].
    apply (soft_candidates pk) in Hm; [|exact Q1|exact Q2]. destruct Hm as [_ Hm].
    destruct (in_dec Nat.eq_dec a L1) as [I|I]; [subst K; apply in_split in I; destruct I as (m1 & m2 & ->); exists m1, m2, L2; now rewrite <- app_assoc|].
    exfalso. specialize (Hm a). rewrite in_drops, in_seq0 in Hm. specialize (Hm (conj Ha I) N). lia.
  - intros i j Z0. subst B. destruct (Z.eq_dec (estimate_adjacency_matrix lasso (d_knw (mkDL (Some (to_knw pk)) true [])) K i j) 0) as [|N]; [assumption|]. exfalso.
    apply (adjacency_arrow lasso _ K (perm_NoDup n K HP)) in N. destruct N as [_ N]. cbn [d_knw] in N. unfold allowed in N.
    destruct (Nat.eqb i j); [discriminate|]. assert (Q : to_knw pk i j = Some 0) by (now apply knw_iff). rewrite Q in N. discriminate.
Qed.
(** If some strict partial order ("has a directed path to") satisfies the knowledge, fit succeeds. *)
Theorem C117_soft_succeeds : forall n pk score lasso (P : nat -> nat -> bool),
  (forall a, P a a = false) -> (forall a b c, P a b = true -> P b c = true -> P a c = true) ->
  (forall a b, (a < n)%nat -> (b < n)%nat -> a <> b -> (pk b a = 1 -> P a b = true) /\ (pk b a = 0 -> P a b = false) /\ pk b a <= 1) ->
  exists d K B d', dl_init n (Some pk) true = Some d /\ dl_fit n score lasso d = Some (K, B, d').
Proof.
  intros n pk score lasso P Pi Pt HP. set (d := mkDL (Some (to_knw pk)) true []).
  destruct (order_loop_total (fun d U => d_knw d = Some (to_knw pk) /\ d_soft d = true /\ forall x, In x U -> (x < n)%nat) score) with (s := n) (d := d) (K := @nil nat) (U := seq 0 n) as [[K d'] E];
    auto using seq_NoDup, seq_length.
  - intros d0 U (Hk & Hs & H) NU. apply (soft_total pk d0 U P); auto; intros a b Ha Hb N Q; apply HP; auto; destruct (HP a b) as (_ & _ & L); auto; lia.
  - intros d0 U m (Hk & Hs & H) _. destruct (drop_knw d0 m) as [Q1 Q2]. split; [congruence|]. split; [congruence|]. intros x Hx. apply H. now apply in_others in Hx.
  - split; [reflexivity|]. split; [reflexivity|]. intros x Hx. now apply in_seq0.
  - exists d, K, (estimate_adjacency_matrix lasso (d_knw d) K), d'. split; [reflexivity|]. unfold dl_fit. now rewrite E.
Qed.

(** ** C118: a second fit forgets the order knowledge *)
Lemma order_loop_no_orders score k : forall s K U, order_loop s score (mkDL (Some k) false []) K U =
  match order_loop s score (mkDL None false []) K U with Some (K', _) => Some (K', mkDL (Some k) false []) | None => None end.
Proof.
  induction s as [|s IH]; intros K U; [reflexivity|]. cbn [order_loop].
  assert (E : search_causal_order score (mkDL (Some k) false []) K U = search_causal_order score (mkDL None false []) K U).
  { unfold search_causal_order, search_candidate. cbn [d_knw d_soft d_orders negb map].
    replace (filter (fun i => negb (memb i [])) U) with U by (induction U as [|x U IU]; [reflexivity|cbn; f_equal; exact IU]). reflexivity. }
  rewrite E. destruct (search_causal_order score (mkDL None false []) K U) as [m|]; [|reflexivity]. cbn [drop_orders d_knw d_soft d_orders filter]. apply IH.
Qed.
(** Whatever the knowledge asked for: once the object has been fitted, the order of any later fit (of bootstrap, say) is the one an object without
    knowledge finds. *)
Theorem C118_refit_forgets_orders_refuted : forall n pk score lasso d K B d' score2 lasso2, dl_init n (Some pk) false = Some d -> dl_fit n score lasso d = Some (K, B, d') ->
  exists d0 K2 B2 d2 B0 d0', dl_init n None false = Some d0 /\ dl_fit n score2 lasso2 d' = Some (K2, B2, d2) /\ dl_fit n score2 lasso2 d0 = Some (K2, B0, d0').
Proof.
  intros n pk score lasso d K B d' score2 lasso2 EI EF. destruct (C115_no_knowledge n score2 lasso2 false) as (d0 & K2 & B0 & d0' & E0 & F0 & _).
  assert (Ed0 : d0 = mkDL None false []) by (cbn in E0; congruence).
  destruct (fit_order _ _ _ _ _ _ _ EF) as (HP & Ed & _ & _). destruct (drops_knw K d) as [Q1 Q2].
  assert (HX : d' = mkDL None false [] \/ exists k, d' = mkDL (Some k) false []).
  { destruct (init_cases n pk d EI) as [(Ek & Eo & Es & _)|(Ek & Es & _ & HO)].
    - left. destruct d as [dk ds dor]. cbn in Ek, Eo, Es. subst dk ds dor d'. clear. induction K as [|x K IH]; [reflexivity|exact IH].
    - right. exists (to_knw pk). assert (Eor : d_orders d' = []).
      { subst d'. destruct (d_orders (fold_left drop_orders K d)) as [|[a b] l] eqn:El; [reflexivity|]. exfalso.
        assert (I : In (a, b) (d_orders (fold_left drop_orders K d))) by (rewrite El; now left). apply (hard_orders K d _ Ek Es) in I. destruct I as [I1 I2].
        apply HO in I1. apply I2. cbn. now apply (perm_in n K a HP). }
      destruct d' as [dk ds dor]. cbn in Eor. subst dor. rewrite <- Ed in Q1, Q2. cbn in Q1, Q2. congruence. }
  assert (F2 : exists B2 d2, dl_fit n score2 lasso2 d' = Some (K2, B2, d2)).
  { destruct HX as [->|[k ->]]; [rewrite <- Ed0; eauto|]. unfold dl_fit in *. rewrite Ed0 in F0. rewrite order_loop_no_orders.
    destruct (order_loop n score2 (mkDL None false []) [] (seq 0 n)) as [[K3 d3]|]; [|discriminate]. injection F0 as -> _ _. eauto. }
  destruct F2 as (B2 & d2 & F2). exists d0, K2, B2, d2, B0, d0'. auto.
Qed.
(** Two variables, knowledge "1 causes 0": the first fit orders 1, 0; the second 0, 1. *)
Definition flat_score : scorer := fun _ _ _ _ _ => Some 0.
Definition ones_lasso : lassoer := fun ps _ => map (fun _ => 1) ps.
Definition pk10 : mat := fun i j => match i, j with 0%nat, 1%nat => 1 | _, _ => -1 end.
Example C118_ex : exists d B1 d1 B2 d2, dl_init 2 (Some pk10) false = Some d /\ dl_fit 2 flat_score ones_lasso d = Some ([1; 0]%nat, B1, d1) /\
  dl_fit 2 flat_score ones_lasso d1 = Some ([0; 1]%nat, B2, d2) /\ asks_before pk10 1 0 /\ ~ before [0; 1]%nat 1 0.
Proof.
  eexists. eexists. eexists. eexists. eexists. split; [reflexivity|]. split; [reflexivity|]. split; [reflexivity|]. split; [left; reflexivity|].
  intros H. apply before_pos in H; [cbn in H; lia|]. repeat constructor; cbn; lia.
Qed.

(** ** C119: what prior knowledge does not guarantee *)
(** "No path" in both directions between two variables, and nothing else: the knowledge is discarded and the coefficient is estimated. *)
Definition pk_none : mat := fun i j => if Nat.eqb i j then -1 else 0.
Theorem C119_discarded_refuted : exists n pk score lasso d K B d',
  dl_init n (Some pk) false = Some d /\ dl_fit n score lasso d = Some (K, B, d') /\ pk 1%nat 0%nat = 0 /\ pk 0%nat 1%nat = 0 /\ arrow B 0%nat 1%nat.
Proof.
  exists 2%nat, pk_none, flat_score, ones_lasso. eexists. eexists. eexists. eexists. split; [reflexivity|]. split; [reflexivity|]. split; [reflexivity|]. split; [reflexivity|].
  unfold arrow. vm_compute. discriminate.
Qed.
(** "No path" in both directions between 0 and 2 next to "0 causes 1": the result has the path 0 --> 1 --> 2. *)
Definition pk_via : mat := fun i j => match i, j with 1%nat, 0%nat => 1 | 0%nat, 2%nat => 0 | 2%nat, 0%nat => 0 | _, _ => -1 end.
Theorem C119_indirect_path_refuted : exists n pk score lasso d K B d',
  dl_init n (Some pk) false = Some d /\ dl_fit n score lasso d = Some (K, B, d') /\ pk 2%nat 0%nat = 0 /\ pk 0%nat 2%nat = 0 /\ reach1 (arrow B) 0%nat 2%nat.
Proof.
  exists 3%nat, pk_via, flat_score, ones_lasso. eexists. eexists. eexists. eexists. split; [reflexivity|]. split; [reflexivity|]. split; [reflexivity|]. split; [reflexivity|].
  exists 1%nat. split; [unfold arrow; vm_compute; discriminate|]. apply reach_step with 2%nat; [unfold arrow; vm_compute; discriminate|apply reach_refl].
Qed.
(** "0 has a directed path to 1" only fixes the order: the result need not have one. *)
Theorem C119_required_path_refuted : exists n pk score lasso d K B d', (forall ps t, length (lasso ps t) = length ps) /\
  dl_init n (Some pk) false = Some d /\ dl_fit n score lasso d = Some (K, B, d') /\ pk 0%nat 1%nat = 1 /\ ~ reach1 (arrow B) 1%nat 0%nat.
Proof.
  exists 2%nat, pk10, flat_score, (fun ps _ => map (fun _ => 0) ps). eexists. eexists. eexists. eexists. split; [intros; apply map_length|]. split; [reflexivity|]. split; [reflexivity|]. split; [reflexivity|].
  intros (b & H & _). unfold arrow in H. apply H. cbn. destruct b as [|[|b]]; reflexivity.
Qed.

(** ** C120: ICA-LiNGAM's search for an order *)
Lemma ica_loop_spec m : forall s idx order, NoDup idx -> length idx = s -> exists L rest, ica_loop s m idx order = order ++ L /\ Permutation (L ++ rest) idx /\
  (forall L1 t L2, L = L1 ++ t :: L2 -> forall j, In j idx -> ~ In j L1 -> m t j = 0) /\ (forall t, In t rest -> exists j, In j rest /\ m t j <> 0).
Proof.
  induction s as [|s IH]; intros idx order ND HL.
  - apply length_zero_iff_nil in HL. subst idx. exists [], []. rewrite app_nil_r. repeat split; auto; [intros [|? ?] ? ?; discriminate|intros t []].
  - cbn [ica_loop]. destruct (filter (zero_row m idx) idx) as [|t r] eqn:E.
    + exists [], idx. rewrite app_nil_r. split; [reflexivity|]. split; [reflexivity|]. split; [intros [|? ?] ? ?; discriminate|]. intros t Ht.
      destruct (zero_row m idx t) eqn:Z0; [exfalso; assert (I : In t (filter (zero_row m idx) idx)) by (apply filter_In; auto); now rewrite E in I|].
      unfold zero_row in Z0. assert (Q : ~ forall j, In j idx -> m t j = 0).
      { intros H. rewrite <- not_true_iff_false in Z0. apply Z0. apply forallb_forall. intros j Hj. apply Z.eqb_eq. auto. }
      clear - Z0. induction idx as [|j l IHl]; [discriminate|]. cbn in Z0. destruct (Z.eqb_spec (m t j) 0) as [|N]; [|exists j; split; [now left|exact N]].
      destruct (IHl Z0) as (j' & Hj & N). exists j'. split; [now right|exact N].
    + assert (I : In t (filter (zero_row m idx) idx)) by (rewrite E; now left). apply filter_In in I. destruct I as [It Iz].
      destruct (IH (others idx t) (order ++ [t])) as (L & rest & EL & HP & H1 & H2); [now apply others_NoDup|rewrite (others_length idx t ND It) in HL; lia|].
      exists (t :: L), rest. rewrite EL, <- app_assoc. split; [reflexivity|]. split; [cbn; rewrite HP; symmetry; now apply others_perm|]. split; [|exact H2].
      intros [|x L1] t' L2 EQ; cbn [app] in EQ; injection EQ as <- EQ; intros j Hj Nj.
      * unfold zero_row in Iz. rewrite forallb_forall in Iz. apply Z.eqb_eq. auto.
      * apply (H1 L1 t' L2 EQ); [apply in_others; split; [exact Hj|]; intros ->; apply Nj; now left|]. intros K. apply Nj. now right.
Qed.
Lemma ica_search_some n m o : ica_search n m = Some o -> Permutation o (seq 0 n) /\ forall i j, (i < n)%nat -> (j < n)%nat -> m i j <> 0 -> before o j i.
Proof.
  unfold ica_search. destruct (ica_loop_spec m n (seq 0 n) []) as (L & rest & EL & HP & H1 & H2); [apply seq_NoDup|apply seq_length|]. rewrite EL. cbn [app].
  destruct (Nat.eqb_spec (length L) n) as [EN|]; [|discriminate]. intros E. injection E as <-.
  assert (rest = []). { apply Permutation_length in HP. rewrite app_length, seq_length in HP. destruct rest; [reflexivity|cbn in HP; lia]. } subst rest. rewrite app_nil_r in HP.
  split; [exact HP|]. intros i j Hi Hj N. assert (I : In i L) by now apply (perm_in n L i HP). apply in_split in I. destruct I as (L1 & L2 & EQ).
  destruct (in_dec Nat.eq_dec j L1) as [J|J]; [subst L; apply in_split in J; destruct J as (m1 & m2 & ->); exists m1, m2, L2; now rewrite <- app_assoc|].
  exfalso. apply N. apply (H1 L1 i L2 EQ); [now apply in_seq0|exact J].
Qed.
(** The strict search finds an order exactly when the non-zero pattern has one; the order it returns is one. *)
Theorem C120_strict_search : forall n m,
  ((exists o, ica_search n m = Some o) <-> exists r : nat -> nat, forall i j, (i < n)%nat -> (j < n)%nat -> m i j <> 0 -> (r j < r i)%nat) /\
  (forall o, ica_search n m = Some o -> Permutation o (seq 0 n) /\ forall i j, (i < n)%nat -> (j < n)%nat -> m i j <> 0 -> before o j i).
Proof.
  intros n m. split; [|apply ica_search_some]. split.
  - intros (o & E). apply ica_search_some in E. destruct E as [HP H]. exists (pos o). intros i j Hi Hj N. apply before_pos; [now apply perm_NoDup in HP|auto].
  - intros (r & Hr). unfold ica_search. destruct (ica_loop_spec m n (seq 0 n) []) as (L & rest & EL & HP & H1 & H2); [apply seq_NoDup|apply seq_length|]. rewrite EL. cbn [app].
    destruct rest as [|x rest].
    + rewrite app_nil_r in HP. rewrite (Permutation_length HP), seq_length, Nat.eqb_refl. eauto.
    + exfalso. destruct (min_exists r (x :: rest)) as (t & Ht & Hmin); [discriminate|]. destruct (H2 t Ht) as (j & Hj & N).
      assert (B : forall y, In y (x :: rest) -> (y < n)%nat) by (intros y Hy; apply in_seq0, (Permutation_in _ HP), in_or_app; now right).
      specialize (Hr t j (B t Ht) (B j Hj) N). specialize (Hmin j Hj). lia.
Qed.
Definition zap (l : list (nat * nat)) (m : mat) : mat := fold_left (fun m p => upd m (fst p) (snd p) 0) l m.
Lemma zap_in l : forall m i j, In (i, j) l -> zap l m i j = 0.
Proof.
  assert (K : forall l m i j, m i j = 0 -> zap l m i j = 0).
  { clear. induction l as [|p l IH]; intros m i j H; [exact H|]. cbn. apply IH. destruct (upd_case m (fst p) (snd p) 0 i j) as [(_ & _ & E)|(_ & E)]; congruence. }
  induction l as [|p l IH]; intros m i j H; [destruct H|]. destruct H as [->|H]; [|apply (IH (upd m (fst p) (snd p) 0)), H]. apply (K l (upd m i j 0)), upd_same.
Qed.
Lemma zap_out l : forall m i j, ~ In (i, j) l -> zap l m i j = m i j.
Proof.
  induction l as [|p l IH]; intros m i j H; [reflexivity|]. cbn. rewrite IH by (intros K; apply H; now right). apply upd_other.
  destruct p as [a b]. cbn. destruct (Nat.eq_dec i a) as [->|]; [|now left]. destruct (Nat.eq_dec j b) as [->|]; [|now right]. exfalso. apply H. now left.
Qed.
Lemma zap_app l1 l2 m : zap (l1 ++ l2) m = zap l2 (zap l1 m).
Proof. apply fold_left_app. Qed.
Lemma ica_try_spec n m : forall rest pre, rest <> [] -> (forall i j, (i < n)%nat -> (j < n)%nat -> In (i, j) (pre ++ rest)) ->
  exists q o, (length pre < q <= length pre + length rest)%nat /\ ica_try n (zap pre m) rest = Some o /\ ica_search n (zap (firstn q (pre ++ rest)) m) = Some o /\
    forall q', (length pre < q' < q)%nat -> ica_search n (zap (firstn q' (pre ++ rest)) m) = None.
Proof.
  induction rest as [|p rest IH]; intros pre NE HA; [congruence|]. cbn [ica_try].
  change (upd (zap pre m) (fst p) (snd p) 0) with (zap [p] (zap pre m)). rewrite <- zap_app.
  assert (F1 : firstn (S (length pre)) (pre ++ p :: rest) = pre ++ [p]).
  { rewrite firstn_app, firstn_all2 by lia. now replace (S (length pre) - length pre)%nat with 1%nat by lia. }
  destruct (ica_search n (zap (pre ++ [p]) m)) as [o|] eqn:E.
  - exists (S (length pre)), o. cbn [length]. split; [lia|]. split; [reflexivity|]. rewrite F1. split; [exact E|]. intros q' Hq. lia.
  - destruct rest as [|p2 rest].
    + exfalso. destruct (proj2 (proj1 (C120_strict_search n (zap (pre ++ [p]) m)))) as [o Q]; [|congruence]. exists (fun _ => 0%nat). intros i j Hi Hj N. exfalso. apply N, zap_in, HA; auto.
    + destruct (IH (pre ++ [p])) as (q & o & Hq & E1 & E2 & E3); [discriminate|rewrite <- app_assoc; exact HA|]. rewrite app_length in Hq, E3. cbn [length] in Hq, E3. rewrite <- app_assoc in E2, E3. cbn [app] in E2, E3.
      exists q, o. cbn [length] in *. split; [lia|]. split; [exact E1|]. split; [exact E2|]. intros q' Hq'. destruct (Nat.eq_dec q' (S (length pre))) as [->|]; [now rewrite F1|]. apply E3. lia.
Qed.
Lemma all_pairs_length n : length (all_pairs n) = (n * n)%nat.
Proof.
  unfold all_pairs. assert (G : forall l : list nat, length (flat_map (fun i => map (fun j => (i, j)) (seq 0 n)) l) = (length l * n)%nat).
  { induction l as [|a l IH]; [reflexivity|]. cbn. rewrite app_length, map_length, seq_length, IH. lia. }
  rewrite G, seq_length. reflexivity.
Qed.
(** With two variables or more the approximate search always returns an order of all variables: a topological order of what is left of the
    matrix after the q first positions of the sorted list are set to zero, q being the first number above n(n+1)/2 that leaves an acyclic pattern. *)
Theorem C120_estimate : forall n m poslist, (2 <= n)%nat -> Permutation poslist (all_pairs n) -> exists q o,
  ica_estimate n m poslist = Some o /\ (n * (n + 1) / 2 < q <= n * n)%nat /\ Permutation o (seq 0 n) /\
  (forall i j, (i < n)%nat -> (j < n)%nat -> ~ In (i, j) (firstn q poslist) -> m i j <> 0 -> before o j i) /\
  (forall q', (n * (n + 1) / 2 < q' < q)%nat -> ~ exists r : nat -> nat, forall i j, (i < n)%nat -> (j < n)%nat -> ~ In (i, j) (firstn q' poslist) -> m i j <> 0 -> (r j < r i)%nat).
Proof.
  intros n m poslist Hn HP. unfold ica_estimate. set (z := (n * (n + 1) / 2)%nat). fold (zap (firstn z poslist) m).
  assert (Hlen : length poslist = (n * n)%nat) by now rewrite (Permutation_length HP), all_pairs_length.
  assert (Hz : (z < n * n)%nat) by (unfold z; apply Nat.div_lt_upper_bound; nia).
  assert (L1 : length (firstn z poslist) = z) by (rewrite firstn_length; lia). assert (L2 : length (skipn z poslist) = (n * n - z)%nat) by (rewrite skipn_length; lia).
  destruct (ica_try_spec n m (skipn z poslist) (firstn z poslist)) as (q & o & Hq & E1 & E2 & E3).
  - intros E. rewrite E in L2. cbn [length] in L2. lia.
  - intros i j Hi Hj. rewrite firstn_skipn. apply (Permutation_in _ (Permutation_sym HP)), in_all_pairs. auto.
  - rewrite L1, L2 in Hq. rewrite L1 in E3. rewrite firstn_skipn in E2, E3. exists q, o. split; [exact E1|]. split; [lia|].
    destruct (ica_search_some n _ o E2) as [P1 P2]. split; [exact P1|]. split.
    + intros i j Hi Hj NI NZ. apply P2; auto. now rewrite zap_out.
    + intros q' Hq' (r & Hr). specialize (E3 q' Hq'). destruct (proj2 (proj1 (C120_strict_search n (zap (firstn q' poslist) m)))) as [o' Q]; [|congruence].
      exists r. intros i j Hi Hj N. destruct (in_dec pair_dec (i, j) (firstn q' poslist)) as [I|I]; [exfalso; apply N; now apply zap_in|]. apply Hr; auto. now rewrite zap_out in N.
Qed.
Theorem C120_fit : forall n lasso m poslist, (2 <= n)%nat -> Permutation poslist (all_pairs n) -> exists o B,
  ica_fit n lasso m poslist = Some (o, B) /\ Permutation o (seq 0 n) /\ (forall a b, arrow B a b -> before o a b) /\ acyclic (arrow B).
Proof.
  intros n lasso m poslist Hn HP. destruct (C120_estimate n m poslist Hn HP) as (q & o & E & _ & P & _). unfold ica_fit. rewrite E.
  eexists. eexists. split; [reflexivity|]. split; [exact P|]. apply C114_coefficients_follow_order. now apply perm_NoDup in P.
Qed.
(** ** C121: where ICA-LiNGAM's order does not depend on the data *)
(** Two variables: all four entries are zeroed before the first look, so the order is 0, 1 whatever the data; x_1 is never a cause of x_0. *)
Theorem C121_two_variables_refuted : forall lasso m poslist, Permutation poslist (all_pairs 2) -> exists B, ica_fit 2 lasso m poslist = Some ([0; 1]%nat, B) /\ ~ arrow B 1%nat 0%nat.
Proof.
  intros lasso m poslist HP. assert (Hlen : length poslist = 4%nat) by exact (Permutation_length HP).
  assert (E : ica_estimate 2 m poslist = Some [0; 1]%nat).
  { destruct poslist as [|p1 [|p2 [|p3 [|p4 [|? ?]]]]]; try discriminate. unfold ica_estimate. change (2 * (2 + 1) / 2)%nat with 3%nat. cbn [firstn skipn ica_try].
    change (upd (fold_left (fun m p => upd m (fst p) (snd p) 0) [p1; p2; p3] m) (fst p4) (snd p4) 0) with (zap [p1; p2; p3; p4] m).
    assert (Z0 : forall i j, (i < 2)%nat -> (j < 2)%nat -> zap [p1; p2; p3; p4] m i j = 0) by (intros i j Hi Hj; apply zap_in, (Permutation_in _ (Permutation_sym HP)), in_all_pairs; auto).
    revert Z0. generalize (zap [p1; p2; p3; p4] m). intros M Z0. unfold ica_search. cbn [seq ica_loop]. unfold zero_row. cbn [filter forallb].
    rewrite !Z0 by lia. cbn. rewrite Z0 by lia. reflexivity. }
  exists (estimate_adjacency_matrix lasso None [0; 1]%nat). split; [unfold ica_fit; now rewrite E|]. intros H.
  apply C114_coefficients_follow_order in H; [|repeat constructor; cbn; lia]. apply before_pos in H; [cbn in H; lia|repeat constructor; cbn; lia].
Qed.
(** One variable: no order is found at all, and fit raises. *)
Theorem C121_one_variable_refuted : forall lasso m poslist, Permutation poslist (all_pairs 1) -> ica_fit 1 lasso m poslist = None.
Proof.
  intros lasso m poslist HP. apply Permutation_length in HP. destruct poslist as [|p [|? ?]]; try discriminate. reflexivity.
Qed.

(** ** C122: make_prior_knowledge *)
Lemma fold_upd v (l : list (nat * nat)) : forall m : mat, forall i j, fold_left (fun m p => upd m (snd p) (fst p) v) l m j i = if existsb (pair_eqb (i, j)) l then v else m j i.
Proof.
  induction l as [|[a b] l IH]; intros m i j; [reflexivity|]. cbn [fold_left existsb]. rewrite IH. destruct (existsb (pair_eqb (i, j)) l); [now rewrite orb_true_r|]. rewrite orb_false_r.
  unfold pair_eqb, upd. cbn [fst snd]. rewrite andb_comm. reflexivity.
Qed.
Lemma fold_col n (l : list nat) : forall m : mat, forall a b, (a < n)%nat -> fold_left (set_col n) l m a b = if memb b l then 0 else m a b.
Proof.
  induction l as [|x l IH]; intros m a b Ha; [reflexivity|]. cbn [fold_left]. rewrite IH by exact Ha. unfold memb. cbn [existsb]. fold (memb b l). destruct (memb b l); [now rewrite orb_true_r|]. rewrite orb_false_r.
  unfold set_col. rewrite (proj2 (Nat.ltb_lt a n) Ha). reflexivity.
Qed.
Lemma fold_row n (l : list nat) : forall m : mat, forall a b, (b < n)%nat -> fold_left (set_row n) l m a b = if memb a l then 0 else m a b.
Proof.
  induction l as [|x l IH]; intros m a b Hb; [reflexivity|]. cbn [fold_left]. rewrite IH by exact Hb. unfold memb. cbn [existsb]. fold (memb a l). destruct (memb a l); [now rewrite orb_true_r|]. rewrite orb_false_r.
  unfold set_row. rewrite (proj2 (Nat.ltb_lt b n) Hb), andb_true_r. reflexivity.
Qed.
Lemma existsb_pair p l : existsb (pair_eqb p) l = true <-> In p l.
Proof. rewrite existsb_exists. split; [intros (q & H & E); apply pair_eqb_iff in E; now subst|]. intros H. exists p. split; [exact H|now apply pair_eqb_iff]. Qed.
Lemma mpk_value n exo sink paths nop i j : (i < n)%nat -> (j < n)%nat -> i <> j -> make_prior_knowledge n exo sink paths nop j i =
  if memb j exo then 0 else if memb i sink then 0 else if existsb (pair_eqb (i, j)) paths then 1 else if existsb (pair_eqb (i, j)) nop then 0 else -1.
Proof.
  intros Hi Hj N. unfold make_prior_knowledge, fill_diagonal. destruct (Nat.eqb_spec j i) as [->|]; [congruence|]. rewrite fold_row, fold_col, !fold_upd by assumption. reflexivity.
Qed.
(** Entry (j, i) speaks about paths from i to j: exogenous j or sink i excludes them, else a declared path wins over a declared absence. *)
Theorem C122_make_prior_knowledge : forall n exo sink paths nop i j, (i < n)%nat -> (j < n)%nat -> let m := make_prior_knowledge n exo sink paths nop in
  m i i = -1 /\ (i <> j ->
    (m j i = 0 <-> In j exo \/ In i sink \/ (~ In (i, j) paths /\ In (i, j) nop)) /\
    (m j i = 1 <-> ~ In j exo /\ ~ In i sink /\ In (i, j) paths) /\
    (m j i = -1 <-> ~ In j exo /\ ~ In i sink /\ ~ In (i, j) paths /\ ~ In (i, j) nop)).
Proof.
  intros n exo sink paths nop i j Hi Hj m. split; [unfold m, make_prior_knowledge, fill_diagonal; now rewrite Nat.eqb_refl|]. intros N. unfold m. rewrite mpk_value by assumption.
  pose proof (memb_In j exo) as M1. pose proof (memb_In i sink) as M2. pose proof (existsb_pair (i, j) paths) as M3. pose proof (existsb_pair (i, j) nop) as M4.
  destruct (memb j exo), (memb i sink), (existsb (pair_eqb (i, j)) paths), (existsb (pair_eqb (i, j)) nop);
    assert (T : true = true) by reflexivity; assert (F : false <> true) by discriminate; (split; [|split]); split; intros Q; try discriminate; try tauto; try (exfalso; tauto).
Qed.
(** A fresh object built from it: declared paths order the variables, exogenous variables precede the others and receive no coefficient, sinks
    send none (as long as the knowledge orders anything). *)
Theorem C122_honoured : forall n exo sink paths nop score lasso d K B d', let pk := make_prior_knowledge n exo sink paths nop in
  dl_init n (Some pk) false = Some d -> dl_fit n score lasso d = Some (K, B, d') ->
  (forall i j, (i < n)%nat -> (j < n)%nat -> i <> j -> In (i, j) paths -> ~ In j exo -> ~ In i sink -> before K i j) /\
  (forall v w, (v < n)%nat -> (w < n)%nat -> v <> w -> In v exo -> ~ In w exo -> ~ In v sink -> In (v, w) paths \/ ~ In (v, w) nop -> before K v w) /\
  ((exists a b, (a < n)%nat /\ (b < n)%nat /\ asks_before pk a b) -> forall v w, (v < n)%nat -> (w < n)%nat -> (In v exo -> B v w = 0) /\ (In v sink -> B w v = 0)).
Proof.
  intros n exo sink paths nop score lasso d K B d' pk EI EF. split; [|split].
  - intros i j Hi Hj N HP NE NS. apply (C116_order_respects_knowledge n pk score lasso d K B d' EI EF); auto. left.
    apply (proj2 (C122_make_prior_knowledge n exo sink paths nop i j Hi Hj)); auto.
  - intros v w Hv Hw N HE NE NS HN. apply (C116_order_respects_knowledge n pk score lasso d K B d' EI EF); auto. right.
    destruct (C122_make_prior_knowledge n exo sink paths nop w v Hw Hv) as (_ & C1). destruct (C1 ltac:(auto)) as (C1' & _).
    destruct (C122_make_prior_knowledge n exo sink paths nop v w Hv Hw) as (_ & C2). destruct (C2 N) as (C2' & _). split; [apply C1'; auto|]. intros Q. apply C2' in Q. tauto.
  - intros HA v w Hv Hw.
    assert (G : forall i j, i = j \/ pk i j = 0 -> B i j = 0).
    { intros i j [->|Q]; [|now apply (C116_excluded_coefficients n pk score lasso d K B d' EI EF HA)].
      destruct (Z.eq_dec (B j j) 0) as [|Q]; [assumption|]. exfalso. destruct (C115_order_is_permutation _ _ _ _ _ _ _ EF) as (_ & _ & AC). apply (AC j). exists j. split; [exact Q|apply reach_refl]. }
    destruct (Nat.eq_dec v w) as [->|N]; [split; intros _; apply G; auto|]. split; intros H; apply G; right.
    + apply (proj2 (C122_make_prior_knowledge n exo sink paths nop w v Hw Hv)); auto.
    + apply (proj2 (C122_make_prior_knowledge n exo sink paths nop v w Hv Hw)); auto.
Qed.

(** ** C123: sink and exogenous variables *)
Lemma abs_sum (f : nat -> Z) l : (forall a, 0 <= f a) -> forall s, 0 <= s -> fold_left (fun s a => s + f a) l s = 0 <-> s = 0 /\ forall a, In a l -> f a = 0.
Proof.
  intros Hf. induction l as [|a l IH]; intros s Hs; cbn [fold_left]; [split; [intros ->; split; [reflexivity|intros ? []]|tauto]|].
  pose proof (Hf a). rewrite IH by lia. split.
  - intros [E K]. split; [lia|]. intros b [<-|Hb]; [lia|auto].
  - intros [-> K]. rewrite (K a (or_introl eq_refl)). split; [reflexivity|]. intros b Hb. apply K. now right.
Qed.
Theorem C123_sink_and_exogenous : forall n B i,
  (In i (get_sink_variables n B) <-> (i < n)%nat /\ forall a, (a < n)%nat -> a <> i -> ~ arrow B i a) /\
  (In i (get_exo_variables n B) <-> (i < n)%nat /\ forall a, (a < n)%nat -> a <> i -> ~ arrow B a i).
Proof.
  intros n B i. unfold get_sink_variables, get_exo_variables, arrow. split; rewrite filter_In, in_seq0, Z.eqb_eq.
  - rewrite (abs_sum (fun a => if Nat.eqb a i then 0 else Z.abs (B a i))) by (try lia; intros a; destruct (Nat.eqb a i); lia).
    split; intros [Hi K]; (split; [exact Hi|]).
    + intros a Ha N Q. destruct K as [_ K]. specialize (K a (proj2 (in_seq0 n a) Ha)). cbn in K. destruct (Nat.eqb_spec a i); [congruence|]. lia.
    + split; [reflexivity|]. intros a Ha. apply in_seq0 in Ha. destruct (Nat.eqb_spec a i) as [|N]; [reflexivity|]. specialize (K a Ha N). lia.
  - rewrite (abs_sum (fun a => if Nat.eqb i a then 0 else Z.abs (B i a))) by (try lia; intros a; destruct (Nat.eqb i a); lia).
    split; intros [Hi K]; (split; [exact Hi|]).
    + intros a Ha N Q. destruct K as [_ K]. specialize (K a (proj2 (in_seq0 n a) Ha)). cbn in K. destruct (Nat.eqb_spec i a); [congruence|]. lia.
    + split; [reflexivity|]. intros a Ha. apply in_seq0 in Ha. destruct (Nat.eqb_spec i a) as [|N]; [reflexivity|]. specialize (K a Ha ltac:(congruence)). lia.
Qed.
(** Every fitted model has an exogenous variable (the first of the order) and a sink (the last). *)
Theorem C123_fitted_model_has_both : forall n lasso k order, (0 < n)%nat -> Permutation order (seq 0 n) -> let B := estimate_adjacency_matrix lasso k order in
  In (hd 0%nat order) (get_exo_variables n B) /\ In (last order 0%nat) (get_sink_variables n B).
Proof.
  intros n lasso k order Hn HP B. assert (ND : NoDup order) by now apply perm_NoDup in HP. destruct (C114_coefficients_follow_order lasso k order ND) as [HB _]. fold B in HB.
  assert (NE : order <> []) by (intros ->; apply Permutation_length in HP; rewrite seq_length in HP; cbn in HP; lia). split.
  - destruct order as [|x o]; [congruence|]. cbn [hd]. apply C123_sink_and_exogenous. split; [apply (perm_in n _ x HP); now left|]. intros a _ _ Q. apply HB, before_pos in Q; [|exact ND]. cbn in Q. rewrite Nat.eqb_refl in Q. lia.
  - destruct (exists_last NE) as (o & x & ->). rewrite last_last. apply C123_sink_and_exogenous. split; [apply (perm_in n _ x HP), in_or_app; right; now left|]. intros a _ N Q. apply HB in Q.
    pose proof (before_in _ _ _ Q) as [_ Ia]. apply before_pos in Q; [|exact ND]. rewrite in_app_iff in Ia. cbn in Ia. assert (Io : In a o) by (destruct Ia as [|[->|[]]]; [assumption|congruence]).
    assert (Nx : ~ In x o) by (apply NoDup_remove_2 in ND; now rewrite app_nil_r in ND). rewrite pos_app in Q by exact Nx.
    assert (PL : forall l m y, In y l -> (pos (l ++ m) y < length l)%nat).
    { clear. induction l as [|z l IH]; intros m y H; [destruct H|]. cbn. destruct (Nat.eqb_spec y z); [lia|]. destruct H as [->|H]; [congruence|]. specialize (IH m y H). lia. }
    specialize (PL o [x] a Io). lia.
Qed.

(** ** Concrete cases *)
(** Three variables, "0 causes 2" and "1 is exogenous". *)
Definition ex_pk : mat := make_prior_knowledge 3 [1%nat] [] [(2, 0)]%nat [].
Example C116_ex : orderable 3 ex_pk /\ asks_before ex_pk 2 0 /\ asks_before ex_pk 1 0 /\ exists d B d', dl_init 3 (Some ex_pk) false = Some d /\ dl_fit 3 flat_score ones_lasso d = Some ([1; 2; 0]%nat, B, d') /\
  B 0%nat 1%nat = 1 /\ B 1%nat 0%nat = 0.
Proof.
  split.
  { exists (fun v => match v with 1%nat => 0%nat | 2%nat => 1%nat | _ => 2%nat end). intros [|[|[|a]]] [|[|[|b]]] Ha Hb H; try lia; destruct H as [H|[H H']]; vm_compute in H; try discriminate; try (vm_compute in H'; congruence); lia. }
  split; [left; reflexivity|]. split; [right; split; [reflexivity|vm_compute; discriminate]|]. eexists. eexists. eexists. repeat split; reflexivity.
Qed.
(** Knowledge with a cycle 0 before 1 before 2 before 0 passes the constructor, and fit raises. *)
Definition cyc_pk : mat := make_prior_knowledge 3 [] [] [(0, 1); (1, 2); (2, 0)]%nat [].
Example C116_cycle_ex : exists d, dl_init 3 (Some cyc_pk) false = Some d /\ dl_fit 3 flat_score ones_lasso d = None.
Proof. eexists. split; reflexivity. Qed.
Example C117_ex : exists d B d', dl_init 3 (Some ex_pk) true = Some d /\ dl_fit 3 flat_score ones_lasso d = Some ([1; 2; 0]%nat, B, d').
Proof. eexists. eexists. eexists. split; reflexivity. Qed.
(** Three variables, x_2 causes x_0 and x_0 causes x_1. *)
Definition ica_m : mat := fun i j => match i, j with 0%nat, 2%nat => 5 | 1%nat, 0%nat => 7 | _, _ => 0 end.
Definition ica_pos : list (nat * nat) := [(0, 0); (0, 1); (1, 1); (1, 2); (2, 0); (2, 1); (2, 2); (0, 2); (1, 0)]%nat.
Example C120_ex : Permutation ica_pos (all_pairs 3) /\ ica_estimate 3 ica_m ica_pos = Some [2; 0; 1]%nat.
Proof.
  split; [|reflexivity]. apply NoDup_Permutation_bis; [|cbn; lia|].
  - repeat constructor; cbn; intros H; repeat destruct H as [H|H]; try discriminate H; destruct H.
  - intros [i j] H. apply in_all_pairs. cbn in H. repeat (destruct H as [H|H]; [injection H as <- <-; lia|]). destruct H.
Qed.
Print Assumptions C116_fit_succeeds_iff.
Print Assumptions C120_estimate.
Print Assumptions C122_honoured.
