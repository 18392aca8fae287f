(** Properties of BottomUpParceLiNGAM. *)
From Verif Require Import Base UtilsModel UtilsProofs GraphSpec GraphProofs LingamModel LingamSpec LingamProofs LingamMain LingamProps ParceModel.
From Coq Require Import Permutation.
Local Open Scope Z_scope.

(** ** The loop *)
Lemma exo_in fisher Uc : forall l best, incl l Uc -> (forall m p s, best = Some (m, p, s) -> In m Uc /\ exists b, fst (fisher (others Uc m) m b) = p) ->
  forall m p s, fold_left (exo_step fisher Uc) l best = Some (m, p, s) -> In m Uc /\ exists b, fst (fisher (others Uc m) m b) = p.
Proof.
  induction l as [|j l IH]; intros best HI HB m p s; [apply HB|]. cbn [fold_left]. apply IH; [intros x Hx; apply HI; now right|]. intros m' p' s'. unfold exo_step.
  set (bound := match best with Some (_, _, s0) => s0 | None => None end). destruct (fisher (others Uc j) j bound) as [q t] eqn:E.
  assert (K : forall x y z, Some (j, q, t) = Some (x, y, z) -> In x Uc /\ exists b, fst (fisher (others Uc x) x b) = y) by (intros x y z Q; injection Q as <- <- <-; split; [apply HI; now left|exists bound; now rewrite E]).
  destruct best as [[[bm bp] bs]|]; [destruct (stat_lt t bs || (bp <? q))|]; [exact (K m' p' s')|exact (HB m' p' s')|exact (K m' p' s')].
Qed.
Lemma choose_in fisher U Uc m p : choose fisher U Uc = Some (m, p) -> In m Uc.
Proof.
  unfold choose. intros E. assert (G : (match find_exo_vec fisher Uc with Some (m, p, _) => Some (m, p) | None => None end) = Some (m, p) -> In m Uc).
  { destruct (find_exo_vec fisher Uc) as [[[x y] z]|] eqn:F; [|discriminate]. intros Q. injection Q as <- <-. apply (exo_in fisher Uc Uc None) with (p := y) (s := z) in F; [tauto|intros a; auto|discriminate]. }
  destruct Uc as [|a [|b l]]; auto. injection E as <- _. now left.
Qed.
Lemma cand_incl d U : incl (p_candidates d U) U.
Proof. intros x. unfold p_candidates. destruct (p_knw d); [|auto]. intros H. now apply filter_In in H. Qed.
Lemma p_drop_knw d m : p_knw (p_drop d m) = p_knw d. Proof. unfold p_drop. destruct (p_knw d) eqn:E; auto. Qed.
Lemma p_drops_knw L : forall d, p_knw (fold_left p_drop L d) = p_knw d.
Proof. induction L as [|m L IH]; intros d; [auto|]. cbn. rewrite IH. apply p_drop_knw. Qed.
Lemma p_drops_orders L : forall d k, p_knw d = Some k -> forall q, In q (p_orders (fold_left p_drop L d)) <-> In q (p_orders d) /\ ~ In (snd q) L.
Proof.
  induction L as [|m L IH]; intros d k E q; [cbn; tauto|]. cbn [fold_left]. rewrite (IH (p_drop d m) k) by (now rewrite p_drop_knw). unfold p_drop. rewrite E. cbn [p_orders]. rewrite filter_In, negb_true_iff, Nat.eqb_neq. cbn [In].
  split; [intros [[H1 H2] H3]; split; [exact H1|]; intros [Q|Q]; [apply H2; now symmetry|contradiction]|]. intros [H1 H2]. split; [split; [exact H1|]; intros Q; apply H2; left; now symmetry|]. intros Q. apply H2. now right.
Qed.
Lemma p_loop_spec fisher thr : forall s d U K, NoDup U -> length U = s -> (2 <= s)%nat -> exists L rest, fst (p_loop s fisher thr d U K) = L ++ K /\
  Permutation (rest ++ L) U /\ length rest <> 1%nat /\ (forall L1 m L2, L = L1 ++ m :: L2 -> (rest = [] /\ L1 = []) \/
     exists p, choose fisher (fold_left others (rev L2) U) (p_candidates (fold_left p_drop (rev L2) d) (fold_left others (rev L2) U)) = Some (m, p) /\ thr <= p).
Proof.
  induction s as [|s IH]; intros d U K ND HL HS; [lia|]. cbn [p_loop]. assert (STOP : exists L rest, K = L ++ K /\ Permutation (rest ++ L) U /\ length rest <> 1%nat /\ (forall L1 m L2, L = L1 ++ m :: L2 -> (rest = [] /\ L1 = []) \/
     exists p, choose fisher (fold_left others (rev L2) U) (p_candidates (fold_left p_drop (rev L2) d) (fold_left others (rev L2) U)) = Some (m, p) /\ thr <= p)).
  { exists [], U. split; [reflexivity|]. split; [now rewrite app_nil_r|]. split; [lia|]. intros [|? ?] m L2 Q; discriminate. }
  destruct (choose fisher U (p_candidates d U)) as [[m p]|] eqn:E; [|exact STOP]. destruct (Z.leb_spec thr p) as [LE|LE]; [|exact STOP].
  assert (Hm : In m U) by (apply (cand_incl d); now apply choose_in in E). pose proof (others_length U m ND Hm) as OL. pose proof (others_perm U m ND Hm) as OP.
  destruct (Nat.leb_spec (length (others U m)) 1) as [L1|L1].
  - assert (O1 : exists u, others U m = [u]) by (destruct (others U m) as [|u [|]]; cbn [length] in *; [lia|eauto|lia]). destruct O1 as [u Eu]. rewrite Eu in *. exists [u; m], []. cbn [fst app].
    split; [reflexivity|]. split; [rewrite OP; apply perm_swap|]. split; [cbn; lia|]. intros l1 x l2 Q. destruct l1 as [|y l1]; [now left|]. right. injection Q as <- Q. destruct l1 as [|y l1]; [|destruct l1; discriminate]. injection Q as <- <-. cbn. eauto.
  - destruct (IH (p_drop d m) (others U m) (m :: K)) as (L & rest & E1 & E2 & E3 & E4); [now apply others_NoDup|lia|lia|]. exists (L ++ [m]), rest. split; [rewrite E1, <- app_assoc; reflexivity|].
    split; [rewrite app_assoc, Permutation_app_comm; cbn; rewrite OP; now constructor|]. split; [exact E3|]. intros l1 x l2 Q.
    destruct l2 as [|y l2] using rev_ind.
    + apply app_inj_tail in Q. destruct Q as [-> <-]. right. cbn. eauto.
    + clear IHl2. assert (Q' : L ++ [m] = (l1 ++ x :: l2) ++ [y]) by (rewrite Q, <- app_assoc; reflexivity). apply app_inj_tail in Q'. destruct Q' as [-> <-]. rewrite rev_app_distr. cbn [rev app fold_left]. apply (E4 l1 x l2 eq_refl).
Qed.
Lemma p_search_spec n fisher thr d : n <> 1%nat -> exists rest, let K := fst (p_search n fisher thr d) in
  Permutation (rest ++ K) (seq 0 n) /\ length rest <> 1%nat /\ (forall L1 m L2, K = L1 ++ m :: L2 -> (rest = [] /\ L1 = []) \/
     exists p, choose fisher (fold_left others (rev L2) (seq 0 n)) (p_candidates (fold_left p_drop (rev L2) d) (fold_left others (rev L2) (seq 0 n))) = Some (m, p) /\ thr <= p).
Proof.
  intros N. unfold p_search. destruct (Nat.leb_spec n 1) as [L|L].
  - replace n with 0%nat by lia. exists []. cbn. split; [reflexivity|]. split; [lia|]. intros [|? ?] m L2 Q; discriminate.
  - destruct (p_loop_spec fisher thr n d (seq 0 n) []) as (L0 & rest & E1 & E2 & E3 & E4); [apply seq_NoDup|apply seq_length|lia|]. exists rest. cbv zeta. rewrite E1, app_nil_r. auto.
Qed.
Lemma block_perm n rest K : Permutation (rest ++ K) (seq 0 n) -> length rest <> 1%nat -> Permutation (p_block n K) rest.
Proof.
  intros HP HL. assert (ND : NoDup (rest ++ K)) by (now apply perm_NoDup in HP).
  assert (NR : NoDup rest /\ forall x, In x rest -> ~ In x K).
  { clear HP HL. induction rest as [|a r IH]; [split; [constructor|intros x []]|]. cbn in ND. inversion ND as [|? ? N1 N2]; subst. destruct (IH N2) as [I1 I2]. split; [constructor; [intros Q; apply N1, in_or_app; now left|exact I1]|]. intros x [<-|Hx]; [intros Q; apply N1, in_or_app; now right|auto]. }
  destruct NR as [NR DJ]. set (U := filter (fun i => negb (memb i K)) (seq 0 n)).
  assert (PU : Permutation U rest).
  { apply NoDup_Permutation; [apply NoDup_filter, seq_NoDup|exact NR|]. intros x. unfold U. rewrite filter_In, negb_true_iff, memb_not_In. split.
    - intros [H1 H2]. apply (Permutation_in _ (Permutation_sym HP)) in H1. apply in_app_or in H1. tauto.
    - intros H. split; [apply (Permutation_in _ HP), in_or_app; now left|auto]. }
  unfold p_block. fold U. destruct (Nat.ltb_spec 1 (length U)) as [L|L]; [exact PU|]. rewrite (Permutation_length PU) in L. destruct rest as [|a [|b r]]; cbn [length] in *; [constructor|lia|lia].
Qed.

(** ** C134: the order *)
(** With any number of variables but one, fit returns: a block of variables whose order is unknown (none or at least two) and an order of all the others. *)
Theorem C134_order_partitions_variables : forall n fisher thr lasso d, n <> 1%nat -> exists block K B d', p_fit n fisher thr lasso d = Some (block, K, B, d') /\
  Permutation (block ++ K) (seq 0 n) /\ length block <> 1%nat.
Proof.
  intros n fisher thr lasso d N. unfold p_fit. rewrite (proj2 (Nat.eqb_neq n 1) N). destruct (p_search_spec n fisher thr d N) as (rest & H1 & H2 & _). destruct (p_search n fisher thr d) as [K d'] eqn:E. cbn [fst] in *.
  pose proof (block_perm n rest K H1 H2) as BP. exists (p_block n K), K. eexists. exists d'. split; [reflexivity|]. split; [now rewrite BP|now rewrite (Permutation_length BP)].
Qed.
Lemma fit_parts n fisher thr lasso d block K B d' : p_fit n fisher thr lasso d = Some (block, K, B, d') -> n <> 1%nat /\ block = p_block n K /\ K = fst (p_search n fisher thr d) /\ B = p_adjacency lasso (p_knw d) block K /\
  Permutation (block ++ K) (seq 0 n) /\ length block <> 1%nat.
Proof.
  intros E. assert (N : n <> 1%nat) by (intros ->; discriminate). destruct (C134_order_partitions_variables n fisher thr lasso d N) as (b & K0 & B0 & d0 & E0 & H1 & H2). rewrite E in E0. injection E0 as <- <- <- <-.
  unfold p_fit in E. rewrite (proj2 (Nat.eqb_neq n 1) N) in E. destruct (p_search n fisher thr d) as [K' d''] eqn:F. injection E as <- <- <- <-. auto 10.
Qed.
(** Without knowledge every ordered variable, except possibly the first of a complete order, passed the test of being a sink of the variables before it. *)
Theorem C134_sinks_were_tested : forall n fisher thr lasso block K B d', p_fit n fisher thr lasso (mkP None []) = Some (block, K, B, d') ->
  forall L1 m L2, K = L1 ++ m :: L2 -> (block = [] /\ L1 = []) \/ exists U bound, Permutation U (block ++ L1) /\ thr <= fst (fisher U m bound).
Proof.
  intros n fisher thr lasso block K B d' E L1 m L2 EK. destruct (fit_parts _ _ _ _ _ _ _ _ _ E) as (N & Eb & EK' & _ & HP & HL). destruct (p_search_spec n fisher thr (mkP None []) N) as (rest & H1 & H2 & H3). cbv zeta in *. rewrite <- EK' in *.
  pose proof (block_perm n rest K H1 H2) as BP. rewrite <- Eb in BP. destruct (H3 L1 m L2 EK) as [[-> ->]|(p & Hc & Hp)]; [left; split; [|reflexivity]; apply Permutation_sym, Permutation_nil in BP; exact BP|]. right.
  set (U := fold_left others (rev L2) (seq 0 n)) in *. assert (EC : p_candidates (fold_left p_drop (rev L2) (mkP None [])) U = U) by (unfold p_candidates; now rewrite p_drops_knw). rewrite EC in Hc.
  assert (NDK : NoDup (block ++ K)) by (now apply perm_NoDup in HP).
  assert (ND : NoDup U) by (unfold U; generalize (seq_NoDup n 0); generalize (seq 0 n); clear; induction (rev L2) as [|x l IH]; intros V HV; [exact HV|]; cbn; apply IH; now apply others_NoDup).
  assert (PU : Permutation (others U m) (block ++ L1)).
  { assert (EQ : Permutation (block ++ K) ((block ++ L1) ++ m :: L2)) by (rewrite EK, app_assoc; reflexivity). pose proof (Permutation_NoDup EQ NDK) as ND2. apply NoDup_Permutation; [now apply others_NoDup| |].
    - clear - ND2. revert ND2. generalize (block ++ L1) (m :: L2). intros l. induction l as [|x l IH]; cbn; intros r H; [constructor|]. inversion H as [|? ? K1 K2]; subst. constructor; [intros Q; apply K1, in_or_app; now left|now apply (IH r)].
    - intros x. rewrite in_others. unfold U. rewrite in_drops, <- (in_rev L2). split.
      + intros [[Q1 Q2] Q3]. apply (Permutation_in _ (Permutation_sym HP)), (Permutation_in _ EQ) in Q1. apply in_app_or in Q1. destruct Q1 as [Q1|[Q1|Q1]]; [exact Q1|congruence|contradiction].
      + intros Q. assert (I : In x (seq 0 n)) by (apply (Permutation_in _ HP), (Permutation_in _ (Permutation_sym EQ)), in_or_app; now left). split; [split; [exact I|]|].
        * intros Q'. clear - ND2 Q Q'. apply in_split in Q. destruct Q as (u & v & Ev). rewrite Ev, <- app_assoc in ND2. apply NoDup_remove_2 in ND2. apply ND2. rewrite !in_app_iff. right. right. now right.
        * intros ->. apply NoDup_remove_2 in ND2. apply ND2, in_or_app. now left. }
  unfold choose in Hc. assert (G : (match find_exo_vec fisher U with Some (m, p, _) => Some (m, p) | None => None end) = Some (m, p) -> exists b, fst (fisher (others U m) m b) = p).
  { destruct (find_exo_vec fisher U) as [[[x y] z]|] eqn:F; [|discriminate]. intros Q. injection Q as <- <-. apply (exo_in fisher U U None) with (p := y) (s := z) in F; [tauto|intros a; auto|discriminate]. }
  assert (GB : exists b, fst (fisher (others U m) m b) = p).
  { destruct U as [|a [|b l]]; auto. injection Hc as <- <-. eauto. }
  destruct GB as (b & Eb'). exists (others U m), b. split; [exact PU|]. now rewrite Eb'.
Qed.

(** ** C135: the matrix *)
Section Adj.
Variables (lasso : lassoer) (k : option knw) (order : list nat).
Hypothesis ND : NoDup order.
Lemma step_eq B i : adjacency_step lasso k order B i = assign_row B (nth i order 0%nat) (preds k order i) (lasso (preds k order i) (nth i order 0%nat)).
Proof. unfold adjacency_step, preds. destruct (filter (allowed k (nth i order 0%nat)) (firstn i order)); reflexivity. Qed.
Lemma run_frame L : forall B a b, (forall i, In i L -> a = nth i order 0%nat -> ~ In b (preds k order i)) -> fold_left (adjacency_step lasso k order) L B a b = B a b.
Proof.
  induction L as [|i L IH]; intros B a b H; [reflexivity|]. cbn [fold_left]. rewrite IH by (intros j Hj; apply H; now right). rewrite step_eq. apply assign_other.
  destruct (Nat.eq_dec a (nth i order 0%nat)) as [E|E]; [right; apply (H i (or_introl eq_refl) E)|now left].
Qed.
Lemma run_value L : (forall ps t, length (lasso ps t) = length ps) -> NoDup L -> (forall i, In i L -> (i < length order)%nat) -> forall B i q, In i L -> (q < length (preds k order i))%nat ->
  fold_left (adjacency_step lasso k order) L B (nth i order 0%nat) (nth q (preds k order i) 0%nat) = nth q (lasso (preds k order i) (nth i order 0%nat)) 0.
Proof.
  intros HL NL HB. induction NL as [|j L N NL IH]; intros B i q Hi Hq; [destruct Hi|]. cbn [fold_left]. destruct Hi as [->|Hi].
  - rewrite run_frame.
    + rewrite step_eq. apply assign_same; auto. now apply preds_NoDup.
    + intros x Hx E. exfalso. apply N. replace i with x; [exact Hx|]. apply (proj1 (NoDup_nth order 0%nat) ND); [apply HB; now right|apply HB; now left|now symmetry].
  - apply IH; auto. intros x Hx. apply HB. now right.
Qed.
End Adj.
(** NaN exactly between two different variables of the block; the other coefficients: an ordered variable has those regressed on its allowed
    predecessors (block included), nobody else has any. *)
Theorem C135_matrix : forall n fisher thr lasso d block K B d', p_fit n fisher thr lasso d = Some (block, K, B, d') ->
  (forall i j, B i j = None <-> In i block /\ In j block /\ i <> j) /\
  (forall i j, In i block -> ~ In j block \/ i = j -> B i j = Some 0) /\
  (forall i j z, B i j = Some z -> z <> 0 -> exists L1 L2, K = L1 ++ i :: L2 /\ In j (block ++ L1) /\ allowed (p_knw d) i j = true) /\
  ((forall ps t, length (lasso ps t) = length ps) -> forall L1 t L2, K = L1 ++ t :: L2 -> forall q, let ps := filter (allowed (p_knw d) t) (block ++ L1) in
     (q < length ps)%nat -> B t (nth q ps 0%nat) = Some (nth q (lasso ps t) 0)).
Proof.
  intros n fisher thr lasso d block K B d' E. destruct (fit_parts _ _ _ _ _ _ _ _ _ E) as (N & _ & _ & -> & HP & HL). assert (ND : NoDup (block ++ K)) by (now apply perm_NoDup in HP). clear E. set (k := p_knw d).
  assert (NN : forall i j, p_adjacency lasso k block K i j = None <-> In i block /\ In j block /\ i <> j).
  { intros i j. unfold p_adjacency. destruct (memb i block && memb j block && negb (Nat.eqb i j)) eqn:Q.
    - rewrite !andb_true_iff, negb_true_iff, Nat.eqb_neq, !memb_In in Q. tauto.
    - split; [discriminate|]. intros (Q1 & Q2 & Q3). apply memb_In in Q1, Q2. apply Nat.eqb_neq in Q3. rewrite Q1, Q2, Q3 in Q. discriminate. }
  assert (SV : forall i j z, p_adjacency lasso k block K i j = Some z -> z = p_matrix lasso k block K i j) by (intros i j z; unfold p_adjacency; destruct (memb i block && memb j block && negb (Nat.eqb i j)); [discriminate|now intros Q; injection Q]).
  assert (LEN : forall i, In i (seq (Nat.max 1 (length block)) (length (block ++ K) - Nat.max 1 (length block))) -> (Nat.max 1 (length block) <= i < length (block ++ K))%nat) by (intros i Hi; apply in_seq in Hi; lia).
  assert (NZ : forall i j, p_matrix lasso k block K i j <> 0 -> exists L1 L2, K = L1 ++ i :: L2 /\ In j (block ++ L1) /\ allowed k i j = true).
  { intros i j Z0. unfold p_matrix in Z0. set (L := seq (Nat.max 1 (length block)) (length (block ++ K) - Nat.max 1 (length block))) in *.
    assert (X : exists x, In x L /\ i = nth x (block ++ K) 0%nat /\ In j (preds k (block ++ K) x)).
    { destruct (in_dec Nat.eq_dec i (map (fun x => nth x (block ++ K) 0%nat) (filter (fun x => memb j (preds k (block ++ K) x)) L))) as [I|I].
      - apply in_map_iff in I. destruct I as (x & Ex & Hx). apply filter_In in Hx. destruct Hx as [Hx Hj]. apply memb_In in Hj. exists x. auto.
      - exfalso. apply Z0. rewrite run_frame; [reflexivity|]. intros x Hx Ex Hj. apply I, in_map_iff. exists x. split; [now symmetry|]. apply filter_In. split; [exact Hx|now apply memb_In]. }
    destruct X as (x & Hx & Ex & Hj). apply LEN in Hx. unfold preds in Hj. rewrite <- Ex in Hj. apply filter_In in Hj. destruct Hj as [Hj Hal]. rewrite firstn_app in Hj. rewrite firstn_all2 in Hj by lia.
    assert (EK : K = firstn (x - length block) K ++ i :: skipn (S (x - length block)) K).
    { rewrite <- (firstn_skipn (x - length block) K) at 1. f_equal. rewrite app_nth2 in Ex by lia. rewrite Ex. rewrite app_length in Hx. clear - Hx. remember (x - length block)%nat as y. assert (y < length K)%nat by lia. clear Heqy Hx. revert K H.
      induction y as [|y IH]; intros [|a K] H; cbn [length] in H; try lia; [reflexivity|]. cbn. apply IH. lia. }
    exists (firstn (x - length block) K), (skipn (S (x - length block)) K). auto. }
  split; [exact NN|]. split; [|split].
  - intros i j Hi Hj. destruct (p_adjacency lasso k block K i j) as [z|] eqn:Q; [|apply NN in Q; destruct Q as (_ & Q1 & Q2), Hj; contradiction]. f_equal. apply SV in Q. subst z.
    destruct (Z.eq_dec (p_matrix lasso k block K i j) 0) as [|Z0]; [assumption|exfalso]. destruct (NZ i j Z0) as (L1 & L2 & EK & _). clear - ND Hi EK. apply in_split in Hi. destruct Hi as (u & v & Ev). rewrite Ev, EK, <- app_assoc in ND. apply NoDup_remove_2 in ND. apply ND. rewrite !in_app_iff. right. right. right. now left.
  - intros i j z Q Nz. apply SV in Q. subst z. now apply NZ.
  - intros HLs L1 t L2 EK q ps Hq. assert (Hx : nth (length block + length L1) (block ++ K) 0%nat = t) by (rewrite app_nth2 by lia; rewrite EK, app_nth2 by lia; now replace (length block + length L1 - length block - length L1)%nat with 0%nat by lia).
    assert (EF : firstn (length block + length L1) (block ++ K) = block ++ L1) by (rewrite firstn_app, firstn_all2 by lia; replace (length block + length L1 - length block)%nat with (length L1) by lia; rewrite EK, firstn_app, Nat.sub_diag, firstn_O, app_nil_r, firstn_all; reflexivity).
    assert (EP : preds k (block ++ K) (length block + length L1) = ps) by (unfold preds, ps; now rewrite Hx, EF).
    assert (NTB : ~ In t block) by (intros I; apply in_split in I; destruct I as (u & v & Ev); rewrite Ev, EK, <- app_assoc in ND; apply NoDup_remove_2 in ND; apply ND; rewrite !in_app_iff; right; right; right; now left).
    assert (AD : forall j, p_adjacency lasso k block K t j = Some (p_matrix lasso k block K t j)).
    { intros j. unfold p_adjacency. replace (memb t block) with false; [reflexivity|]. symmetry. now apply memb_not_In. }
    rewrite AD. f_equal. destruct (Nat.eq_dec (length block + length L1) 0) as [Z0|Z0].
    + exfalso. assert (block = [] /\ L1 = []) as [-> ->] by (destruct block, L1; cbn in Z0; try lia; auto). subst ps. cbn in Hq. lia.
    + unfold p_matrix. rewrite <- Hx at 1. rewrite <- EP. rewrite run_value; auto.
      * now rewrite Hx.
      * apply seq_NoDup.
      * intros i Hi. now apply LEN in Hi.
      * apply in_seq. rewrite app_length. assert (length L1 < length K)%nat by (rewrite EK, app_length; cbn; lia). lia.
      * now rewrite EP.
Qed.
(** In particular the arrows outside the block form no cycle, and none leads into the block. *)
Theorem C135_acyclic : forall n fisher thr lasso d block K B d', p_fit n fisher thr lasso d = Some (block, K, B, d') ->
  acyclic (fun j i => exists z, B i j = Some z /\ z <> 0) /\ forall i j z, In i block -> B i j = Some z -> z = 0.
Proof.
  intros n fisher thr lasso d block K B d' E. destruct (fit_parts _ _ _ _ _ _ _ _ _ E) as (_ & _ & _ & _ & HP & _). destruct (C135_matrix _ _ _ _ _ _ _ _ _ E) as (H1 & H2 & H3 & _). assert (ND : NoDup (block ++ K)) by (now apply perm_NoDup in HP). split.
  - apply (rank_acyclic' _ (pos (block ++ K))). intros j i (z & Ez & Nz). destruct (H3 i j z Ez Nz) as (L1 & L2 & -> & Hj & _). apply before_pos; [exact ND|]. rewrite app_assoc. apply in_split in Hj. destruct Hj as (u & v & ->). exists u, v, L2. now rewrite <- app_assoc.
  - intros i j z Hi Ez. destruct (in_dec Nat.eq_dec j block) as [Hj|Hj].
    + destruct (Nat.eq_dec i j) as [->|Ne]; [rewrite (H2 j j Hi) in Ez by auto; congruence|]. assert (Q : B i j = None) by (now apply H1). congruence.
    + rewrite (H2 i j Hi) in Ez by auto. congruence.
Qed.

(** ** C136: prior knowledge *)
Lemma p_init_cases n pk d : p_init n (Some pk) = Some d ->
  (p_knw d = None /\ forall a b, (a < n)%nat -> (b < n)%nat -> ~ asks_before pk a b) \/
  (p_knw d = Some (to_knw pk) /\ forall a b, In (a, b) (p_orders d) <-> (a < n)%nat /\ (b < n)%nat /\ asks_before pk a b).
Proof.
  cbn [p_init]. destruct (extract_partial_orders n (to_knw pk)) as [| |po] eqn:E; intros Q; [discriminate| |]; injection Q as <-; cbn [p_knw p_orders].
  - left. split; [reflexivity|]. intros a b Ha Hb Q. apply (extract_discard _ _ E a b). apply kasks_iff. auto.
  - right. destruct (extract_orders _ _ _ E) as [N H]. split; [reflexivity|]. intros a b. now rewrite H, kasks_iff.
Qed.
Lemma no_self_ask n pk d a : p_init n (Some pk) = Some d -> (a < n)%nat -> ~ asks_before pk a a.
Proof.
  intros E Ha [Q|[Q1 Q2]]; [|contradiction]. cbn [p_init] in E. pose proof (extract_inconsistent n (to_knw pk)) as H. destruct (extract_partial_orders n (to_knw pk)) as [| |po] eqn:F; [discriminate| |];
    (assert (K : extract_partial_orders n (to_knw pk) = Inconsistent) by (rewrite F; apply H; exists a, a; rewrite !knw_iff by lia; auto)); congruence.
Qed.
(** If the knowledge asks for a before b and a is ordered, then b is ordered, after a. *)
Theorem C136_order_respects_knowledge : forall n pk fisher thr lasso d block K B d', p_init n (Some pk) = Some d -> p_fit n fisher thr lasso d = Some (block, K, B, d') ->
  forall a b, (a < n)%nat -> (b < n)%nat -> asks_before pk a b -> In a K -> before K a b.
Proof.
  intros n pk fisher thr lasso d block K B d' EI EF a b Ha Hb HA IK. destruct (fit_parts _ _ _ _ _ _ _ _ _ EF) as (N & _ & EK & _ & HP & HL). destruct (p_search_spec n fisher thr d N) as (rest & H1 & H2 & H3). cbv zeta in *. rewrite <- EK in *.
  apply in_split in IK. destruct IK as (L1 & L2 & ES). assert (IB : In b L2).
  { destruct (H3 L1 a L2 ES) as [[-> ->]|(p & Hc & _)].
    - assert (I : In b K) by (apply (Permutation_in _ (Permutation_sym H1)); now apply in_seq0). rewrite ES in I. destruct I as [<-|I]; [|exact I]. exfalso. now apply (no_self_ask n pk d a).
    - apply choose_in in Hc. destruct (p_init_cases n pk d EI) as [(_ & Q)|(Ek & HO)]; [exfalso; now apply (Q a b)|]. unfold p_candidates in Hc. rewrite p_drops_knw, Ek in Hc. apply filter_In in Hc. destruct Hc as [_ Hc]. apply negb_true_iff, memb_not_In in Hc.
      destruct (in_dec Nat.eq_dec b L2) as [I|I]; [exact I|]. exfalso. apply Hc, in_map_iff. exists (a, b). split; [reflexivity|]. apply (p_drops_orders (rev L2) d _ Ek). split; [apply HO; auto|]. cbn. now rewrite <- in_rev. }
  rewrite ES. apply in_split in IB. destruct IB as (m1 & m2 & ->). exists L1, m1, m2. reflexivity.
Qed.
(** Excluded coefficients of ordered variables are zero, unless the knowledge says nothing about the order. *)
Theorem C136_excluded_coefficients : forall n pk fisher thr lasso d block K B d', p_init n (Some pk) = Some d -> p_fit n fisher thr lasso d = Some (block, K, B, d') ->
  (exists a b, (a < n)%nat /\ (b < n)%nat /\ asks_before pk a b) -> forall i j z, pk i j = 0 -> B i j = Some z -> z = 0.
Proof.
  intros n pk fisher thr lasso d block K B d' EI EF (a & b & Ha & Hb & HA) i j z H0 Ez. destruct (p_init_cases n pk d EI) as [(_ & Q)|(Ek & _)]; [exfalso; now apply (Q a b)|].
  destruct (Z.eq_dec z 0) as [|Nz]; [assumption|exfalso]. destruct (C135_matrix _ _ _ _ _ _ _ _ _ EF) as (_ & _ & H3 & _). destruct (H3 i j z Ez Nz) as (_ & _ & _ & _ & Al). rewrite Ek in Al. unfold allowed in Al.
  destruct (Nat.eqb i j); [discriminate|]. assert (Q : to_knw pk i j = Some 0) by (apply knw_iff; [lia|exact H0]). rewrite Q in Al. discriminate.
Qed.
(** Contradictory knowledge is not reported: the variables on a cycle stay in the block, and so does everything that must come before them. *)
Theorem C136_cycles_stay_unordered : forall n pk fisher thr lasso d block K B d', p_init n (Some pk) = Some d -> p_fit n fisher thr lasso d = Some (block, K, B, d') ->
  let R := fun a b => (a < n)%nat /\ (b < n)%nat /\ asks_before pk a b in forall a b, reach R a b -> reach1 R b b -> (a < n)%nat -> In a block.
Proof.
  intros n pk fisher thr lasso d block K B d' EI EF R a b Hab Hbb Ha. destruct (fit_parts _ _ _ _ _ _ _ _ _ EF) as (_ & _ & _ & _ & HP & _). assert (ND : NoDup (block ++ K)) by (now apply perm_NoDup in HP).
  assert (NK : NoDup K) by (clear - ND; induction block as [|x l IH]; [exact ND|]; cbn in ND; inversion ND; auto).
  assert (ST : forall x y, R x y -> In x K -> In y K /\ (pos K x < pos K y)%nat).
  { intros x y (Hx & Hy & Q) I. pose proof (C136_order_respects_knowledge _ _ _ _ _ _ _ _ _ _ EI EF x y Hx Hy Q I) as Bf. split; [apply before_in in Bf; tauto|now apply before_pos]. }
  assert (RC : forall x y, reach R x y -> In x K -> In y K /\ (pos K x <= pos K y)%nat).
  { induction 1 as [|x y z Q _ IH]; intros I; [auto|]. destruct (ST x y Q I) as [I2 L2]. destruct (IH I2). split; [assumption|lia]. }
  assert (IA : In a (block ++ K)) by (apply (Permutation_in _ (Permutation_sym HP)); now apply in_seq0). apply in_app_or in IA. destruct IA as [IA|IA]; [exact IA|exfalso].
  destruct (RC a b Hab IA) as [Ib _]. destruct Hbb as (c & Q1 & Q2). destruct (ST b c Q1 Ib) as [Ic L1]. destruct (RC c b Q2 Ic). lia.
Qed.

Lemma drops_NoDup L V : NoDup V -> NoDup (fold_left others L V).
Proof. revert V. induction L as [|x l IH]; intros V HV; [exact HV|]. cbn. apply IH. now apply others_NoDup. Qed.
(** With knowledge, a variable that was the only one without a constraint towards the remaining variables was tested against all of them. *)
Theorem C136_only_candidate_tested : forall n pk fisher thr lasso d block K B d', p_init n (Some pk) = Some d -> p_fit n fisher thr lasso d = Some (block, K, B, d') ->
  forall L1 m L2, K = L1 ++ m :: L2 -> block ++ L1 <> [] ->
  (forall x, In x (block ++ L1) -> exists y, In y (m :: block ++ L1) /\ asks_before pk x y) ->
  exists U, Permutation U (block ++ L1) /\ thr <= fst (fisher U m None).
Proof.
  intros n pk fisher thr lasso d block K B d' EI E L1 m L2 EK NE HX. destruct (fit_parts _ _ _ _ _ _ _ _ _ E) as (N & Eb & EK' & _ & HP & HL). destruct (p_search_spec n fisher thr d N) as (rest & H1 & H2 & H3). cbv zeta in *. rewrite <- EK' in *.
  pose proof (block_perm n rest K H1 H2) as BP. rewrite <- Eb in BP. destruct (H3 L1 m L2 EK) as [[-> ->]|(p & Hc & Hp)].
  { exfalso. apply NE. apply Permutation_sym, Permutation_nil in BP. now rewrite BP. }
  set (U := fold_left others (rev L2) (seq 0 n)) in *.
  assert (NDK : NoDup (block ++ K)) by (now apply perm_NoDup in HP).
  assert (ND : NoDup U) by (apply drops_NoDup, seq_NoDup).
  assert (EQ : Permutation (block ++ K) ((block ++ L1) ++ m :: L2)) by (rewrite EK, app_assoc; reflexivity). pose proof (Permutation_NoDup EQ NDK) as ND2.
  assert (IU : forall x, In x U <-> In x (m :: block ++ L1)).
  { intros x. unfold U. rewrite in_drops, <- (in_rev L2). split.
    - intros [Q1 Q2]. apply (Permutation_in _ (Permutation_sym HP)), (Permutation_in _ EQ) in Q1. apply in_app_or in Q1. destruct Q1 as [Q1|[Q1|Q1]]; [now right|now left|contradiction].
    - intros Q. assert (I : In x (seq 0 n)) by (apply (Permutation_in _ HP), (Permutation_in _ (Permutation_sym EQ)), in_or_app; destruct Q as [Q|Q]; [right; now left|now left]). split; [exact I|].
      intros Q'. destruct Q as [<-|Q].
      + apply NoDup_remove_2 in ND2 as ND3. clear - ND2 Q'. assert (ND4 : NoDup (m :: L2)) by (revert ND2; generalize (m :: L2); induction (block ++ L1) as [|a l IH]; intros r H; [exact H|]; cbn in H; inversion H; auto). inversion ND4; contradiction.
      + clear - ND2 Q Q'. apply in_split in Q. destruct Q as (u & v & Ev). rewrite Ev, <- app_assoc in ND2. apply NoDup_remove_2 in ND2. apply ND2. rewrite !in_app_iff. right. right. now right. }
  assert (NM : ~ In m (block ++ L1)) by (intros Q; apply NoDup_remove_2 in ND2; apply ND2, in_or_app; now left).
  assert (PU : Permutation (others U m) (block ++ L1)).
  { apply NoDup_Permutation; [now apply others_NoDup| |].
    - clear - ND2. revert ND2. generalize (block ++ L1) (m :: L2). intros l. induction l as [|x l IH]; cbn; intros r H; [constructor|]. inversion H as [|? ? K1 K2]; subst. constructor; [intros Q; apply K1, in_or_app; now left|now apply (IH r)].
    - intros x. rewrite in_others, IU. split; [intros [[Q|Q] Q2]; [congruence|exact Q]|]. intros Q. split; [now right|]. intros ->. contradiction. }
  assert (BND : forall x, In x U -> (x < n)%nat) by (intros x Q; unfold U in Q; apply in_drops in Q; apply in_seq0; tauto).
  assert (EC : p_candidates (fold_left p_drop (rev L2) d) U = [m]).
  { pose proof (choose_in _ _ _ _ _ Hc) as Hm. destruct (p_init_cases n pk d EI) as [(_ & Q)|(Ek & HO)].
    - exfalso. destruct (block ++ L1) as [|x l]; [now apply NE|]. destruct (HX x (or_introl eq_refl)) as (y & Hy & A). apply (Q x y); [|apply BND, IU; exact Hy|exact A]. apply BND, IU. right. now left.
    - unfold p_candidates in *. rewrite p_drops_knw, Ek in *.
      assert (F : forall x, In x (filter (fun i => negb (memb i (map fst (p_orders (fold_left p_drop (rev L2) d))))) U) -> x = m).
      { intros x Q. apply filter_In in Q. destruct Q as [Q1 Q2]. destruct (Nat.eq_dec x m) as [|Ne]; [assumption|exfalso]. apply IU in Q1 as Q3. destruct Q3 as [Q3|Q3]; [congruence|]. destruct (HX x Q3) as (y & Hy & A).
        apply negb_true_iff, memb_not_In in Q2. apply Q2, in_map_iff. exists (x, y). split; [reflexivity|]. apply (p_drops_orders (rev L2) d _ Ek). apply IU in Hy. split; [apply HO; auto|]. cbn [snd]. unfold U in Hy. apply in_drops in Hy. tauto. }
      pose proof (NoDup_filter (fun i => negb (memb i (map fst (p_orders (fold_left p_drop (rev L2) d))))) ND) as NF.
      destruct (filter _ U) as [|a [|b l]]; [destruct Hm|f_equal; apply F; now left|]. exfalso. inversion NF as [|? ? K1 _]; subst. apply K1. rewrite (F a (or_introl eq_refl)), (F b (or_intror (or_introl eq_refl))). now left. }
  rewrite EC in Hc. unfold choose in Hc. injection Hc as <-. exists (others U m). split; [exact PU|exact Hp].
Qed.
(** The hypotheses are met: "0 causes 1 and 1 causes 2" leaves only 2 in the first round. *)
Example C136_only_candidate_ex : exists block K B d' d, p_init 3 (Some (fun i j => match i, j with 1%nat, 0%nat => 1 | 2%nat, 1%nat => 1 | _, _ => -1 end)) = Some d /\
  p_fit 3 (fun _ _ _ => (1, Some 0)) 0 (fun _ _ => []) d = Some (block, K, B, d') /\ K = [0; 1]%nat ++ 2%nat :: [] /\ block = [].
Proof. eexists _, _, _, _, _. split; [reflexivity|]. split; [reflexivity|]. split; reflexivity. Qed.

(** ** C137: what does not hold *)
(** One variable: ZeroDivisionError. *)
Theorem C137_one_variable_refuted : forall fisher thr lasso d, p_fit 1 fisher thr lasso d = None.
Proof. reflexivity. Qed.
Definition yes_fisher : fisher_test := fun _ _ _ => (1, Some 0).
(** The second fit of the same object ignores the knowledge: "1 causes 0", but 0 comes first. *)
Theorem C137_refit_forgets_orders_refuted : exists n pk fisher thr lasso d block K B d' block2 K2 B2 d2, p_init n (Some pk) = Some d /\ p_fit n fisher thr lasso d = Some (block, K, B, d') /\
  p_fit n fisher thr lasso d' = Some (block2, K2, B2, d2) /\ asks_before pk 1 0 /\ before K 1 0 /\ before K2 0 1.
Proof.
  exists 2%nat, pk10, (fun _ t _ => (1, Some (- Z.of_nat t))), 0, ones_lasso. eexists. exists [], [1; 0]%nat. eexists. eexists. exists [], [0; 1]%nat. eexists. eexists.
  split; [reflexivity|]. split; [reflexivity|]. split; [reflexivity|]. split; [left; reflexivity|]. split; exists [], [], []; reflexivity.
Qed.
(** With knowledge, candidates are only regressed on each other: "0 causes 1 and 2" and the residual of 2 on {0, 1} fails the test, but 2 is ordered last,
    because only its residual on {1} is looked at. *)
Definition pk0 : mat := fun i j => match i, j with 1%nat, 0%nat => 1 | 2%nat, 0%nat => 1 | _, _ => -1 end.
Definition picky : fisher_test := fun ps t _ => if Nat.eqb t 2 && memb 0%nat ps then (0, None) else (Z.of_nat (S t), Some 0).
Theorem C137_sink_not_tested_refuted : exists n pk fisher thr lasso d block L1 m B d', p_init n (Some pk) = Some d /\ p_fit n fisher thr lasso d = Some (block, L1 ++ [m], B, d') /\ block = [] /\
  forall U bound, Permutation U (block ++ L1) -> fst (fisher U m bound) < thr.
Proof.
  exists 3%nat, pk0, picky, 1, ones_lasso. eexists. exists [], [0; 1]%nat, 2%nat. eexists. eexists. split; [reflexivity|]. split; [reflexivity|]. split; [reflexivity|].
  intros U bound HP. cbn [app] in HP. unfold picky. replace (memb 0%nat U) with true; [cbn; lia|]. symmetry. apply memb_In. apply (Permutation_in _ (Permutation_sym HP)). now left.
Qed.

(** ** Concrete cases *)
(** The last variable passes, the other two do not. *)
Example C134_ex : exists B d', p_fit 3 (fun _ t _ => (if Nat.eqb t 2 then 5 else 0, Some (- Z.of_nat t))) 3 ones_lasso (mkP None []) = Some ([0; 1]%nat, [2]%nat, B, d') /\
  B 0%nat 1%nat = None /\ B 2%nat 0%nat = Some 1 /\ B 0%nat 2%nat = Some 0.
Proof. eexists. eexists. split; [reflexivity|]. repeat split. Qed.
(** Knowledge with the cycle 0, 1, 2, 0. *)
Definition pk_cyc : mat := fun i j => match i, j with 1%nat, 0%nat => 1 | 2%nat, 1%nat => 1 | 0%nat, 2%nat => 1 | _, _ => -1 end.
Example C136_ex : exists d B d', p_init 4 (Some pk_cyc) = Some d /\ p_fit 4 yes_fisher 0 ones_lasso d = Some ([0; 1; 2]%nat, [3]%nat, B, d').
Proof. eexists. eexists. eexists. split; [reflexivity|]. reflexivity. Qed.
Print Assumptions C135_matrix.
Print Assumptions C136_cycles_stay_unordered.
