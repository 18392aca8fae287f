(** Skeleton search: the theorems (C23, C24, C25, C52-C56). *)
From Coq Require Import Permutation.
From Verif Require Import Base EdgeModel EdgeProofs GraphModel GraphSpec GraphProofs RankLib UtilsModel UtilsProofs
  DsepSpec DsepProofs DsepTheory MeekSpec MeekProofs CheckLib SkelModel SkelSpec SkelProofs SkelMain SkelOrder SkelSep.
Local Open Scope Z_scope.

Lemma skel_run ind ban stable fuel n g S : skeleton_discovery ind ban stable fuel n = Some (g, S) ->
  exists st, sk_search ind ban stable false fuel None n = Some st /\ skG st = g /\ skS st = S.
Proof. unfold skeleton_discovery. destruct (sk_search _ _ _ _ _ _ _) as [st|]; [|discriminate]. intros E. injection E as <- <-. eauto. Qed.
Lemma fas_run ind ban stable depth fuel n g S : fas ind ban stable depth fuel n = Some (g, S) ->
  exists st, sk_search ind ban stable true fuel depth n = Some st /\ skG st = g /\ skD st = S.
Proof. unfold fas. destruct (sk_search _ _ _ _ _ _ _) as [st|]; [|discriminate]. intros E. injection E as <- <-. eauto. Qed.

(** * C54: termination, and what an absent or present edge means for an arbitrary test. *)
Theorem C54_skeleton_terminates : forall ind ban stable n fuel, (n <= fuel)%nat ->
  exists g S, skeleton_discovery ind ban stable fuel n = Some (g, S) /\ gn g = n /\ all_undirected g.
Proof.
  intros ind ban stable n fuel Hf. destruct (search_correct ind ban false n stable None fuel Hf) as (st & _ & E & _).
  exists (skG st), (skS st). split; [unfold skeleton_discovery; now rewrite E|]. eapply run_shape; eauto.
Qed.
Theorem C54_fas_terminates : forall ind ban stable depth n fuel, (n <= fuel)%nat ->
  exists g S, fas ind ban stable depth fuel n = Some (g, S) /\ gn g = n /\ all_undirected g.
Proof.
  intros ind ban stable depth n fuel Hf. destruct (search_correct ind ban true n stable depth fuel Hf) as (st & _ & E & _).
  exists (skG st), (skD st). split; [unfold fas; now rewrite E|]. eapply run_shape; eauto.
Qed.
(** An edge is absent only if the knowledge forbids it or some conditioning set made the test accept independence;
    an edge is present only if no subset of the final neighbours of either end makes the test accept. *)
Theorem C54_skeleton_edges : forall ind ban stable n fuel g S, (n <= fuel)%nat ->
  skeleton_discovery ind ban stable fuel n = Some (g, S) ->
  (forall x y, (x < n)%nat -> (y < n)%nat -> x <> y -> ~ joined g x y ->
     ban x y = true \/ ban y x = true \/ exists T, conditioning n x y T /\ (ind x y T = true \/ ind y x T = true)) /\
  (order_free n ind -> stable = true \/ (forall a b, ban a b = false) ->
   forall x y T, joined g x y -> NoDup T -> (forall z, In z T -> joined g x z /\ z <> y) -> ind x y T = false).
Proof.
  intros ind ban stable n fuel g S Hf E. destruct (skel_run _ _ _ _ _ _ _ E) as (st & Es & <- & <-). split.
  - intros x y Hx Hy N NJ. eapply run_removed; eauto.
  - intros Ho Hm x y T J HT Hin. eapply (run_survives ind ban false stable n fuel None); eauto. discriminate.
Qed.
Theorem C54_fas_edges : forall ind ban stable depth n fuel g S, (n <= fuel)%nat ->
  fas ind ban stable depth fuel n = Some (g, S) ->
  (forall x y, (x < n)%nat -> (y < n)%nat -> x <> y -> ~ joined g x y ->
     ban x y = true \/ ban y x = true \/ exists T, conditioning n x y T /\ (ind x y T = true \/ ind y x T = true)) /\
  (order_free n ind -> stable = true \/ (forall a b, ban a b = false) ->
   forall x y T, joined g x y -> NoDup T -> (forall z, In z T -> joined g x z /\ z <> y) ->
     (forall m, depth = Some m -> (length T <= m)%nat) -> ind x y T = false).
Proof.
  intros ind ban stable depth n fuel g S Hf E. destruct (fas_run _ _ _ _ _ _ _ _ E) as (st & Es & <- & <-). split.
  - intros x y Hx Hy N NJ. eapply run_removed; eauto.
  - intros Ho Hm x y T J HT Hin Hd. eapply (run_survives ind ban true stable n fuel depth); eauto.
Qed.

(** * C23: a perfect test recovers the adjacencies. *)
Theorem C23_skeleton_oracle : forall n D ind stable fuel, oracle n D ind -> (n <= fuel)%nat ->
  exists g S, skeleton_discovery ind no_ban stable fuel n = Some (g, S) /\ gn g = n /\ all_undirected g /\
    forall a b, joined g a b <-> joined D a b.
Proof.
  intros n D ind stable fuel HO Hf. destruct (oracle_adjacencies n D ind stable false fuel HO Hf) as (st & E & H).
  exists (skG st), (skS st). split; [unfold skeleton_discovery; now rewrite E|exact H].
Qed.
Theorem C23_fas_oracle : forall n D ind stable fuel, oracle n D ind -> (n <= fuel)%nat ->
  exists g S, fas ind no_ban stable None fuel n = Some (g, S) /\ gn g = n /\ all_undirected g /\
    forall a b, joined g a b <-> joined D a b.
Proof.
  intros n D ind stable fuel HO Hf. destruct (oracle_adjacencies n D ind stable true fuel HO Hf) as (st & E & H).
  exists (skG st), (skD st). split; [unfold fas; now rewrite E|exact H].
Qed.
(** Every DAG has such a test. *)
Lemma oracle_exists D : dag D -> exists ind, oracle (gn D) D ind.
Proof.
  intros HD. exists (fun x y T => if dconnected_dec D HD x y T then false else true). split; [reflexivity|]. split; [exact HD|].
  intros x y T _ _ _ _. destruct (dconnected_dec D HD x y T); split; auto; try discriminate; tauto.
Qed.

(** * C25: the stable search does not depend on the numbering of the variables. *)
Theorem C25_skeleton_order_independent : forall n s t ind ind' ban ban' fuel g S g' S',
  renumbering n s t -> renamed_test n s ind ind' -> order_free n ind -> order_free n ind' ->
  (forall x y, (x < n)%nat -> (y < n)%nat -> ban' (s x) (s y) = ban x y) ->
  skeleton_discovery ind ban true fuel n = Some (g, S) -> skeleton_discovery ind' ban' true fuel n = Some (g', S') ->
  forall a b, (a < n)%nat -> (b < n)%nat -> (joined g a b <-> joined g' (s a) (s b)).
Proof.
  intros n s t ind ind' ban ban' fuel g S g' S' Hr Hi Ho Ho' Hb E E'.
  destruct (skel_run _ _ _ _ _ _ _ E) as (st & Es & <- & <-). destruct (skel_run _ _ _ _ _ _ _ E') as (st' & Es' & <- & <-).
  exact (search_image n s t ind ind' ban ban' false Hr Hi Ho Ho' Hb None fuel st st' Es Es').
Qed.
Theorem C25_fas_order_independent : forall n s t ind ind' ban ban' depth fuel g S g' S',
  renumbering n s t -> renamed_test n s ind ind' -> order_free n ind -> order_free n ind' ->
  (forall x y, (x < n)%nat -> (y < n)%nat -> ban' (s x) (s y) = ban x y) ->
  fas ind ban true depth fuel n = Some (g, S) -> fas ind' ban' true depth fuel n = Some (g', S') ->
  forall a b, (a < n)%nat -> (b < n)%nat -> (joined g a b <-> joined g' (s a) (s b)).
Proof.
  intros n s t ind ind' ban ban' depth fuel g S g' S' Hr Hi Ho Ho' Hb E E'.
  destruct (fas_run _ _ _ _ _ _ _ _ E) as (st & Es & <- & <-). destruct (fas_run _ _ _ _ _ _ _ _ E') as (st' & Es' & <- & <-).
  exact (search_image n s t ind ind' ban ban' true Hr Hi Ho Ho' Hb depth fuel st st' Es Es').
Qed.

(** * C52: in stable mode an edge forbidden in both directions is absent. *)
Theorem C52_forbidden_absent : forall ind ban n fuel g S a b, (n <= fuel)%nat ->
  skeleton_discovery ind ban true fuel n = Some (g, S) -> ban a b = true -> ban b a = true -> ~ joined g a b.
Proof.
  intros ind ban n fuel g S a b Hf E B1 B2. destruct (skel_run _ _ _ _ _ _ _ E) as (st & Es & <- & <-).
  eapply (run_banned ind ban false true n fuel None); eauto.
Qed.
Theorem C52_fas_forbidden_absent : forall ind ban depth n fuel g S a b, (n <= fuel)%nat ->
  fas ind ban true depth fuel n = Some (g, S) -> ban a b = true -> ban b a = true -> ~ joined g a b.
Proof.
  intros ind ban depth n fuel g S a b Hf E B1 B2. destruct (fas_run _ _ _ _ _ _ _ _ E) as (st & Es & <- & <-).
  eapply (run_banned ind ban true true n fuel depth); eauto.
Qed.

(** * C24: the recorded separating sets. *)
(** stable=False, skeleton_discovery: a genuine separating set is recorded for both orders of the pair, followed by a spurious empty set. *)
Theorem C24_sepset_nonstable_partial : forall ind n fuel g S x y, (n <= fuel)%nat ->
  skeleton_discovery ind no_ban false fuel n = Some (g, S) -> (x < n)%nat -> (y < n)%nat -> x <> y -> ~ joined g x y ->
  exists T, conditioning n x y T /\ (ind x y T = true \/ ind y x T = true) /\ S x y = [T; []] /\ S y x = [T; []].
Proof.
  intros ind n fuel g S x y Hf E Hx Hy N NJ. destruct (skel_run _ _ _ _ _ _ _ E) as (st & Es & <- & <-).
  pose proof (run_recorded ind no_ban false false n fuel None st Hf Es eq_refl) as (_ & _ & _ & H).
  specialize (H x y Hx Hy N). destruct (joined_dec (skG st) x y); [contradiction|].
  destruct H as (T & [[_ [K|K]]|[K1 K2]] & H2 & _); [discriminate|discriminate|].
  destruct (H2 eq_refl) as [[S1 S2]|([B|B] & _)]; [|discriminate|discriminate]. exists T. auto.
Qed.
(** stable=False, fas: exactly the separating set that was found, for both orders. *)
Theorem C24_fas_nonstable : forall ind depth n fuel g S x y, (n <= fuel)%nat ->
  fas ind no_ban false depth fuel n = Some (g, S) -> (x < n)%nat -> (y < n)%nat -> x <> y -> ~ joined g x y ->
  exists T, conditioning n x y T /\ (ind x y T = true \/ ind y x T = true) /\ S x y = Some T /\ S y x = Some T.
Proof.
  intros ind depth n fuel g S x y Hf E Hx Hy N NJ. destruct (fas_run _ _ _ _ _ _ _ _ E) as (st & Es & <- & <-).
  pose proof (run_recorded ind no_ban true false n fuel depth st Hf Es eq_refl) as (_ & _ & _ & H).
  specialize (H x y Hx Hy N). destruct (joined_dec (skG st) x y); [contradiction|].
  destruct H as (T & [[_ [K|K]]|[K1 K2]] & _ & H3); [discriminate|discriminate|]. exists T. destruct (H3 eq_refl). auto.
Qed.

(** * C56: stable=True records unions of minimal separating sets, the same for both orders of the pair. *)
Theorem C56_stable_sepsets : forall ind n fuel g S x y, (n <= fuel)%nat -> order_free n ind ->
  skeleton_discovery ind no_ban true fuel n = Some (g, S) -> (x < n)%nat -> (y < n)%nat -> x <> y ->
  S x y = S y x /\
  (joined g x y -> S x y = []) /\
  (forall U, In U (S x y) -> exists Ts, union_of Ts U /\
     forall T, In T Ts -> minimal_separator n ind x y T \/ minimal_separator n ind y x T) /\
  (~ joined g x y -> exists U Ts, In U (S x y) /\ Ts <> [] /\ union_of Ts U /\
     forall T, In T Ts -> minimal_separator n ind x y T \/ minimal_separator n ind y x T).
Proof.
  intros ind n fuel g S x y Hf Ho E Hx Hy N. destruct (skel_run _ _ _ _ _ _ _ E) as (st & Es & <- & <-).
  destruct (stable_records ind no_ban false n fuel None Ho st Es) as [_ H]. cbn [skS skR skD] in H.
  destruct (H x y Hx Hy N) as (P1 & P2 & P3 & P4 & _). split; [exact P1|]. split; [auto|]. split.
  - intros U HU. destruct (P2 U HU) as (Ts & K1 & K2). exists Ts. auto.
  - intros NJ. destruct (P4 (or_introl NJ)) as [_ [[B|B]|(U & Ts & K1 & K2 & K3 & K4)]]; [discriminate|discriminate|].
    exists U, Ts. auto.
Qed.
Theorem C56_fas_stable_sepsets : forall ind depth n fuel g S x y, (n <= fuel)%nat -> order_free n ind ->
  fas ind no_ban true depth fuel n = Some (g, S) -> (x < n)%nat -> (y < n)%nat -> x <> y -> ~ joined g x y ->
  exists U Ts, S x y = Some U /\ S y x = Some U /\ Ts <> [] /\ union_of Ts U /\
     forall T, In T Ts -> minimal_separator n ind x y T \/ minimal_separator n ind y x T.
Proof.
  intros ind depth n fuel g S x y Hf Ho E Hx Hy N NJ. destruct (fas_run _ _ _ _ _ _ _ _ E) as (st & Es & <- & <-).
  destruct (stable_records ind no_ban true n fuel depth Ho st Es) as [_ H]. cbn [skS skR skD] in H.
  assert (NJ' : ~ joined (skG st) y x) by (intros J; apply NJ; eapply (run_sym ind no_ban true true n fuel depth); eauto).
  destruct (H x y Hx Hy N) as (P1 & P2 & P3 & P4 & P5). destruct (H y x Hy Hx (fun e => N (eq_sym e))) as (_ & _ & _ & _ & Q5).
  exists (add_all [] (concat (skS st x y))).
  destruct (add_all_spec (concat (skS st x y)) [] (NoDup_nil _)) as [U1 U2].
  assert (G : exists Ts, (forall T, In T Ts -> found ind n x y T) /\ (forall z, In z (concat (skS st x y)) <-> exists T, In T Ts /\ In z T)).
  { assert (P2' : forall U, In U (skS st x y) -> exists Ts, entry_ok ind n x y U Ts) by exact P2. clear - P2'.
    induction (skS st x y) as [|U l IH].
    - exists []. split; [intros T []|]. intros z; cbn; split; [intros []|intros (T & [] & _)].
    - destruct IH as (Ts & T1 & T2); [intros V HV; apply P2'; now right|].
      destruct (P2' U (or_introl eq_refl)) as (Tu & K1 & K2 & K3). 
      exists (Tu ++ Ts). split; [intros T HT; apply in_app_iff in HT; destruct HT; auto|].
      intros z. cbn [concat]. rewrite in_app_iff, K3, T2. split.
        * intros [(T & ? & ?)|(T & ? & ?)]; exists T; rewrite in_app_iff; auto.
        * intros (T & HT & Hz). apply in_app_iff in HT. destruct HT; [left|right]; eauto. }
  destruct G as (Ts & T1 & T2).
  destruct (P4 (or_introl NJ)) as [_ [[B|B]|(U & Ts' & K1 & K2 & K3 & _ & K4)]]; [discriminate|discriminate|].
  exists (Ts' ++ Ts). split; [now apply P5|]. split; [rewrite P1; now apply Q5|]. split; [destruct Ts'; [congruence|discriminate]|]. split.
  - split; [exact U1|]. intros z. rewrite U2. cbn [In]. split.
    + intros [[]|Hz]. apply T2 in Hz. destruct Hz as (T & ? & ?). exists T. rewrite in_app_iff. auto.
    + intros (T & HT & Hz). right. apply in_app_iff in HT. destruct HT as [HT|HT]; [|apply T2; eauto].
      apply in_concat. exists U. split; [exact K1|]. apply K4. eauto.
  - intros T HT. apply in_app_iff in HT. destruct HT as [HT|HT]; [now apply K3|now apply T1].
Qed.

(** * C55: with a perfect test the separating sets returned by fas separate, in either mode. *)
Theorem C55_fas_oracle_sepsets : forall n D ind stable fuel g S x y, oracle n D ind -> (n <= fuel)%nat ->
  fas ind no_ban stable None fuel n = Some (g, S) -> (x < n)%nat -> (y < n)%nat -> x <> y -> ~ joined D x y ->
  exists U, S x y = Some U /\ S y x = Some U /\ conditioning n x y U /\ ~ dconnected D x y U.
Proof.
  intros n D ind stable fuel g S x y HO Hf E Hx Hy N NJ.
  assert (NJ' : ~ joined g x y).
  { destruct (C23_fas_oracle n D ind stable fuel HO Hf) as (g' & S' & E' & _ & _ & HJ). rewrite E in E'. injection E' as <- _.
    now rewrite HJ. }
  pose proof (oracle_order_free n D ind HO) as Ho. destruct stable.
  - destruct (C56_fas_stable_sepsets ind None n fuel g S x y Hf Ho E Hx Hy N NJ') as (U & Ts & H1 & H2 & H3 & H4 & H5).
    exists U. split; [exact H1|]. split; [exact H2|]. apply (union_separates n D ind HO x y Ts U); auto.
  - destruct (C24_fas_nonstable ind None n fuel g S x y Hf E Hx Hy N NJ') as (T & H1 & H2 & H3 & H4).
    exists T. split; [exact H3|]. split; [exact H4|]. split; [exact H1|]. destruct H2 as [H2|H2].
    + now apply HO in H2.
    + apply HO in H2; auto; [|now apply cond_sym]. intros C. apply H2. now apply dconnected_sym.
Qed.
(** With a perfect test, among the sets recorded by skeleton_discovery for a non-adjacent pair at least one separates. *)
Theorem C55_skeleton_oracle_sepsets : forall n D ind stable fuel g S x y, oracle n D ind -> (n <= fuel)%nat ->
  skeleton_discovery ind no_ban stable fuel n = Some (g, S) -> (x < n)%nat -> (y < n)%nat -> x <> y -> ~ joined D x y ->
  S x y = S y x /\ exists U, In U (S x y) /\ conditioning n x y U /\ ~ dconnected D x y U.
Proof.
  intros n D ind stable fuel g S x y HO Hf E Hx Hy N NJ.
  assert (NJ' : ~ joined g x y).
  { destruct (C23_skeleton_oracle n D ind stable fuel HO Hf) as (g' & S' & E' & _ & _ & HJ). rewrite E in E'. injection E' as <- _.
    now rewrite HJ. }
  pose proof (oracle_order_free n D ind HO) as Ho. destruct stable.
  - destruct (C56_stable_sepsets ind n fuel g S x y Hf Ho E Hx Hy N) as (H1 & _ & _ & H4). split; [exact H1|].
    destruct (H4 NJ') as (U & Ts & H5 & H6 & H7 & H8). exists U. split; [exact H5|]. now apply (union_separates n D ind HO x y Ts U).
  - destruct (C24_sepset_nonstable_partial ind n fuel g S x y Hf E Hx Hy N NJ') as (T & H1 & H2 & H3 & H4).
    rewrite H3, H4. split; [reflexivity|]. exists T. split; [now left|]. split; [exact H1|]. destruct H2 as [H2|H2].
    + now apply HO in H2.
    + apply HO in H2; auto; [|now apply cond_sym]. intros C. apply H2. now apply dconnected_sym.
Qed.

(** * Findings *)
(** The chain 0 --> 1 --> 2 and its perfect test. *)
Definition chain : ggraph := graph_of 3 [dir 0 1; dir 1 2].
Definition chain_test (x y : nat) (T : list nat) : bool :=
  ((Nat.eqb x 0 && Nat.eqb y 2) || (Nat.eqb x 2 && Nat.eqb y 0)) && memb 1 T.
Lemma chain_dag : dag chain.
Proof. apply (dagb_sound (fun v => v)). vm_compute. reflexivity. Qed.
Lemma chain_edge a b : dedge chain a b <-> (a = 0%nat /\ b = 1%nat) \/ (a = 1%nat /\ b = 2%nat).
Proof.
  split.
  - intros H. pose proof (dedge_bound _ _ _ H) as [Ha Hb]. change (gn chain) with 3%nat in Ha, Hb.
    apply (DsepProofs.dag_dedge chain chain_dag) in H. destruct H as (_ & _ & H1 & H2).
    destruct a as [|[|[|a]]], b as [|[|[|b]]]; try lia; vm_compute in H1; try discriminate; auto.
  - intros [[-> ->]|[-> ->]]; apply (DsepProofs.dag_dedge chain chain_dag); vm_compute; repeat split; auto.
Qed.
Lemma chain_oracle : oracle 3 chain chain_test.
Proof.
  split; [reflexivity|]. split; [exact chain_dag|]. intros x y T Hx Hy N HC.
  assert (Aj : forall a b, adjacent chain a b <-> (a = 0 /\ b = 1 \/ a = 1 /\ b = 2 \/ a = 1 /\ b = 0 \/ a = 2 /\ b = 1)%nat).
  { intros a b. unfold adjacent. rewrite !chain_edge. tauto. }
  assert (Open1 : forall a c, ~ In 1%nat T -> (a = 0 /\ c = 2 \/ a = 2 /\ c = 0)%nat -> dconnected chain a c T).
  { intros a c H1 Hac. exists [1%nat]. cbn [app]. split.
    - repeat constructor; cbn; intuition lia.
    - apply active_cons2. split; [apply Aj; lia|]. split.
      + apply active_cons2. split; [apply Aj; lia|]. split; [apply active_one|]. intros ? ? E; discriminate E.
      + intros c' r E. injection E as <- <-. right. split; [rewrite !chain_edge; lia|exact H1]. }
  assert (Next : forall a b, adjacent chain a b -> a <> b -> dconnected chain a b T).
  { intros a b H1 H2. now apply adjacent_never_separated. }
  assert (Blocked : forall a c, In 1%nat T -> (a = 0 /\ c = 2 \/ a = 2 /\ c = 0)%nat -> ~ dconnected chain a c T).
  { intros a c H1 Hac (m & Hd & HA). destruct m as [|b m].
    - apply active_cons2 in HA. destruct HA as (HA & _). apply Aj in HA. lia.
    - cbn [app] in HA. apply active_cons2 in HA. destruct HA as (H2 & H3 & H4). apply Aj in H2. assert (b = 1%nat) as -> by lia.
      destruct (m ++ [c]) as [|d r] eqn:Em; [destruct m; discriminate|]. specialize (H4 d r eq_refl).
      apply active_cons2 in H3. destruct H3 as (H3 & _). apply Aj in H3. destruct H4 as [(K1 & K2 & _)|[_ K]]; [|auto].
      rewrite chain_edge in K1, K2. assert (a = d) by lia. subst d.
      cbn [app] in Hd. rewrite Em in Hd. inversion Hd as [|? ? Q _]; subst. apply Q. cbn. auto. }
  unfold chain_test. rewrite andb_true_iff, orb_true_iff, !andb_true_iff, !Nat.eqb_eq, memb_In.
  destruct (in_dec Nat.eq_dec 1%nat T) as [I|I].
  - split; [intros [H _]; apply Blocked; auto|]. intros H. split; [|exact I].
    destruct x as [|[|[|x]]], y as [|[|[|y]]]; try lia; exfalso;
      first [ apply H; apply Next; [apply Aj; lia|lia] | destruct HC as [_ HC]; destruct (HC 1%nat I) as (_ & ? & ?); lia ].
  - split; [tauto|]. intros H. exfalso. apply H.
    destruct x as [|[|[|x]]], y as [|[|[|y]]]; try lia; first [ apply Next; [apply Aj; lia|lia] | apply Open1; [exact I|lia] ].
Qed.
(** C24 refuted for stable=False: even with a perfect test an empty set that does not separate is recorded. *)
Theorem C24_spurious_empty_refuted : exists n D ind g Sp x y U, oracle n D ind /\
  skeleton_discovery ind no_ban false n n = Some (g, Sp) /\ ~ joined g x y /\ In U (Sp x y) /\ ind x y U = false.
Proof.
  assert (C : match skeleton_discovery chain_test no_ban false 3 3 with
              | Some (g, Sp) => (gm g 0%nat 2%nat =? 0) && existsb (fun U => match U with [] => true | _ => false end) (Sp 0%nat 2%nat) | None => false end = true) by (vm_compute; reflexivity).
  destruct (skeleton_discovery chain_test no_ban false 3 3) as [[g Sp]|] eqn:E; [|discriminate].
  apply andb_true_iff in C. destruct C as [C1 C2]. apply Z.eqb_eq in C1.
  exists 3%nat, chain, chain_test, g, Sp, 0%nat, 2%nat, [].
  split; [exact chain_oracle|]. split; [exact E|]. split; [intros (_ & _ & K); contradiction|]. split; [|reflexivity].
  apply existsb_exists in C2. destruct C2 as (U & HU & K). destruct U; [exact HU|discriminate].
Qed.
(** C24 refuted for stable=True: the union of two separating sets is recorded although the test rejects it. *)
Definition union_test (x y : nat) (T : list nat) : bool :=
  ((Nat.eqb x 0 && Nat.eqb y 1) || (Nat.eqb x 1 && Nat.eqb y 0)) && (Nat.eqb (length T) 1).
Theorem C24_union_refuted : exists n ind g Sp x y U, order_free n ind /\
  skeleton_discovery ind no_ban true n n = Some (g, Sp) /\ ~ joined g x y /\ Sp x y = [U; U] /\ ind x y U = false.
Proof.
  assert (C : match skeleton_discovery union_test no_ban true 4 4 with
              | Some (g, Sp) => (gm g 0%nat 1%nat =? 0) && (if list_eq_dec (list_eq_dec Nat.eq_dec) (Sp 0%nat 1%nat) [[2; 3]; [2; 3]]%nat then true else false) | None => false end = true) by (vm_compute; reflexivity).
  destruct (skeleton_discovery union_test no_ban true 4 4) as [[g Sp]|] eqn:E; [|discriminate].
  apply andb_true_iff in C. destruct C as [C1 C2]. apply Z.eqb_eq in C1.
  exists 4%nat, union_test, g, Sp, 0%nat, 1%nat, [2%nat; 3%nat]. split.
  { intros x y T T' _ _ _ _ HP. unfold union_test. now rewrite (Permutation_length HP). }
  split; [exact E|]. split; [intros (_ & _ & K); contradiction|].
  destruct (list_eq_dec _ (Sp 0%nat 1%nat) _) as [->|]; [|discriminate]. split; reflexivity.
Qed.
(** C53 refuted: with stable=False a forbidden edge can survive. *)
Theorem C53_forbidden_kept_refuted : exists n ind ban g Sp x y, order_free n ind /\
  skeleton_discovery ind ban false n n = Some (g, Sp) /\ ban x y = true /\ ban y x = true /\ joined g x y.
Proof.
  assert (C : match skeleton_discovery (fun _ _ _ => false) (fun _ _ => true) false 5 5 with
              | Some (g, Sp) => negb (gm g 2%nat 4%nat =? 0) && Nat.eqb (gn g) 5 | None => false end = true) by (vm_compute; reflexivity).
  destruct (skeleton_discovery (fun _ _ _ => false) (fun _ _ => true) false 5 5) as [[g Sp]|] eqn:E; [|discriminate].
  apply andb_true_iff in C. destruct C as [C1 C2]. apply Nat.eqb_eq in C2. apply negb_true_iff, Z.eqb_neq in C1.
  exists 5%nat, (fun _ _ _ => false), (fun _ _ => true), g, Sp, 2%nat, 4%nat. split; [intros x y T T' _ _ _ _ _; reflexivity|].
  split; [exact E|]. split; [reflexivity|]. split; [reflexivity|]. split; [lia|]. split; [lia|exact C1].
Qed.

(** * Non-vacuity *)
Example chain_found : exists g Sp, skeleton_discovery chain_test no_ban true 3 3 = Some (g, Sp) /\
  joined g 0 1 /\ joined g 1 2 /\ ~ joined g 0 2.
Proof.
  destruct (C23_skeleton_oracle 3 chain chain_test true 3 chain_oracle) as (g & Sp & E & _ & _ & HJ); [lia|].
  exists g, Sp. split; [exact E|]. rewrite !HJ. split; [vm_compute; repeat split; try lia; discriminate|]. split; [vm_compute; repeat split; try lia; discriminate|].
  intros (_ & _ & H). apply H. reflexivity.
Qed.
Example swap02 : renumbering 3 (fun v => 2 - v)%nat (fun v => 2 - v)%nat /\ renamed_test 3 (fun v => 2 - v)%nat chain_test chain_test.
Proof.
  split.
  - split; intros a Ha; lia.
  - intros x y T Hx Hy N [_ HC]. unfold chain_test.
    assert (Em : memb 1 (map (fun v => 2 - v)%nat T) = memb 1 T).
    { apply eq_true_iff_eq. rewrite !memb_In, in_map_iff. split; [intros (z & E & Hz)|intros H; exists 1%nat; auto].
      destruct (HC z Hz) as (Hz' & _). assert (z = 1%nat) as -> by lia. exact Hz. }
    rewrite Em. f_equal. destruct x as [|[|[|x]]], y as [|[|[|y]]]; try lia; reflexivity.
Qed.
Example banned_pair : exists g Sp, skeleton_discovery (fun _ _ _ => false) (fun x y => Nat.eqb (x + y) 1) true 3 3 = Some (g, Sp) /\ ~ joined g 0 1 /\ joined g 0 2.
Proof.
  assert (C : match skeleton_discovery (fun _ _ _ => false) (fun x y => Nat.eqb (x + y) 1) true 3 3 with
              | Some (g, Sp) => (gm g 0%nat 1%nat =? 0) && negb (gm g 0%nat 2%nat =? 0) && Nat.eqb (gn g) 3 | None => false end = true) by (vm_compute; reflexivity).
  destruct (skeleton_discovery _ _ true 3 3) as [[g Sp]|] eqn:E; [|discriminate].
  rewrite !andb_true_iff in C. destruct C as [[C1 C2] C3]. apply Z.eqb_eq in C1. apply negb_true_iff, Z.eqb_neq in C2. apply Nat.eqb_eq in C3.
  exists g, Sp. split; [reflexivity|]. split; [intros (_ & _ & K); contradiction|]. split; [lia|]. split; [lia|exact C2].
Qed.

Print Assumptions C23_skeleton_oracle.
Print Assumptions C25_skeleton_order_independent.
Print Assumptions C55_fas_oracle_sepsets.
Print Assumptions C56_stable_sepsets.
Print Assumptions C54_skeleton_edges.
Print Assumptions C53_forbidden_kept_refuted.
