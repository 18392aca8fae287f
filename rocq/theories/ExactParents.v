(** Parent graphs: query_best_structure returns the best allowed parent set inside its argument. *)
From Verif Require Import Base GraphSpec UtilsModel UtilsProofs SkelModel SkelProofs ExactModel ExactSpec.
From Coq Require Import Permutation Sorted.
Local Open Scope Z_scope.

Lemma subset_spec A B : subset A B = true <-> incl A B.
Proof. unfold subset. rewrite forallb_forall. split; intros H x Hx; apply memb_In, H, Hx. Qed.

Definition psorted (pg : pgraph) : Prop := StronglySorted (fun a b => snd a <= snd b) pg.
Lemma insort_in pg P s e : In e (insort pg P s) <-> e = (P, s) \/ In e pg.
Proof.
  induction pg as [|a pg IH]; cbn [insort]; [cbn; intuition|]. destruct (snd a <? s); cbn [In]; [rewrite IH|]; intuition.
Qed.
Lemma insort_sorted pg P s : psorted pg -> psorted (insort pg P s).
Proof.
  induction 1 as [|a pg Hp IH Ha]; cbn [insort]; [repeat constructor|]. rewrite Forall_forall in Ha.
  destruct (Z.ltb_spec (snd a) s) as [L|L].
  - constructor; [exact IH|]. rewrite Forall_forall. intros e He. apply insort_in in He. destruct He as [->|He]; [cbn; lia|auto].
  - constructor; [constructor; [exact Hp|now rewrite Forall_forall]|]. rewrite Forall_forall. intros e [<-|He]; cbn [snd]; [lia|]. specialize (Ha e He). lia.
Qed.
Lemma query_some pg T P s : psorted pg -> query pg T = Some (P, s) ->
  In (P, s) pg /\ incl P T /\ forall P' s', In (P', s') pg -> incl P' T -> s <= s'.
Proof.
  intros HS. unfold query. induction HS as [|a pg Hp IH Ha]; cbn [find]; [discriminate|]. rewrite Forall_forall in Ha.
  destruct (subset (fst a) T) eqn:E.
  - intros [= ->]. cbn [fst snd] in *. split; [now left|]. split; [now apply subset_spec|]. intros P' s' [[= <- <-]|H] _; [lia|]. apply (Ha _ H).
  - intros H. destruct (IH H) as (H1 & H2 & H3). split; [now right|]. split; [exact H2|]. intros P' s' [->|H'] HI; [|eauto].
    cbn [fst] in E. apply subset_spec in HI. congruence.
Qed.
Lemma query_none pg T : query pg T = None -> forall P s, In (P, s) pg -> ~ incl P T.
Proof. unfold query. intros H P s Hi HI. apply subset_spec in HI. apply (find_none _ _ H) in Hi. cbn [fst] in Hi. congruence. Qed.

Section PG.
Variable bic : nat -> list nat -> Z.
Variable i maxp : nat.
Variable pset inc : list nat.
Hypothesis pset_nodup : NoDup pset.

Definition fit (P : list nat) : Prop := In P (combs (length P) pset) /\ incl inc P /\ (length P <= maxp)%nat.
Definition pg_ok (pg : pgraph) : Prop := psorted pg /\ forall P s, In (P, s) pg -> fit P /\ s = bic i P.
Definition covered (pg : pgraph) (P : list nat) : Prop := exists P' s', In (P', s') pg /\ incl P' P /\ s' <= bic i P.

Lemma covered_insort pg Q s P : covered pg P -> covered (insort pg Q s) P.
Proof. intros (P' & s' & H & H'). exists P', s'. split; [|exact H']. apply insort_in. now right. Qed.
Lemma consider_spec pg P : pg_ok pg -> In P (combs (length P) pset) -> (length P <= maxp)%nat ->
  pg_ok (consider bic i inc pg P) /\ (forall Q, covered pg Q -> covered (consider bic i inc pg P) Q) /\ (fit P -> covered (consider bic i inc pg P) P).
Proof.
  intros [HS HP] HC HL. unfold consider. destruct (subset inc P) eqn:EI; cbn [negb].
  - apply subset_spec in EI. destruct (existsb _ P) eqn:EX.
    + split; [split; assumption|]. split; [auto|]. intros _. apply existsb_exists in EX. destruct EX as (v & Hv & EX). unfold qscore in EX.
      destruct (query pg (filter (fun l => negb (Nat.eqb l v)) P)) as [[P' s']|] eqn:EQ; [|discriminate]. cbn in EX. apply Z.ltb_lt in EX.
      destruct (query_some _ _ _ _ HS EQ) as (H1 & H2 & _). exists P', s'. split; [exact H1|]. split; [|lia]. intros x Hx. apply H2, filter_In in Hx. tauto.
    + split; [split; [now apply insort_sorted|]|].
      * intros Q s HQ. apply insort_in in HQ. destruct HQ as [[= -> ->]|HQ]; [|auto]. split; [|reflexivity]. split; [exact HC|]. now split.
      * split; [intros Q; apply covered_insort|]. intros _. exists P, (bic i P). split; [apply insort_in; now left|]. split; [apply incl_refl|lia].
  - split; [split; assumption|]. split; [auto|]. intros (_ & H & _). apply subset_spec in H. congruence.
Qed.
Lemma consider_all l : forall pg, pg_ok pg -> (forall P, In P l -> In P (combs (length P) pset) /\ (length P <= maxp)%nat) ->
  pg_ok (fold_left (consider bic i inc) l pg) /\ (forall Q, covered pg Q -> covered (fold_left (consider bic i inc) l pg) Q) /\
  (forall P, In P l -> fit P -> covered (fold_left (consider bic i inc) l pg) P).
Proof.
  induction l as [|P l IH]; intros pg HO Hl; cbn [fold_left]; [split; [exact HO|]; split; [auto|intros P []]|].
  destruct (Hl P (or_introl eq_refl)) as [HC HL]. destruct (consider_spec pg P HO HC HL) as (H1 & H2 & H3).
  destruct (IH _ H1 (fun Q HQ => Hl Q (or_intror HQ))) as (K1 & K2 & K3). split; [exact K1|]. split; [auto|]. intros Q [<-|HQ] HF; auto.
Qed.
Lemma size_spec pg j : pg_ok pg -> pg_ok (pg_size bic i maxp pset inc pg j) /\ (forall Q, covered pg Q -> covered (pg_size bic i maxp pset inc pg j) Q) /\
  (forall P, length P = j -> fit P -> covered (pg_size bic i maxp pset inc pg j) P).
Proof.
  intros HO. unfold pg_size. destruct (Nat.eqb_spec j 0) as [->|N].
  - destruct (Nat.ltb_spec 0 (length inc)) as [L|L].
    + split; [exact HO|]. split; [auto|]. intros P HP (_ & HI & _). apply length_zero_iff_nil in HP. subst. destruct inc as [|x r]; [cbn in L; lia|]. destruct (HI x). now left.
    + destruct HO as [HS HP]. split; [split; [now apply insort_sorted|]|].
      * intros Q s HQ. apply insort_in in HQ. destruct HQ as [[= -> ->]|HQ]; [|auto]. split; [|reflexivity]. split; [rewrite combs_0; now left|]. split; [|cbn; lia].
        destruct inc as [|x r]; [apply incl_refl|cbn in L; lia].
      * split; [intros Q; apply covered_insort|]. intros P HL HF. apply length_zero_iff_nil in HL. subst. exists [], (bic i []). split; [apply insort_in; now left|]. split; [apply incl_refl|lia].
  - destruct (Nat.leb_spec j maxp) as [L|L].
    + destruct (consider_all (combs j pset) pg HO) as (H1 & H2 & H3).
      * intros P HP. destruct (combs_in _ _ _ HP) as (HL & _). rewrite HL. auto.
      * split; [exact H1|]. split; [exact H2|]. intros P HL HF. apply H3; [|exact HF]. rewrite <- HL. apply HF.
    + split; [exact HO|]. split; [auto|]. intros P HL (_ & _ & H). lia.
Qed.
Lemma sizes_spec l : forall pg, pg_ok pg ->
  pg_ok (fold_left (pg_size bic i maxp pset inc) l pg) /\ (forall Q, covered pg Q -> covered (fold_left (pg_size bic i maxp pset inc) l pg) Q) /\
  (forall P, In (length P) l -> fit P -> covered (fold_left (pg_size bic i maxp pset inc) l pg) P).
Proof.
  induction l as [|j l IH]; intros pg HO; cbn [fold_left]; [split; [exact HO|]; split; [auto|intros P []]|].
  destruct (size_spec pg j HO) as (H1 & H2 & H3). destruct (IH _ H1) as (K1 & K2 & K3). split; [exact K1|]. split; [auto|]. intros P [HL|HL] HF; auto.
Qed.
Definition final_pg : pgraph := fold_left (pg_size bic i maxp pset inc) (seq 0 (S (length pset))) [].
Lemma final_ok : pg_ok final_pg /\ forall P, fit P -> covered final_pg P.
Proof.
  destruct (sizes_spec (seq 0 (S (length pset))) []) as (H1 & _ & H3); [split; [constructor|intros P s []]|]. split; [exact H1|].
  intros P HF. apply H3; [|exact HF]. apply in_seq0. destruct HF as (HC & _). destruct (combs_in _ _ _ HC) as (_ & HI & HN).
  pose proof (NoDup_incl_length (HN pset_nodup) HI). lia.
Qed.
End PG.

(** The same in terms of the specification. *)
Section Best.
Variable bic : nat -> list nat -> Z.
Hypothesis bic_set : set_score bic.
Variable so : list nat -> list nat.
Hypothesis so_perm : forall l, Permutation (so l) l.
Variable d maxp : nat.
Variable sup inc : nat -> nat -> bool.

Let pg (i : nat) := parent_graphs bic so d maxp sup inc i.
Let pset (i : nat) := so (filter (fun p => sup p i) (seq 0 d)).
Let must (i : nat) := filter (fun p => inc p i) (seq 0 d).
Lemma pset_nodup i : NoDup (pset i).
Proof. unfold pset. eapply Permutation_NoDup; [apply Permutation_sym, so_perm|]. apply NoDup_filter, seq_NoDup. Qed.
Lemma in_pset i p : In p (pset i) <-> (p < d)%nat /\ sup p i = true.
Proof.
  unfold pset. split.
  - intros H. apply (Permutation_in _ (so_perm _)), filter_In in H. rewrite in_seq0 in H. exact H.
  - intros H. apply (Permutation_in _ (Permutation_sym (so_perm _))), filter_In. rewrite in_seq0. exact H.
Qed.
Lemma fit_allowed i P : fit maxp (pset i) (must i) P -> allowed d maxp sup inc i P.
Proof.
  intros (HC & HI & HL). destruct (combs_in _ _ _ HC) as (_ & HP & HN). split; [apply HN, pset_nodup|]. split; [intros p Hp; apply in_pset, HP, Hp|]. split; [|exact HL].
  intros p Hp Hin. apply HI. unfold must. rewrite filter_In, in_seq0. auto.
Qed.
Lemma allowed_fit i P : allowed d maxp sup inc i P -> exists P', fit maxp (pset i) (must i) P' /\ Permutation P P'.
Proof.
  intros (H1 & H2 & H3 & H4). destruct (combs_perm (length P) (pset i) P (pset_nodup i) H1) as (P' & HP' & Perm); [intros p Hp; apply in_pset, H2, Hp|reflexivity|].
  exists P'. split; [|exact Perm]. destruct (combs_in _ _ _ HP') as (HL & _). split; [now rewrite HL|]. split; [|lia].
  intros p Hp. apply (Permutation_in _ Perm). unfold must in Hp. rewrite filter_In, in_seq0 in Hp. apply H3; tauto.
Qed.
Lemma pg_spec i : pg_ok bic i maxp (pset i) (must i) (pg i) /\ forall P, fit maxp (pset i) (must i) P -> covered bic i (pg i) P.
Proof. apply final_ok. apply pset_nodup. Qed.

Lemma query_best i T P s : query (pg i) T = Some (P, s) ->
  allowed d maxp sup inc i P /\ incl P T /\ s = bic i P /\ forall P', allowed d maxp sup inc i P' -> incl P' T -> s <= bic i P'.
Proof.
  intros HQ. destruct (pg_spec i) as [[HS HP] HC]. destruct (query_some _ _ _ _ HS HQ) as (H1 & H2 & H3). destruct (HP _ _ H1) as [HF ->].
  split; [now apply fit_allowed|]. split; [exact H2|]. split; [reflexivity|]. intros P' HA HI. destruct (allowed_fit i P' HA) as (P2 & HF2 & Perm).
  destruct (HC P2 HF2) as (P3 & s3 & K1 & K2 & K3). rewrite (bic_set i P' P2 Perm). specialize (H3 _ _ K1). enough (incl P3 T) by (specialize (H3 H); lia).
  intros x Hx. apply HI, (Permutation_in _ (Permutation_sym Perm)), K2, Hx.
Qed.
Lemma query_fails i T : query (pg i) T = None -> forall P, allowed d maxp sup inc i P -> ~ incl P T.
Proof.
  intros HQ P HA HI. destruct (pg_spec i) as [_ HC]. destruct (allowed_fit i P HA) as (P2 & HF2 & Perm). destruct (HC P2 HF2) as (P3 & s3 & K1 & K2 & _).
  apply (query_none _ _ HQ _ _ K1). intros x Hx. apply HI, (Permutation_in _ (Permutation_sym Perm)), K2, Hx.
Qed.
(** The facts the search relies on. *)
Lemma best_mono i T T' s : incl T T' -> qscore (pg i) T = Some s -> exists s', qscore (pg i) T' = Some s' /\ s' <= s.
Proof.
  unfold qscore. intros HI H. destruct (query (pg i) T) as [[P s0]|] eqn:E; [|discriminate]. cbn in H. injection H as ->.
  destruct (query_best _ _ _ _ E) as (H1 & H2 & H3 & _). destruct (query (pg i) T') as [[P' s']|] eqn:E'.
  - exists s'. split; [reflexivity|]. rewrite H3. destruct (query_best _ _ _ _ E') as (_ & _ & _ & H'). apply H'; [exact H1|]. intros x Hx. apply HI, H2, Hx.
  - exfalso. apply (query_fails _ _ E' P H1). intros x Hx. apply HI, H2, Hx.
Qed.
Lemma best_gbest i T s : qscore (pg i) T = Some s -> gbest pg i <= s.
Proof.
  unfold qscore, gbest. intros H. destruct (query (pg i) T) as [[P s0]|] eqn:E; [|discriminate]. cbn in H. injection H as ->.
  destruct (pg_spec i) as [[HS _] _]. destruct (query_some _ _ _ _ HS E) as (H1 & _). destruct (pg i) as [|e r]; [destruct H1|].
  inversion HS as [|? ? _ HF]; subst. rewrite Forall_forall in HF. destruct H1 as [->|H1]; [cbn; lia|]. apply (HF _ H1).
Qed.
Lemma best_first i T : pg i <> [] -> incl (gstruct pg i) T -> qscore (pg i) T = Some (gbest pg i).
Proof.
  unfold qscore, query, gstruct, gbest. intros N HI. destruct (pg i) as [|e r]; [congruence|]. cbn [find]. apply subset_spec in HI. rewrite HI. reflexivity.
Qed.
End Best.
