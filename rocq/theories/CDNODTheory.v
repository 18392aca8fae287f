(** Meek's three rules are complete for the knowledge that one node is a root: two new parents of that node turn the knowledge into colliders. *)
From Verif Require Import Base EdgeModel EdgeProofs GraphModel GraphSpec GraphProofs DpathProofs RankLib UtilsModel UtilsProofs KnowledgeModel
  DsepSpec DsepProofs MeekModel MeekSpec MeekProofs MeekProps PdagProofs CpdagSpec CpdagMain MeekComplete PCSpec MeekFull CDNODSpec.
Local Open Scope Z_scope.

(** ** DAGs as relations *)
Definition rgraph (n : nat) (E : nat -> nat -> bool) : ggraph :=
  mkG n (fun a b => if E a b then -1 else if E b a then 1 else 0) zeros.
Section Rel.
Variable n : nat.
Variable E : nat -> nat -> bool.
Variable r : nat -> nat.
Hypothesis Eb : forall a b, E a b = true -> (a < n)%nat /\ (b < n)%nat.
Hypothesis Er : forall a b, E a b = true -> (r a < r b)%nat.
Lemma E_asy a b : E a b = true -> E b a = false.
Proof. intros H. destruct (E b a) eqn:K; [|reflexivity]. apply Er in H, K. lia. Qed.
Lemma rgraph_directed a b : directed (rgraph n E) a b <-> E a b = true.
Proof.
  unfold directed. cbn [gn gm rgraph]. split.
  - intros (_ & _ & K1 & _). destruct (E a b); [reflexivity|]. destruct (E b a); discriminate.
  - intros K. destruct (Eb a b K). rewrite K, (E_asy a b K). auto.
Qed.
Lemma rgraph_dag : dag (rgraph n E).
Proof.
  split; [split|split].
  - intros i _. cbn. destruct (E i i) eqn:K; [|reflexivity]. apply Er in K. lia.
  - intros i j _ _. cbn [gm rgraph]. unfold legal_pair, legal_pairs. destruct (E i j) eqn:K1, (E j i) eqn:K2; cbn; auto 20.
  - apply (rank_acyclic _ r). intros a b (_ & _ & [K|K]); cbn [gm rgraph] in K; apply Er; destruct (E a b); try reflexivity; destruct (E b a); destruct K; discriminate.
  - intros i j _ _. cbn [gm rgraph]. destruct (E i j) eqn:K1, (E j i) eqn:K2; auto; try congruence. apply Er in K1, K2. lia.
Qed.
End Rel.
Definition dirb (D : ggraph) (a b : nat) : bool := Nat.ltb a (gn D) && Nat.ltb b (gn D) && (gm D a b =? -1) && (gm D b a =? 1).
Lemma dirb_iff D a b : dirb D a b = true <-> directed D a b.
Proof. unfold dirb, directed. rewrite !andb_true_iff, !Nat.ltb_lt, !Z.eqb_eq. tauto. Qed.
Lemma dag_joins D a b : dag D -> joined D a b <-> directed D a b \/ directed D b a.
Proof.
  intros HD. split.
  - intros (Ha & Hb & N). destruct HD as (_ & _ & H). destruct (H a b Ha Hb N) as [[K1 K2]|[K1 K2]]; [left|right]; repeat split; auto.
  - intros [(Ha & Hb & K1 & K2)|(Ha & Hb & K1 & K2)]; repeat split; auto; lia.
Qed.
Lemma dag_ucol D a b c : dag D -> ucollider D a b c <-> directed D a b /\ directed D c b /\ a <> c /\ ~ joined D a c.
Proof.
  intros HD. split.
  - intros H. pose proof (ucollider_directed D HD a b c H) as [K1 K2]. split; [exact K1|]. split; [exact K2|].
    destruct H as (_ & _ & _ & N & _ & _ & _ & _ & Z0). split; [exact N|]. intros (_ & _ & K). contradiction.
  - intros (K1 & K2 & N & NJ). now apply ucollider_intro.
Qed.
Lemma dag_equivalent D D' : dag D -> dag D' -> gn D' = gn D -> (forall a b, joined D a b <-> joined D' a b) ->
  (forall a b c, a <> c -> ~ joined D a c -> (directed D a b /\ directed D c b <-> directed D' a b /\ directed D' c b)) -> equivalent D D'.
Proof.
  intros HD HD' Hn Hj Hc. split; [exact Hn|]. split; [exact HD|]. split; [exact HD'|]. split; [exact Hj|].
  intros a b c. rewrite !dag_ucol by assumption. rewrite <- Hj. split; intros (K1 & K2 & K3 & K4); destruct (Hc a b c K3 K4) as [H1 H2]; tauto.
Qed.
Lemma dag_rank D : dag D -> exists r : nat -> nat, forall a b, directed D a b -> (r a < r b)%nat.
Proof.
  intros HD. destruct (topological_rank D) as (r & Hr); [apply HD|]. exists r. intros a b (Ha & Hb & K1 & K2). apply Hr. split; [exact Ha|]. split; [exact Hb|]. auto.
Qed.
Lemma directed_lt D a b : directed D a b -> (a < gn D)%nat /\ (b < gn D)%nat.
Proof. intros (Ha & Hb & _). auto. Qed.

(** ** Two new parents *)
Section Aug.
Variable n c : nat.
Hypothesis Hc : (c < n)%nat.
Definition aug_rel (D : ggraph) (a b : nat) : bool := dirb D a b || (Nat.leb n a && Nat.ltb a (n + 2) && Nat.eqb b c).
Definition aug (D : ggraph) : ggraph := rgraph (n + 2) (aug_rel D).
Definition cut_rel (F : ggraph) (a b : nat) : bool := Nat.ltb a n && Nat.ltb b n && dirb F a b.
Definition cut (F : ggraph) : ggraph := rgraph n (cut_rel F).

Lemma aug_iff D a b : aug_rel D a b = true <-> directed D a b \/ ((n <= a)%nat /\ (a < n + 2)%nat /\ b = c).
Proof. unfold aug_rel. rewrite orb_true_iff, dirb_iff, !andb_true_iff, Nat.leb_le, Nat.ltb_lt, Nat.eqb_eq. tauto. Qed.
Lemma aug_spec D : gn D = n -> dag D -> dag (aug D) /\ (forall a b, directed (aug D) a b <-> directed D a b \/ ((n <= a)%nat /\ (a < n + 2)%nat /\ b = c)).
Proof.
  intros Dn HD. destruct (dag_rank D HD) as (r & Hr).
  assert (B : forall a b, aug_rel D a b = true -> (a < n + 2)%nat /\ (b < n + 2)%nat).
  { intros a b H. apply aug_iff in H. destruct H as [H|H]; [apply directed_lt in H|]; lia. }
  assert (R : forall a b, aug_rel D a b = true -> ((fun v => if Nat.ltb v n then S (r v) else 0%nat) a < (fun v => if Nat.ltb v n then S (r v) else 0%nat) b)%nat).
  { intros a b H. apply aug_iff in H. destruct H as [H|(H1 & H2 & ->)].
    - pose proof (directed_lt _ _ _ H) as [La Lb]. rewrite Dn in La, Lb. apply Nat.ltb_lt in La, Lb. rewrite La, Lb. apply Hr in H. lia.
    - destruct (Nat.ltb_spec a n), (Nat.ltb_spec c n); lia. }
  split; [eapply rgraph_dag; eassumption|]. intros a b. unfold aug. rewrite rgraph_directed by eassumption. apply aug_iff.
Qed.
Lemma cut_spec F : dag F -> dag (cut F) /\ (forall a b, directed (cut F) a b <-> directed F a b /\ (a < n)%nat /\ (b < n)%nat).
Proof.
  intros HF. destruct (dag_rank F HF) as (r & Hr).
  assert (I : forall a b, cut_rel F a b = true <-> directed F a b /\ (a < n)%nat /\ (b < n)%nat).
  { intros a b. unfold cut_rel. rewrite !andb_true_iff, dirb_iff, !Nat.ltb_lt. tauto. }
  assert (B : forall a b, cut_rel F a b = true -> (a < n)%nat /\ (b < n)%nat) by (intros a b H; apply I in H; tauto).
  assert (R : forall a b, cut_rel F a b = true -> (r a < r b)%nat) by (intros a b H; apply I in H; now apply Hr).
  split; [eapply rgraph_dag; eassumption|]. intros a b. unfold cut. rewrite rgraph_directed by eassumption. apply I.
Qed.
Lemma aug_joined D a b : gn D = n -> dag D -> joined (aug D) a b <-> joined D a b \/ ((n <= a)%nat /\ (a < n + 2)%nat /\ b = c) \/ ((n <= b)%nat /\ (b < n + 2)%nat /\ a = c).
Proof.
  intros Dn HD. destruct (aug_spec D Dn HD) as [HA Hd]. rewrite (dag_joins (aug D)), (dag_joins D), !Hd by assumption. tauto.
Qed.

Variable D : ggraph.
Hypothesis Dn : gn D = n.
Hypothesis HD : dag D.
Hypothesis HR : root D c.

Lemma aug_equivalent D' : equivalent D D' -> root D' c -> equivalent (aug D) (aug D').
Proof.
  intros HE HR'. pose proof HE as (En & _ & HD' & Ej & Eu). assert (Dn' : gn D' = n) by congruence.
  destruct (aug_spec D Dn HD) as [HA Hd]. destruct (aug_spec D' Dn' HD') as [HA' Hd'].
  apply dag_equivalent; auto.
  - intros a b. rewrite !aug_joined by assumption. now rewrite Ej.
  - intros a b x N NJ. rewrite aug_joined in NJ by assumption. rewrite !Hd, !Hd'.
    assert (X : directed D a b -> directed D x b -> directed D' a b /\ directed D' x b).
    { intros K1 K2. assert (K : ucollider D a b x) by (apply dag_ucol; tauto). apply Eu in K. now apply ucollider_directed. }
    assert (Y : directed D' a b -> directed D' x b -> directed D a b /\ directed D x b).
    { intros K1 K2. assert (K : ucollider D' a b x) by (apply dag_ucol; auto; rewrite <- Ej; tauto). apply Eu in K. now apply ucollider_directed. }
    assert (Q1 : forall v, directed D v b -> b <> c) by (intros v Q ->; exact (HR v Q)).
    assert (Q2 : forall v, directed D' v b -> b <> c) by (intros v Q ->; exact (HR' v Q)).
    split; intros [[K1|K1] [K2|K2]]; try tauto.
    + destruct K2 as (_ & _ & ->). exfalso. exact (HR a K1).
    + destruct K1 as (_ & _ & ->). exfalso. exact (HR x K2).
    + destruct K2 as (_ & _ & ->). exfalso. exact (HR' a K1).
    + destruct K1 as (_ & _ & ->). exfalso. exact (HR' x K2).
Qed.
Lemma cut_equivalent F : equivalent (aug D) F -> equivalent D (cut F) /\ root (cut F) c /\
  (forall a b, (a < n)%nat -> (b < n)%nat -> directed F a b -> directed (cut F) a b).
Proof.
  intros HE. pose proof HE as (En & HA & HF & Ej & Eu). destruct (cut_spec F HF) as [HC Hd]. destruct (aug_spec D Dn HD) as [_ Ha].
  assert (IN : forall a b, joined D a b -> (a < n)%nat /\ (b < n)%nat) by (intros a b (Q1 & Q2 & _); rewrite Dn in Q1, Q2; auto).
  assert (J : forall a b, joined D a b <-> joined (cut F) a b).
  { intros a b. rewrite (dag_joins (cut F)), !Hd by assumption. split.
    - intros K. pose proof (IN _ _ K). assert (K' : joined (aug D) a b) by (apply aug_joined; tauto). apply Ej in K'. apply (dag_joins F) in K'; [|exact HF]. tauto.
    - intros K. assert (K' : joined F a b) by (apply dag_joins; tauto). apply Ej in K'. apply aug_joined in K'; auto. destruct K' as [K'|K']; [exact K'|lia]. }
  split; [|split].
  - apply dag_equivalent; auto. intros a b x N NJ.
    split.
    + intros [K1 K2]. pose proof (directed_lt _ _ _ K1). pose proof (directed_lt _ _ _ K2). rewrite Dn in *.
      assert (U : ucollider (aug D) a b x).
      { apply dag_ucol; [exact HA|]. rewrite !Ha. split; [tauto|]. split; [tauto|]. split; [exact N|]. rewrite aug_joined by assumption. intros [Q|Q]; [tauto|lia]. }
      apply Eu in U. apply ucollider_directed in U; [|exact HF]. rewrite !Hd. tauto.
    + rewrite !Hd. intros [[K1 L1] [K2 L2]].
      assert (U : ucollider F a b x).
      { apply dag_ucol; [exact HF|]. split; [exact K1|]. split; [exact K2|]. split; [exact N|]. rewrite <- Ej, aug_joined by assumption. intros [Q|Q]; [tauto|lia]. }
      apply Eu in U. apply ucollider_directed in U; [|exact HA]. rewrite !Ha in U. destruct U as [[U1|U1] [U2|U2]]; try tauto; lia.
  - intros a K. apply Hd in K. destruct K as (K & La & _).
    assert (Hpc : forall p, (n <= p)%nat -> (p < n + 2)%nat -> directed F p c).
    { intros p P1 P2. assert (U : exists q, ucollider (aug D) p c q).
      { exists (2 * n + 1 - p)%nat. apply dag_ucol; [exact HA|]. rewrite !Ha. split; [auto|]. split; [right; lia|]. split; [lia|]. rewrite aug_joined by assumption.
        intros [Q|Q]; [apply IN in Q|]; lia. }
      destruct U as (q & U). apply Eu in U. now apply ucollider_directed in U. }
    assert (U : ucollider F a c n).
    { apply dag_ucol; [exact HF|]. split; [exact K|]. split; [apply Hpc; lia|]. split; [lia|]. rewrite <- Ej, aug_joined by assumption.
      intros [Q|[Q|(_ & _ & ->)]]; [apply IN in Q; lia|lia|]. destruct K as (_ & _ & K1 & K2). lia. }
    apply Eu in U. apply ucollider_directed in U; [|exact HA]. destruct U as [U _]. apply Ha in U. destruct U as [U|U]; [exact (HR a U)|lia].
  - intros a b Ha' Hb' K. apply Hd. auto.
Qed.
Lemma aug_closed (M : nat -> nat -> Prop) : rule_closed D M -> (forall x, joined D c x -> M c x) ->
  rule_closed (aug D) (fun a b => M a b \/ ((n <= a)%nat /\ (a < n + 2)%nat /\ b = c)).
Proof.
  intros (M0 & M1 & M2 & M3 & M4 & M5) HM. destruct (aug_spec D Dn HD) as [HA Ha].
  assert (MB : forall a b, M a b -> (a < n)%nat /\ (b < n)%nat) by (intros a b K; apply M1, directed_lt in K; now rewrite Dn in K).
  assert (DB : forall a b, directed D a b -> (a < n)%nat /\ (b < n)%nat) by (intros a b K; apply directed_lt in K; now rewrite Dn in K).
  split; [|split; [|split; [|split; [|split]]]].
  - intros a b. destruct (M0 a b) as [K|K]; [auto|]. destruct (le_dec n a), (lt_dec a (n + 2)), (Nat.eq_dec b c); tauto.
  - intros a b K. apply Ha. destruct K as [K|K]; [left; now apply M1|auto].
  - intros a b x K. apply dag_ucol in K; [|exact HA]. rewrite !Ha, aug_joined in K by assumption. destruct K as ([K1|K1] & K2 & K3 & K4); [|auto].
    destruct K2 as [K2|(K2 & K5 & ->)]; [|exfalso; exact (HR a K1)]. left. apply (M2 a b x). apply dag_ucol; tauto.
  - intros v u y K1 K2 K3 K4. apply Ha in K2. rewrite aug_joined in K4 by assumption. destruct K1 as [K1|(K1 & K5 & ->)].
    + destruct K2 as [K2|K2]; [|apply MB in K1; lia]. left. apply (M3 v u y); tauto.
    + destruct K2 as [K2|K2]; [|lia]. left. apply HM, dag_joins; auto.
  - intros a j b K1 K2 K3. apply Ha in K3. destruct K1 as [K1|(K1 & K5 & ->)].
    + destruct K2 as [K2|K2]; [|apply MB in K1; lia]. destruct K3 as [K3|K3]; [|auto]. left. now apply (M4 a j b).
    + destruct K3 as [K3|K3]; [apply DB in K3; lia|auto].
  - intros a j k b J1 J2 N1 N2 N3 N4 K1 K2 K3 N NJ. apply Ha in K3. destruct K3 as [K3|K3]; [|auto]. left.
    pose proof (DB _ _ K3) as [La Lb]. assert (Nb : b <> c) by (intros ->; exact (HR a K3)).
    assert (Q1 : M j b) by (destruct K1 as [K1|(_ & _ & K1)]; [exact K1|congruence]). assert (Q2 : M k b) by (destruct K2 as [K2|(_ & _ & K2)]; [exact K2|congruence]).
    rewrite aug_joined in J1, J2, NJ by assumption. pose proof (MB _ _ Q1). pose proof (MB _ _ Q2).
    apply (M5 a j k b); auto.
    + destruct J1 as [J1|J1]; [exact J1|lia].
    + destruct J2 as [J2|J2]; [exact J2|lia].
Qed.

(** A graph that is sound for the class, keeps the colliders and is closed under the rules is the completed one. *)
Lemma root_completed g : gn g = n -> wf g -> (forall a b, joined g a b <-> joined D a b) -> partially_directed g ->
  (forall a b, directed g a b -> forall D', equivalent D D' /\ root D' c -> directed D' a b) -> rule_closed D (directed g) ->
  (forall x, joined D c x -> directed g c x) -> completed_root D c g.
Proof.
  intros Hn Hw Hj Hp Hs Hcl Hx. destruct (aug_spec D Dn HD) as [HA Ha].
  destruct (closed_contains (aug D) HA) as (C & HC & Hclo). specialize (Hclo _ (aug_closed _ Hcl Hx)). cbv beta in Hclo.
  destruct HC as (Cn & Cw & Cj & Cp & Cd & Cu).
  assert (IN : forall a b, joined D a b -> (a < n)%nat /\ (b < n)%nat) by (intros a b (Q1 & Q2 & _); rewrite Dn in Q1, Q2; auto).
  assert (BACK : forall a b, joined D a b -> directed C a b -> directed g a b).
  { intros a b J K. destruct (Hclo a b K) as [Q|Q]; [exact Q|]. apply IN in J. lia. }
  split; [congruence|]. split; [exact Hw|]. split; [exact Hj|]. split; [exact Hp|]. split.
  - intros a b. split.
    + intros K. split; [apply Hj; exact (proj1 (directed_joined _ _ _ K))|]. intros D' E1 E2. apply Hs; auto.
    + intros [J K]. apply BACK; [exact J|]. apply Cd. split; [apply aug_joined; auto|]. intros F HF.
      destruct (cut_equivalent F HF) as (E1 & E2 & E3). specialize (K _ E1 E2). destruct (cut_spec F) as [_ Hd]; [apply HF|]. now apply Hd in K.
  - intros a b. split.
    + intros K. pose proof (undirected_joined _ _ _ K) as [J J']. apply Hj in J, J'. split; [exact J|].
      assert (U : undirected C a b).
      { assert (JC : joined C a b) by (apply Cj, aug_joined; auto). destruct (Cp a b JC) as [F|[F|F]]; [| |exact F]; apply BACK in F; auto;
        destruct F as (_ & _ & F1 & F2), K as (_ & _ & G1 & G2); lia. }
      apply Cu in U. destruct U as (_ & (F1 & X1 & Y1) & (F2 & X2 & Y2)).
      destruct (IN _ _ J) as [La Lb]. split; [exists (cut F1)|exists (cut F2)].
      * destruct (cut_equivalent F1 X1) as (E1 & E2 & E3). auto.
      * destruct (cut_equivalent F2 X2) as (E1 & E2 & E3). auto.
    + intros (J & (D1 & X1 & R1 & Y1) & (D2 & X2 & R2 & Y2)). apply Hj in J. destruct (Hp a b J) as [K|[K|K]]; [| |exact K]; exfalso.
      * apply (directed_asym D2 ltac:(apply X2) a b); auto.
      * apply (directed_asym D1 ltac:(apply X1) a b); auto.
Qed.
End Aug.
