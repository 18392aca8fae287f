(** mec_check decides Markov equivalence in the sense of d-separation (Verma and Pearl's theorem applied to C17). *)
From Verif Require Import Base EdgeModel GraphModel GraphSpec GraphProofs UtilsModel UtilsProofs DsepSpec DsepProofs DsepTheory MeekSpec MeekProofs CpdagModel CpdagSpec
  RankLib CheckLib SkelSpec SkelMain MeekFull PCSpec PCProofs PCMain MarkovSpec MarkovEq CpdagMain CpdagProps NamedModel KnowledgeModel SkelModel PCModel PCProps.
Local Open Scope nat_scope.

Lemma dag_separator D x y : dag D -> x < gn D -> y < gn D -> x <> y -> ~ joined D x y ->
  exists T, (forall z, In z T -> z < gn D /\ z <> x /\ z <> y) /\ ~ dconnected D x y T.
Proof.
  intros HD Hx Hy N NJ.
  assert (NA : forall u v, ~ joined D u v -> ~ adjacent D u v).
  { intros u v K [E|E]; apply K; apply (DsepProofs.dag_dedge D HD) in E; destruct E as (K1 & K2 & K3 & K4); (split; [assumption|]; split; [assumption|]); [rewrite K3|rewrite K4]; discriminate. }
  assert (NJ' : ~ joined D y x).
  { intros (K1 & K2 & K3). apply NJ. split; [exact K2|]. split; [exact K1|]. destruct (proj2 (proj2 HD) y x K1 K2 K3) as [[_ K]|[_ K]]; rewrite K; discriminate. }
  assert (P : forall u v, ~ joined D u v -> ~ joined D v u -> u < gn D -> v < gn D -> u <> v -> ~ reach (dedge D) u v -> exists T, (forall z, In z T -> z < gn D /\ z <> u /\ z <> v) /\ ~ dconnected D u v T).
  { intros u v Ku Kv Hu Hv Nuv NR. exists (filter (fun z => dedgeb D z u) (seq 0 (gn D))).
    assert (I : forall z, In z (filter (fun z => dedgeb D z u) (seq 0 (gn D))) <-> dedge D z u).
    { intros z. rewrite filter_In, in_seq0. split; [intros [K1 K2]; now apply dedgeb_iff in K2|]. intros K. split; [apply K|]. apply dedgeb_iff; [apply K|exact Hu|exact K]. }
    split.
    - intros z Hz. apply I in Hz. split; [apply Hz|]. split; [intros ->; exact (dag_asym D HD _ _ Hz Hz)|]. intros ->. apply (NA v u Kv). now left.
    - apply parents_separate; auto. }
  destruct (reach_dec D HD x y) as [R|R].
  - destruct (P y x NJ' NJ Hy Hx (fun E => N (eq_sym E))) as (T & H1 & H2).
    + intros R2. apply reach_split in R. destruct R as [R|(w & R1 & R3)]; [contradiction|]. apply (proj1 (proj2 HD) x). exists w. split; [exact R1|]. now apply reach_trans with y.
    + exists T. split; [intros z Hz; specialize (H1 z Hz); tauto|]. intros K. apply H2. now apply dconnected_sym.
  - exact (P x y NJ NJ' Hx Hy N R).
Qed.
Lemma ucollider_dec' D x y z : ucollider D x y z \/ ~ ucollider D x y z.
Proof.
  unfold ucollider.
  destruct (lt_dec x (gn D)), (lt_dec y (gn D)), (lt_dec z (gn D)), (Nat.eq_dec x z), (Z.eq_dec (gm D y x) 1), (Z.eq_dec (gm D y z) 1),
    (Z.eq_dec (gm D x y) 0), (Z.eq_dec (gm D z y) 0), (Z.eq_dec (gm D x z) 0); tauto.
Qed.
Lemma d_short_path D x y z T : dag D -> unshielded D x y z -> opens D T x y z -> dconnected D x z T.
Proof.
  intros HD (J1 & J2 & N & _) H. assert (Nx : x <> y) by (intros ->; destruct J1 as (K & _ & J); apply J; now apply (proj1 (proj1 HD))).
  assert (Nz : z <> y) by (intros ->; destruct J2 as (K & _ & J); apply J; now apply (proj1 (proj1 HD))).
  assert (A : forall u v, joined D u v -> adjacent D u v) by (intros u v (K1 & K2 & K3); destruct (proj2 (proj2 HD) u v K1 K2 K3) as [K|K]; [left|right]; (split; [assumption|]; split; [assumption|]; now left)).
  exists [y]. cbn [app]. split.
  - repeat constructor; cbn; intuition congruence.
  - apply active_cons2. split; [now apply A|]. split; [|intros c r E; injection E as <- _; exact H].
    apply active_cons2. split; [apply adjacent_sym; now apply A|]. split; [apply active_one|]. intros c r E. discriminate.
Qed.
Lemma d_sep_collider D : dag D -> forall x y z T, ucollider D x y z -> ~ dconnected D x z T -> ~ In y T.
Proof.
  intros HD x y z T Hc HS Hy. apply HS. apply (d_short_path D x y z T HD); [now apply ucollider_unshielded|].
  destruct (ucollider_directed D HD x y z Hc) as [H1 H2]. left. split; [now apply (DsepProofs.dag_dedge D HD)|]. split; [now apply (DsepProofs.dag_dedge D HD)|].
  exists y. split; [exact Hy|apply reach_refl].
Qed.
Lemma d_sep_noncollider D : dag D -> forall x y z T, unshielded D x y z -> ~ ucollider D x y z -> ~ dconnected D x z T -> In y T.
Proof.
  intros HD x y z T Hu Hn HS. destruct (in_dec Nat.eq_dec y T) as [|NI]; [assumption|exfalso]. apply HS. apply (d_short_path D x y z T HD); [exact Hu|].
  right. split; [|exact NI]. intros [H1 H2]. apply Hn. apply (DsepProofs.dag_dedge D HD) in H1, H2. destruct Hu as (_ & _ & N & NJ).
  now apply ucollider_intro.
Qed.
Lemma same_separations_equivalent g1 g2 : dag g1 -> dag g2 -> gn g1 = gn g2 -> same_separations g1 g2 ->
  (forall a b, joined g1 a b <-> joined g2 a b) /\ (forall a b c, ucollider g1 a b c <-> ucollider g2 a b c).
Proof.
  assert (J : forall g1 g2, dag g1 -> dag g2 -> gn g1 = gn g2 -> same_separations g1 g2 -> forall a b, joined g1 a b -> joined g2 a b).
  { intros h1 h2 H1 H2 Hn HS a b Hj. pose proof Hj as (Ha & Hb & Hne).
    assert (Nab : a <> b) by (intros ->; apply Hne; now apply (proj1 (proj1 H1))).
    destruct (Z.eq_dec (gm h2 a b) 0) as [E|E]; [|split; [now rewrite <- Hn|]; split; [now rewrite <- Hn|exact E]]. exfalso.
    destruct (dag_separator h2 a b H2) as (T & HT & HN); [now rewrite <- Hn|now rewrite <- Hn|exact Nab|intros (_ & _ & K); contradiction|].
    apply HN. apply HS; auto; [intros z Hz; rewrite Hn; now apply HT|]. apply adjacent_never_separated; [|exact Nab].
    destruct (proj2 (proj2 H1) a b Ha Hb Hne) as [K|K]; [left|right]; (split; [assumption|]; split; [assumption|]; now left). }
  assert (Sy : forall h1 h2, gn h1 = gn h2 -> same_separations h1 h2 -> same_separations h2 h1).
  { intros h1 h2 Hn HS x y T Hx Hy N HT. symmetry. apply HS; rewrite ?Hn; auto. }
  assert (U : forall g1 g2, dag g1 -> dag g2 -> gn g1 = gn g2 -> same_separations g1 g2 -> forall a b c, ucollider g1 a b c -> ucollider g2 a b c).
  { intros h1 h2 H1 H2 Hn HS a b c Hc. pose proof (J h1 h2 H1 H2 Hn HS) as J12. pose proof (J h2 h1 H2 H1 (eq_sym Hn) (Sy _ _ Hn HS)) as J21.
    pose proof (ucollider_unshielded h1 a b c Hc) as (U1 & U2 & U3 & U4).
    assert (Hu : unshielded h2 a b c) by (split; [now apply J12|]; split; [now apply J12|]; split; [exact U3|]; intros K; apply U4; now apply J21).
    destruct (ucollider_dec' h2 a b c) as [|NC]; [assumption|exfalso].
    destruct (dag_separator h1 a c H1) as (T & HT & HN); [apply Hc|apply Hc|exact U3|exact U4|].
    apply (d_sep_collider h1 H1 a b c T Hc HN). apply (d_sep_noncollider h2 H2 a b c T Hu NC). intros K. apply HN. apply HS; auto; apply Hc. }
  intros H1 H2 Hn HS. split; intros; split; first [apply J|apply U]; auto.
Qed.

(** C17: on two DAGs over the same list of nodes mec_check returns, and returns True exactly when the two DAGs have the same
    d-separations, that is, when no conditional-independence test can tell them apart. *)
Theorem C17_mec_check_decides_separations g1 g2 fuel : dag g1 -> dag g2 -> gn g1 = gn g2 -> gn g1 < fuel ->
  exists r, mec_check fuel g1 g2 = Some r /\ (r = true <-> same_separations g1 g2).
Proof.
  intros H1 H2 Hn Hf. destruct (C17_mec_check_decides g1 g2 fuel H1 H2 Hn Hf) as (r & E & Hr). exists r. split; [exact E|]. rewrite Hr. split.
  - intros (HJ & HU) x y T Hx Hy N _. apply equivalent_dconnected; [|exact N]. split; [now symmetry|]. auto.
  - now apply same_separations_equivalent.
Qed.
(** C16: two DAGs have the same d-separations exactly when dag2cpdag gives both the same matrix. *)
Theorem C16_same_cpdag_iff_same_separations g1 g2 fuel C1 C2 : dag g1 -> dag g2 -> gn g1 = gn g2 -> gn g1 < fuel ->
  dag2cpdag fuel g1 = Ret C1 -> dag2cpdag fuel g2 = Ret C2 ->
  ((forall a b, a < gn g1 -> b < gn g1 -> gm C1 a b = gm C2 a b) <-> same_separations g1 g2).
Proof.
  intros H1 H2 Hn Hf E1 E2. destruct (C17_mec_check_decides_separations g1 g2 fuel H1 H2 Hn Hf) as (r & E & Hr). rewrite <- Hr.
  unfold mec_check in E. rewrite E1, E2 in E. injection E as <-. destruct (dag2cpdag_correct g1 fuel H1 Hf) as (C & EC & HC). rewrite E1 in EC. injection EC as <-.
  rewrite forallb_forall. rewrite (proj1 HC). split.
  - intros H a Ha. apply forallb_forall. intros b Hb. apply Z.eqb_eq. apply H; now apply in_seq0.
  - intros H a b Ha Hb. specialize (H a (proj2 (in_seq0 _ _) Ha)). rewrite forallb_forall in H. apply Z.eqb_eq. apply H. now apply in_seq0.
Qed.
(** Concrete case: the two DAGs of C17_ex that mec_check identifies have the same separations, the third does not. *)
Example C17_sep_ex : same_separations cp_ex cp_ex2 /\ ~ same_separations cp_ex cp_ex3.
Proof.
  destruct C17_ex as (H1 & H2 & H3 & E2 & E3).
  assert (N2 : gn cp_ex = gn cp_ex2) by (vm_compute; reflexivity). assert (N3 : gn cp_ex = gn cp_ex3) by (vm_compute; reflexivity).
  assert (L : gn cp_ex < 6) by (vm_compute; lia). revert H1 H2 H3 E2 E3 N2 N3 L. generalize cp_ex cp_ex2 cp_ex3.
  intros g1 g2 g3 H1 H2 H3 E2 E3 N2 N3 L. split.
  - destruct (C17_mec_check_decides_separations g1 g2 6 H1 H2 N2 L) as (r & E & Hr). apply Hr. rewrite E2 in E. injection E as <-. reflexivity.
  - destruct (C17_mec_check_decides_separations g1 g3 6 H1 H3 N3 L) as (r & E & Hr). rewrite <- Hr. rewrite E3 in E. injection E as <-. discriminate.
Qed.
(** The completed graph in terms of separations only. *)
Lemma completed_separations D C : dag D -> completed D C ->
  (forall a b, directed C a b <-> joined D a b /\ forall D', dag D' -> gn D' = gn D -> same_separations D D' -> directed D' a b) /\
  (forall a b, undirected C a b <-> joined D a b /\
     (exists D', dag D' /\ gn D' = gn D /\ same_separations D D' /\ directed D' a b) /\
     (exists D', dag D' /\ gn D' = gn D /\ same_separations D D' /\ directed D' b a)).
Proof.
  intros HD (_ & _ & _ & _ & H1 & H2).
  assert (E : forall D', equivalent D D' <-> dag D' /\ gn D' = gn D /\ same_separations D D').
  { intros D'. split.
    - intros HE. pose proof HE as (K1 & _ & K3 & _). split; [exact K3|]. split; [exact K1|]. intros x y T _ _ N _. now apply equivalent_dconnected.
    - intros (K1 & K2 & K3). split; [exact K2|]. split; [exact HD|]. split; [exact K1|]. now apply same_separations_equivalent. }
  split; intros a b; [rewrite H1|rewrite H2].
  - split; intros (J & K); (split; [exact J|]); intros D' HD'; [intros Hn HS|]; apply K; [now apply E|now apply E in HD'|apply E in HD'; tauto|apply E in HD'; tauto].
  - split; intros (J & (D1 & K1 & K2) & (D2 & K3 & K4)); (split; [exact J|]).
    + apply E in K1, K3. split; [exists D1|exists D2]; tauto.
    + split; [exists D1; split; [apply E; tauto|tauto]|exists D2; split; [apply E; tauto|tauto]].
Qed.
(** C57: PC on an independence oracle for D directs an edge exactly when every DAG with the separations of D directs it that way, and leaves
    it undirected exactly when two such DAGs disagree. *)
Theorem C57_pc_oracle_separations n D pv alpha fuel rx nm stable rule prio :
  oracle n D (fun x y cs => (pv x y cs >? alpha)%Z) -> n <= fuel -> n * n < fuel -> valid_mode rule prio ->
  exists g, pc_alg fuel rx nm None pv alpha stable rule prio n = Ret g /\ (forall a b, joined g a b <-> joined D a b) /\
    (forall a b, directed g a b <-> joined D a b /\ forall D', dag D' -> gn D' = gn D -> same_separations D D' -> directed D' a b) /\
    (forall a b, undirected g a b <-> joined D a b /\
       (exists D', dag D' /\ gn D' = gn D /\ same_separations D D' /\ directed D' a b) /\
       (exists D', dag D' /\ gn D' = gn D /\ same_separations D D' /\ directed D' b a)).
Proof.
  intros HO H1 H2 H3. destruct (C57_pc_oracle n D pv alpha fuel rx nm stable rule prio HO H1 H2 H3) as (g & E & HC).
  exists g. split; [exact E|]. split; [apply HC|]. apply completed_separations; [apply HO|exact HC].
Qed.
