(** C146-C150: missing-value PC. *)
From Coq Require Import Permutation.
From Verif Require Import Base EdgeModel EdgeProofs GraphModel GraphSpec GraphProofs UtilsModel UtilsProofs DpathProofs NamedModel KnowledgeModel
  DsepSpec DsepProofs DsepTheory MeekModel MeekSpec MeekProofs CheckLib DconnLib CpdagModel CpdagSpec SkelModel SkelSpec SkelProofs SkelMain SkelProps PCModel PCSpec MeekFull PCGraph PCProofs PCMain PCProps
  MarkovEq MarkovSpec MarkovProps MVPCModel MVPCProofs.
Local Open Scope Z_scope.

Lemma correction_spec ind stable n g sep fuel : built n g -> (n <= fuel)%nat ->
  exists st k, skeleton_correction ind stable fuel g sep = Some st /\ LI ind stable n (perms2 n) g sep k st /\ (max_degree (cG st) <= k)%nat.
Proof.
  intros HB Hf. destruct (built_inv n g HB) as (Hn & _). unfold skeleton_correction. rewrite Hn.
  apply (loop_spec ind stable n (perms2 n) (fun x y => proj1 (in_perms2 n x y)) g sep HB fuel 0); [|lia]. now apply LI_start.
Qed.

(** C146: skeleton_correction terminates; it changes nothing but removing edges (marks of the edges it keeps are untouched); a removed
    edge was accepted as independent given a set of other nodes adjacent, in the graph it started from, to one of its ends; and
    a remaining edge is rejected as dependent given every set of final neighbours of either end. *)
Theorem C146_correction ind stable n g sep fuel : built n g -> (n <= fuel)%nat ->
  exists st, skeleton_correction ind stable fuel g sep = Some st /\ gn (cG st) = n /\
    (forall a b, gm (cG st) a b = gm g a b \/
       gm (cG st) a b = 0 /\ gm (cG st) b a = 0 /\
       exists x y T, ((x = a /\ y = b) \/ (x = b /\ y = a)) /\ conditioning n x y T /\ (forall z, In z T -> joined g x z) /\ ind x y T = true) /\
    (order_free n ind -> forall x y T, joined (cG st) x y -> NoDup T -> (forall z, In z T -> joined (cG st) x z /\ z <> y) -> ind x y T = false).
Proof.
  intros HB Hf. destruct (correction_spec ind stable n g sep fuel HB Hf) as (st & k & E & HL & Hk). exists st. split; [exact E|].
  pose proof HL as ((B & G & _) & _). split; [apply (built_inv n _ B)|]. split.
  - intros a b. destruct (G a b) as [K|(K1 & K2 & T & (x & y & Q1 & Q2 & Q3 & Q4 & Q5) & _)]; [now left|right]. split; [exact K1|]. split; [exact K2|]. exists x, y, T. auto.
  - intros Ho x y T J. apply (exit_clear ind stable n (perms2 n) (fun x y => proj1 (in_perms2 n x y)) g sep k st HL Hk Ho); [|exact J].
    apply in_perms2. exact (built_joined_neq n _ _ _ B J).
Qed.
(** C147: with stable=True every edge removed by skeleton_correction gets at least one new separating set, recorded under both orders of the
    pair; every new set was accepted by the test; the sets known before are kept in front, and pairs that keep their edge get none. *)
Theorem C147_stable_sepsets ind n g sep fuel st : built n g -> (n <= fuel)%nat -> skeleton_correction ind true fuel g sep = Some st ->
  forall a b, exists L, cS st a b = sep a b ++ L /\
    (forall T, In T L -> conditioning n a b T /\ (ind a b T = true \/ ind b a T = true)) /\
    (joined (cG st) a b -> L = []) /\
    (joined g a b -> ~ joined (cG st) a b -> exists T, In T (cS st a b)).
Proof.
  intros HB Hf E. destruct (correction_spec ind true n g sep fuel HB Hf) as (st' & k & E' & HL & Hk). rewrite E in E'. injection E' as <-.
  pose proof HL as ((B & G & S3 & _) & ER & _). intros a b. destruct (S3 a b) as (L & EL & K1 & _ & K3). exists L. split; [exact EL|]. split; [|split].
  - intros T HT. destruct (K1 T HT) as (x & y & [[-> ->]|[-> ->]] & _ & Hi & [C1 C2] & _); (split; [split; [exact C1|]|auto]); intros z Hz; destruct (C2 z Hz) as (? & ? & ?); auto.
  - intros (_ & _ & J). destruct L as [|T L]; [reflexivity|]. exfalso. destruct K3 as [K|K]; [discriminate|congruence|]. rewrite ER in K. destruct K.
  - intros (J1 & J2 & J3) NJ. destruct (G a b) as [K|(_ & _ & T & _ & K)]; [|exists T; auto]. exfalso. apply NJ. destruct (built_inv n _ B) as (Hn & _), (built_inv n _ HB) as (Hn0 & _).
    split; [congruence|]. split; [congruence|congruence].
Qed.

(** ** C148: correctness *)
(** The test accepts independence only of d-separated nodes (spurious dependence is allowed: this is what test-wise deletion can cause). *)
Definition sound_test (n : nat) (D : ggraph) (ind : nat -> nat -> list nat -> bool) : Prop :=
  forall x y T, (x < n)%nat -> (y < n)%nat -> x <> y -> conditioning n x y T -> ind x y T = true -> ~ dconnected D x y T.

Lemma parents_sep D x y : dag D -> (x < gn D)%nat -> (y < gn D)%nat -> x <> y -> ~ joined D x y ->
  exists u v T, ((u = x /\ v = y) \/ (u = y /\ v = x)) /\ conditioning (gn D) u v T /\ (forall z, In z T -> dedge D z u) /\ ~ dconnected D u v T.
Proof.
  intros HD Hx Hy N NJ.
  assert (NA : forall u v, ~ joined D u v -> ~ adjacent D u v).
  { intros u v K [E|E]; apply K; apply (DsepProofs.dag_dedge D HD) in E; destruct E as (K1 & K2 & K3 & K4); (split; [assumption|]; split; [assumption|]); [rewrite K3|rewrite K4]; discriminate. }
  assert (NJ' : ~ joined D y x).
  { intros (K1 & K2 & K3). apply NJ. split; [exact K2|]. split; [exact K1|]. destruct (proj2 (proj2 HD) y x K1 K2 K3) as [[_ K]|[_ K]]; rewrite K; discriminate. }
  assert (P : forall u v, ~ joined D u v -> ~ joined D v u -> (u < gn D)%nat -> (v < gn D)%nat -> u <> v -> ~ reach (dedge D) u v ->
    exists T, conditioning (gn D) u v T /\ (forall z, In z T -> dedge D z u) /\ ~ dconnected D u v T).
  { intros u v Ku Kv Hu Hv Nuv NR. exists (filter (fun z => dedgeb D z u) (seq 0 (gn D))).
    assert (I : forall z, In z (filter (fun z => dedgeb D z u) (seq 0 (gn D))) <-> dedge D z u).
    { intros z. rewrite filter_In, in_seq0. split; [intros [K1 K2]; now apply dedgeb_iff in K2|]. intros K. split; [apply K|]. apply dedgeb_iff; [apply K|exact Hu|exact K]. }
    split; [split; [apply NoDup_filter, seq_NoDup|]|split; [intros z; apply I|]].
    - intros z Hz. apply I in Hz. split; [apply Hz|]. split; [intros ->; exact (dag_asym D HD _ _ Hz Hz)|]. intros ->. apply (NA v u Kv). now left.
    - apply parents_separate; auto. }
  destruct (reach_dec D HD x y) as [R|R].
  - destruct (P y x NJ' NJ Hy Hx (fun E => N (eq_sym E))) as (T & H1); [|exists y, x, T; auto].
    intros R2. apply reach_split in R. destruct R as [R|(w & R1 & R3)]; [contradiction|]. apply (proj1 (proj2 HD) x). exists w. split; [exact R1|]. now apply reach_trans with y.
  - destruct (P x y NJ NJ' Hx Hy N R) as (T & H1). exists x, y, T. auto.
Qed.
Lemma joined_adjacent D a b : dag D -> joined D a b -> adjacent D a b.
Proof. intros HD (K1 & K2 & K3). destruct (proj2 (proj2 HD) a b K1 K2 K3) as [K|K]; [left|right]; (split; [assumption|]; split; [assumption|]; now left). Qed.
Lemma adjacent_joined D a b : dag D -> adjacent D a b -> joined D a b.
Proof.
  intros HD [E|E]; apply (DsepProofs.dag_dedge D HD) in E; destruct E as (K1 & K2 & K3 & K4); (split; [assumption|]; split; [assumption|]); [rewrite K3|rewrite K4]; discriminate.
Qed.
Lemma dag_joined_neq D a b : dag D -> joined D a b -> a <> b.
Proof. intros HD (K1 & _ & K) ->. apply K. now apply (proj1 (proj1 HD)). Qed.

Section Correctness.
Variables (n : nat) (D : ggraph) (ind1 ind2 : nat -> nat -> list nat -> bool).
Hypothesis H1 : sound_test n D ind1.
Hypothesis Ho1 : order_free n ind1.
Hypothesis H2 : oracle n D ind2.
Let Dn : gn D = n := proj1 H2.
Let HD : dag D := proj1 (proj2 H2).
Lemma ind2_sep x y T : (x < n)%nat -> (y < n)%nat -> x <> y -> conditioning n x y T -> (ind2 x y T = true <-> ~ dconnected D x y T).
Proof. intros. now apply H2. Qed.
Variables (stable : bool) (fuel : nat) (g : ggraph) (sep : nat -> nat -> list (list nat)).
Hypothesis Hf : (n <= fuel)%nat.
Hypothesis Eg : skeleton_discovery ind1 no_ban stable fuel n = Some (g, sep).
Lemma g_built : built n g. Proof. eapply skeleton_built; eauto. Qed.
Lemma g_undirected : gn g = n /\ all_undirected g.
Proof. destruct (C54_skeleton_terminates ind1 no_ban stable n fuel Hf) as (g' & S' & E & K). rewrite Eg in E. injection E as <- <-. exact K. Qed.
Lemma g_contains a b : joined D a b -> joined g a b.
Proof.
  intros J. destruct (joined_dec g a b) as [K|K]; [exact K|exfalso]. pose proof (dag_joined_neq D a b HD J) as N. pose proof J as (Ha & Hb & _). rewrite Dn in Ha, Hb.
  destruct (C54_skeleton_edges ind1 no_ban stable n fuel g sep Hf Eg) as [Q _]. destruct (Q a b Ha Hb N K) as [E|[E|(T & C & [E|E])]]; [discriminate|discriminate| |].
  - apply (H1 a b T Ha Hb N C E). apply adjacent_never_separated; [now apply joined_adjacent|exact N].
  - assert (C' : conditioning n b a T) by (destruct C as [C1 C2]; split; [exact C1|]; intros z Hz; destruct (C2 z Hz) as (? & ? & ?); auto).
    apply (H1 b a T Hb Ha (fun E => N (eq_sym E)) C' E). apply adjacent_never_separated; [|intros E'; now apply N]. apply adjacent_sym. now apply joined_adjacent.
Qed.
Variable st : cst.
Hypothesis Est : skeleton_correction ind2 stable fuel g sep = Some st.
Lemma st_spec : exists k, LI ind2 stable n (perms2 n) g sep k st /\ (max_degree (cG st) <= k)%nat.
Proof. destruct (correction_spec ind2 stable n g sep fuel g_built Hf) as (st' & k & E & HL & Hk). rewrite Est in E. injection E as <-. eauto. Qed.
Lemma why_sep a b T : why ind2 n (perms2 n) g a b T -> ~ dconnected D a b T.
Proof.
  intros (x & y & Q1 & Q2 & Q3 & Q4 & _). apply in_perms2 in Q2. destruct Q2 as (Hx & Hy & N). apply (ind2_sep x y T Hx Hy N Q4) in Q3.
  destruct Q1 as [[-> ->]|[-> ->]]; [exact Q3|]. intros K. apply Q3. now apply dconnected_sym.
Qed.
Lemma st_joined a b : joined (cG st) a b <-> joined D a b.
Proof.
  destruct st_spec as (k & HL & Hk). pose proof HL as ((B & G & _) & _). destruct (built_inv n _ B) as (Hn & _). split.
  - intros J. destruct (joined_dec D a b) as [K|NK]; [exact K|exfalso]. destruct (built_joined_neq n _ _ _ B J) as (Ha & Hb & N).
    destruct (parents_sep D a b HD) as (u & v & T & Q1 & Q2 & Q3 & Q4); [now rewrite Dn|now rewrite Dn|exact N|exact NK|]. rewrite Dn in Q2.
    assert (Juv : joined (cG st) u v) by (destruct Q1 as [[-> ->]|[-> ->]]; [exact J|now apply (built_joined_sym n)]). clear Q1 J Ha Hb N NK.
    destruct (built_joined_neq n _ _ _ B Juv) as (Hu & Hv & N).
    assert (F : ind2 u v T = false).
    { apply (exit_clear ind2 stable n (perms2 n) (fun x y => proj1 (in_perms2 n x y)) g sep k st HL Hk); [now apply (oracle_order_free n D)|now apply in_perms2|exact Juv|apply Q2|].
      intros z Hz. split; [|now apply Q2]. specialize (Q3 z Hz).
      assert (Jz : joined D u z) by (apply adjacent_joined; [exact HD|now right]).
      pose proof (g_contains u z Jz) as Jg. destruct Jg as (A1 & A2 & A3). destruct (built_inv n _ g_built) as (Hng & _).
      destruct (G u z) as [E|(_ & _ & T' & W & _)].
      - split; [congruence|]. split; [congruence|]. congruence.
      - exfalso. apply (why_sep u z T' W). apply adjacent_never_separated; [now right|]. exact (dag_joined_neq D _ _ HD Jz). }
    apply (ind2_sep u v T Hu Hv N Q2) in Q4. congruence.
  - intros J. pose proof (g_contains a b J) as (A1 & A2 & A3). destruct (built_inv n _ g_built) as (Hng & _). destruct (G a b) as [E|(_ & _ & T' & W & _)].
    + split; [congruence|]. split; [congruence|]. congruence.
    + exfalso. apply (why_sep a b T' W). apply adjacent_never_separated; [now apply joined_adjacent|]. exact (dag_joined_neq D _ _ HD J).
Qed.
Lemma st_shape : built n (cG st) /\ all_undirected (cG st).
Proof.
  destruct st_spec as (k & HL & Hk). pose proof HL as ((B & G & _) & _). split; [exact B|]. intros a b J. destruct (built_joined_neq n _ _ _ B J) as (Ha & Hb & N). split; [exact N|].
  destruct (built_inv n _ B) as (Hn & _). destruct g_undirected as [Hng HU]. pose proof J as (_ & _ & NZ).
  assert (K : forall u v, gm (cG st) u v <> 0 -> gm (cG st) u v = gm g u v) by (intros u v Q; destruct (G u v) as [E|(E & _)]; congruence).
  pose proof (built_joined_sym n _ _ _ B J) as (_ & _ & NZ'). assert (Jg : joined g a b) by (split; [congruence|]; split; [congruence|]; rewrite <- K by exact NZ; exact NZ).
  destruct (HU a b Jg) as [_ (_ & _ & U1 & U2)]. split; [congruence|]. split; [congruence|]. rewrite (K a b NZ), (K b a NZ'). auto.
Qed.
Lemma st_seps : stable = true -> forall x y z, unshielded D x y z ->
  cS st x z <> [] /\ (forallb (fun cs => negb (memb y cs)) (cS st x z) = true <-> ucollider D x y z).
Proof.
  intros Es x y z Hu. destruct st_spec as (k & HL & Hk). pose proof HL as ((B & G & S3 & _) & ER & _). destruct (S3 x z) as (L & EL & K1 & _ & _).
  pose proof Hu as (J1 & J2 & N & NJ). assert (Hx : (x < n)%nat) by (destruct J1 as (Q & _); now rewrite Dn in Q). assert (Hz : (z < n)%nat) by (destruct J2 as (Q & _); now rewrite Dn in Q).
  pose proof Eg as Eg'. rewrite Es in Eg'. destruct (C56_stable_sepsets ind1 n fuel g sep x z Hf Ho1 Eg' Hx Hz N) as (_ & Hjn & Hall & Hex).
  assert (Cs : forall T, conditioning n z x T -> conditioning n x z T) by (intros T [C1 C2]; split; [exact C1|]; intros w Hw; destruct (C2 w Hw) as (? & ? & ?); auto).
  assert (Hms : forall T, minimal_separator n ind1 x z T \/ minimal_separator n ind1 z x T -> ~ dconnected D x z T).
  { intros T [(Q1 & Q2 & _)|(Q1 & Q2 & _)]; [now apply (H1 x z)|]. intros Q3. apply (H1 z x T Hz Hx (fun E => N (eq_sym E)) Q1 Q2). now apply dconnected_sym. }
  assert (Hgood : forall U, In U (cS st x z) -> ucollider D x y z -> ~ In y U).
  { intros U HU Hc Hy. rewrite EL in HU. apply in_app_iff in HU. destruct HU as [HU|HU].
    - destruct (Hall U HU) as (Ts & [_ Q1] & Q2). apply Q1 in Hy. destruct Hy as (T & Q3 & Q4). revert Q4. apply (d_sep_collider D HD x y z T Hc). apply Hms. now apply Q2.
    - revert Hy. apply (d_sep_collider D HD x y z U Hc). apply why_sep. now apply K1. }
  assert (Hsome : exists U, In U (cS st x z) /\ (~ ucollider D x y z -> In y U)).
  { destruct (joined_dec g x z) as [Jg|NJg].
    - destruct (G x z) as [E|(_ & _ & T & W & Q)].
      + exfalso. apply NJ. apply st_joined. destruct (built_inv n _ B) as (Hn & _). destruct Jg as (_ & _ & A3). split; [congruence|]. split; [congruence|congruence].
      + exists T. split; [now apply Q|]. intros NC. apply (d_sep_noncollider D HD x y z T Hu NC). now apply why_sep.
    - destruct (Hex NJg) as (U & Ts & Q1 & Q2 & [_ Q3] & Q4). exists U. split; [rewrite EL; apply in_app_iff; now left|]. intros NC. destruct Ts as [|T Ts]; [congruence|].
      apply Q3. exists T. split; [now left|]. apply (d_sep_noncollider D HD x y z T Hu NC). apply Hms. apply Q4. now left. }
  destruct Hsome as (U & HU & HUy). split; [intros E; rewrite E in HU; destruct HU|]. rewrite forallb_forall. split.
  - intros HA. destruct (ucollider_dec' D x y z) as [|NC]; [assumption|exfalso]. specialize (HA U HU). apply negb_true_iff, memb_not_In in HA. auto.
  - intros Hc T HT. apply negb_true_iff, memb_not_In. now apply Hgood.
Qed.
End Correctness.

(** ** detect_parent *)
Lemma detect_spec ind stable n r fuel : (r < n)%nat -> (n <= fuel)%nat ->
  exists st k, detect_parent ind stable fuel n r = Some (neighbors (cG st) r) /\
    LI ind stable n (filter (fun p => Nat.eqb (fst p) r) (perms2 n)) (complete_graph n) (fun _ _ => []) k st /\ (max_degree (cG st) <= k)%nat.
Proof.
  intros Hr Hf. assert (Hp : forall x y, In (x, y) (filter (fun p => Nat.eqb (fst p) r) (perms2 n)) -> (x < n)%nat /\ (y < n)%nat /\ x <> y) by (intros x y K; apply filter_In in K; now apply in_perms2).
  destruct (loop_spec ind stable n _ Hp (complete_graph n) (fun _ _ => []) (complete_built n) fuel 0 (mkC (complete_graph n) (fun _ _ => []) [])) as (st & k & E & HL & Hk); [|lia|].
  - apply LI_start. apply complete_built.
  - exists st, k. split; [unfold detect_parent; now rewrite E|auto].
Qed.
(** C150: detect_parent terminates; a variable it leaves out was accepted as independent of the missingness indicator given some other
    variables; a variable it returns is rejected given every set of other returned variables. *)
Theorem C150_detect_parent ind stable n r fuel : (r < n)%nat -> (n <= fuel)%nat ->
  exists l, detect_parent ind stable fuel n r = Some l /\ NoDup l /\ (forall y, In y l -> (y < n)%nat /\ y <> r) /\
    (forall y, (y < n)%nat -> y <> r -> ~ In y l -> exists T, conditioning n r y T /\ ind r y T = true) /\
    (order_free n ind -> forall y T, In y l -> NoDup T -> (forall z, In z T -> In z l /\ z <> y) -> ind r y T = false).
Proof.
  intros Hr Hf. destruct (detect_spec ind stable n r fuel Hr Hf) as (st & k & E & HL & Hk). exists (neighbors (cG st) r). split; [exact E|].
  pose proof HL as ((B & G & _) & _). destruct (built_inv n _ B) as (Hn & _). assert (Hr' : (r < gn (cG st))%nat) by now rewrite Hn.
  assert (I : forall y, In y (neighbors (cG st) r) <-> joined (cG st) r y) by (intros y; now apply in_neighbors).
  destruct (complete_spec n) as (Hnc & _ & Hc). split; [apply neighbors_nodup|]. split; [|split].
  - intros y Hy. apply I in Hy. destruct (built_joined_neq n _ _ _ B Hy) as (_ & K1 & K2). auto.
  - intros y Hy N NI. destruct (G r y) as [K|(_ & _ & T & (x & w & Q1 & Q2 & Q3 & Q4 & _) & _)].
    + exfalso. apply NI, I. split; [exact Hr'|]. split; [now rewrite Hn|]. rewrite K. apply (Hc r y). auto.
    + apply filter_In in Q2. destruct Q2 as [_ Q2]. cbn [fst] in Q2. apply Nat.eqb_eq in Q2. destruct Q1 as [[-> ->]|[-> ->]]; [eauto|congruence].
  - intros Ho y T Hy HT Hin. apply I in Hy. destruct (built_joined_neq n _ _ _ B Hy) as (_ & K1 & K2).
    refine (exit_clear ind stable n _ _ _ _ k st HL Hk Ho r y T _ Hy HT _).
    + intros x w K. apply filter_In in K. now apply in_perms2.
    + apply filter_In. split; [now apply in_perms2|apply Nat.eqb_refl].
    + intros z Hz. destruct (Hin z Hz) as [K3 K4]. split; [now apply I|exact K4].
Qed.
(** C150: if the test answers d-separation in a DAG in which the indicator has no effects, detect_parent returns exactly its parents. *)
Theorem C150_detect_parent_oracle ind stable n r fuel D : oracle n D ind -> (r < n)%nat -> (n <= fuel)%nat -> (forall y, ~ directed D r y) ->
  exists l, detect_parent ind stable fuel n r = Some l /\ forall y, In y l <-> directed D y r.
Proof.
  intros HO Hr Hf Hs. pose proof HO as (Dn & HD & HI). destruct (C150_detect_parent ind stable n r fuel Hr Hf) as (l & E & ND & Hl & Hout & Hin). exists l. split; [exact E|].
  assert (DD : forall a b, directed D a b <-> dedge D a b) by (intros; symmetry; apply (DsepProofs.dag_dedge D HD)).
  assert (Hpar : forall y, directed D y r -> In y l).
  { intros y Hy. apply DD in Hy. assert (N : y <> r) by (intros ->; exact (dag_asym D HD _ _ Hy Hy)). assert (Yn : (y < n)%nat) by (rewrite <- Dn; apply Hy).
    destruct (in_dec Nat.eq_dec y l) as [|NI]; [assumption|exfalso]. destruct (Hout y Yn N NI) as (T & C & K). apply (HI r y T) in K; auto. apply K.
    apply adjacent_never_separated; [now right|auto]. }
  intros y. split; [|apply Hpar]. intros Hy. destruct (Hl y Hy) as [Yn N]. apply DD. destruct (dedge_dec D y r) as [|NE]; [assumption|exfalso].
  assert (NR : ~ reach (dedge D) r y) by (intros R; apply reach_split in R; destruct R as [R|(w & R & _)]; [congruence|]; apply (Hs w); now apply DD).
  set (T := filter (fun z => dedgeb D z r) (seq 0 (gn D))).
  assert (I : forall z, In z T <-> dedge D z r).
  { intros z. unfold T. rewrite filter_In, in_seq0. split; [intros [K1 K2]; apply dedgeb_iff in K2; auto; now rewrite Dn|]. intros K. split; [apply K|]. apply dedgeb_iff; [apply K|now rewrite Dn|exact K]. }
  assert (C : conditioning n r y T).
  { split; [apply NoDup_filter, seq_NoDup|]. intros z Hz. apply I in Hz. split; [rewrite <- Dn; apply Hz|]. split; intros ->; [exact (dag_asym D HD _ _ Hz Hz)|contradiction]. }
  assert (F : ind r y T = false).
  { apply (Hin (oracle_order_free n D ind HO) y T Hy); [apply C|]. intros z Hz. split; [apply Hpar, DD; now apply I|]. now apply C. }
  assert (Sp : ~ dconnected D r y T).
  { apply parents_separate; auto. intros [K|K]; [apply (Hs y); now apply DD|contradiction]. }
  apply (HI r y T Hr Yn) in Sp; auto. congruence.
Qed.
Lemma missing_total indm some all stable fuel n is : (n <= fuel)%nat -> (forall i, In i is -> (i < n)%nat) -> exists l, missingness_pairs indm some all stable fuel n is = Some l.
Proof.
  intros Hf. induction is as [|i is IH]; intros Hi; cbn [missingness_pairs]; [eauto|]. destruct IH as (l & ->); [intros; apply Hi; now right|].
  destruct (negb (some i) || all i); [eauto|]. destruct (C150_detect_parent (indm i) stable n i fuel (Hi i (or_introl eq_refl)) Hf) as (p & -> & _). destruct p; eauto.
Qed.
(** C150: the list of parents of missingness indicators contains exactly the columns that have both missing and present entries and for which
    detect_parent finds something, with what it finds, in increasing order. *)
Theorem C150_missingness_pairs indm some all stable fuel n : (n <= fuel)%nat ->
  exists l, get_parent_missingness_pairs indm some all stable fuel n = Some l /\
    forall prt i, In (prt, i) l <-> (i < n)%nat /\ some i = true /\ all i = false /\ prt <> [] /\ detect_parent (indm i) stable fuel n i = Some prt.
Proof.
  intros Hf. unfold get_parent_missingness_pairs. destruct (missing_total indm some all stable fuel n (filter some (seq 0 n)) Hf) as (l & E).
  { intros i Hi. apply filter_In in Hi. now apply in_seq0. }
  exists l. split; [exact E|]. intros prt i.
  enough (G : forall is l, missingness_pairs indm some all stable fuel n is = Some l ->
    (In (prt, i) l <-> In i is /\ some i = true /\ all i = false /\ prt <> [] /\ detect_parent (indm i) stable fuel n i = Some prt)).
  { rewrite (G _ _ E), filter_In, in_seq0. tauto. }
  clear l E. induction is as [|j is IH]; intros l; cbn [missingness_pairs].
  - intros [= <-]. cbn. tauto.
  - destruct (missingness_pairs indm some all stable fuel n is) as [l'|]; [|destruct (if _ || _ then _ else _) as [[|]|]; discriminate].
    specialize (IH l' eq_refl). destruct (some j) eqn:Es; cbn [negb orb].
    + destruct (all j) eqn:Ea.
      * intros [= <-]. rewrite IH. cbn [In]. split; [intuition|]. intros ([->|K] & Q1 & Q2 & Q3); [congruence|tauto].
      * destruct (detect_parent (indm j) stable fuel n j) as [[|p ps]|] eqn:Ed; [intros [= <-]|intros [= <-]|discriminate].
        -- rewrite IH. cbn [In]. split; [intuition|]. intros ([->|K] & Q1 & Q2 & Q3 & Q4); [congruence|tauto].
        -- cbn [In]. rewrite IH. split.
           ++ intros [[= <- <-]|K]; [|tauto]. split; [now left|]. split; [exact Es|]. split; [exact Ea|]. split; [discriminate|exact Ed].
           ++ intros ([->|K] & Q1 & Q2 & Q3 & Q4); [left; congruence|tauto].
    + intros [= <-]. rewrite IH. cbn [In]. split; [intuition|]. intros ([->|K] & Q1 & Q2 & Q3); [congruence|tauto].
Qed.

(** C148: if the test-wise deletion test accepts independence only of d-separated variables and the corrected test answers d-separation in the DAG, mvpc
    (with stable=True, or with one of the rules that do not use the recorded separating sets) returns the completed graph of the DAG. *)
Theorem C148_mvpc_oracle_partial n D indm some all pv1 pv2 alpha fuel rx nm stable rule prio :
  sound_test n D (fun x y cs => pv1 x y cs >? alpha) -> order_free n (fun x y cs => pv1 x y cs >? alpha) ->
  (forall prt_m, oracle n D (fun x y cs => pv2 prt_m x y cs >? alpha)) ->
  (n <= fuel)%nat -> (n * n < fuel)%nat -> valid_mode rule prio -> stable = true \/ rule <> 0%nat ->
  exists g, mvpc_alg fuel rx nm None indm some all pv1 pv2 alpha stable rule prio n = Ret g /\ completed D g.
Proof.
  intros H1 Ho1 H2 Hf Hf2 Hv Hm. unfold mvpc_alg. destruct (C150_missingness_pairs indm some all stable fuel n Hf) as (prt_m & -> & _). cbn [of_opt obind].
  change (fun x y : nat => false && false) with no_ban. specialize (H2 prt_m). set (ind1 := fun x y cs => pv1 x y cs >? alpha) in *. set (ind2 := fun x y cs => pv2 prt_m x y cs >? alpha) in *.
  destruct (C54_skeleton_terminates ind1 no_ban stable n fuel Hf) as (g & sep & Eg & _). rewrite Eg. cbn [of_opt obind fst snd].
  assert (HB : built n g) by (eapply skeleton_built; eauto).
  destruct (correction_spec ind2 stable n g sep fuel HB Hf) as (st & k & Est & _). rewrite Est. cbn [of_opt obind].
  pose proof H2 as (Dn & HD & _).
  destruct (st_shape n ind1 ind2 stable fuel g sep Hf Eg st Est) as [SB SU].
  assert (SJ : forall a b, joined (cG st) a b <-> joined D a b) by (intros; now apply (st_joined n D ind1 ind2 H1 H2 stable fuel g sep Hf Eg st Est)).
  pose proof (skeleton_Inv n D (pv2 prt_m) alpha H2 (equivalent D) (cG st) SB SU SJ) as HI.
  assert (FIN : forall sp, good_seps D sp -> exists g, uc_and_meek fuel rx nm None (pv2 prt_m) alpha rule prio sp (cG st) = Ret g /\ completed D g).
  { intros sp HS. destruct (uc_and_meek_runs n D (pv2 prt_m) alpha H2 (equivalent D) (equivalent_refl D HD) (fun D' H => H) fuel rx nm rule prio sp (cG st) Hf2 HI HS Hv)
      as (g2 & g3 & _ & HM & Hw & Hs & Hg & Em & EQ).
    exists g3. split; [exact EQ|]. now apply (midway_completes rx nm D g2 fuel g3). }
  destruct Hm as [Es|Nr].
  - apply FIN. intros x y z Hu. now apply (st_seps n D ind1 ind2 H1 Ho1 H2 stable fuel g sep Hf Eg st Est Es).
  - destruct (C23_skeleton_oracle n D ind2 stable fuel H2 Hf) as (g' & sep' & E' & _).
    destruct (skeleton_seps n D (pv2 prt_m) alpha H2 (equivalent D) stable fuel g' sep' Hf E') as [_ HS]. destruct (FIN sep' HS) as (g3 & E3 & K3).
    exists g3. split; [|exact K3]. rewrite <- E3. destruct rule as [|[|[|r]]]; [congruence|reflexivity|reflexivity|reflexivity].
Qed.

(** ** The default-off mode stable=False *)
(** 0 --> 2 <-- 1; test-wise deletion finds only dependence, the corrected test answers d-separation. *)
Definition mv_D : ggraph := graph_of 3 [dir 0 2; dir 1 2].
Definition mv_pv (x y : nat) (T : list nat) : Z := if dsep_test mv_D x y T then 1 else 0.
Lemma mv_dag : dag mv_D.
Proof. apply (dagb_sound (fun v => nth v [0; 1; 2]%nat 0%nat)). vm_compute. reflexivity. Qed.
Lemma mv_oracle : oracle 3 mv_D (fun x y cs => mv_pv x y cs >? 0).
Proof.
  split; [reflexivity|]. split; [exact mv_dag|]. intros x y T Hx Hy N HC. rewrite <- (dsep_test_spec mv_D x y T mv_dag Hx N).
  unfold mv_pv. destruct (dsep_test mv_D x y T); cbn; split; congruence.
Qed.
Lemma mv_hyps : sound_test 3 mv_D (fun _ _ _ => 0 >? 0) /\ order_free 3 (fun _ _ _ => 0 >? 0).
Proof. split; [intros x y T _ _ _ _ K; discriminate|intros x y T T' _ _ _ _ _; reflexivity]. Qed.
(** C149 (refuted as stated in the documentation of mvpc): with stable=False and the default rule the hypotheses of C148 do not even guarantee
    that the call returns: an edge removed by the correction has no separating set recorded, and the orientation of the unshielded
    triple it leaves fails. *)
Theorem C149_unstable_mode_returns_refuted :
  exists n D pv1 pv2, sound_test n D (fun x y cs => pv1 x y cs >? 0) /\ order_free n (fun x y cs => pv1 x y cs >? 0) /\
    (forall prt_m : list (list nat * nat), oracle n D (fun x y cs => pv2 prt_m x y cs >? 0)) /\ valid_mode 0 (Some 2%nat) /\
    forall fuel rx nm indm all, (n <= fuel)%nat -> mvpc_alg fuel rx nm None indm (fun _ => false) all pv1 pv2 0 false 0 (Some 2%nat) n = Failed.
Proof.
  exists 3%nat, mv_D, (fun _ _ _ => 0), (fun _ => mv_pv). destruct mv_hyps as [K1 K2]. split; [exact K1|]. split; [exact K2|]. split; [intros _; exact mv_oracle|].
  split; [intros p [= <-]; lia|]. intros fuel rx nm indm all Hf. destruct fuel as [|[|[|f]]]; [lia|lia|lia|]. vm_compute. reflexivity.
Qed.
Example C148_ex : sound_test 3 mv_D (fun _ _ _ => 0 >? 0) /\ order_free 3 (fun _ _ _ => 0 >? 0) /\ oracle 3 mv_D (fun x y cs => mv_pv x y cs >? 0) /\ valid_mode 0 (Some 2%nat) /\
  match mvpc_alg 10 (fun _ _ => false) (fun i => i) None (fun _ _ _ _ => false) (fun _ => true) (fun _ => false) (fun _ _ _ => 0) (fun _ => mv_pv) 0 true 0 (Some 2%nat) 3 with
    Ret g => (gm g 0%nat 2%nat =? -1) && (gm g 2%nat 0%nat =? 1) && (gm g 1%nat 2%nat =? -1) && (gm g 2%nat 1%nat =? 1) && (gm g 0%nat 1%nat =? 0) | _ => false end = true.
Proof.
  destruct mv_hyps as [K1 K2]. split; [exact K1|]. split; [exact K2|]. split; [exact mv_oracle|]. split; [intros p [= <-]; lia|]. vm_compute. reflexivity.
Qed.
(** The correction starts from the complete graph, removes 0 -- 1 and records the empty set under both orders. *)
Example C146_C147_ex : built 3 (complete_graph 3) /\
  match skeleton_correction (fun x y cs => mv_pv x y cs >? 0) true 3 (complete_graph 3) (fun _ _ => []) with
  | Some st => cS st 0%nat 1%nat = [[]; []] /\ cS st 1%nat 0%nat = [[]; []] /\ gm (cG st) 0%nat 1%nat = 0 /\ gm (cG st) 0%nat 2%nat = -1 | None => False end.
Proof. split; [apply complete_built|]. vm_compute. repeat split. Qed.
(** The indicator of variable 2 has the parents 0 and 1. *)
Example C150_ex : oracle 3 mv_D (fun x y cs => mv_pv x y cs >? 0) /\ (forall y, ~ directed mv_D 2 y) /\
  detect_parent (fun x y cs => mv_pv x y cs >? 0) true 3 3 2 = Some [0; 1]%nat /\
  get_parent_missingness_pairs (fun _ x y cs => mv_pv x y cs >? 0) (Nat.eqb 2) (fun _ => false) true 3 3 = Some [([0; 1], 2)]%nat.
Proof.
  split; [exact mv_oracle|]. split; [|vm_compute; auto]. intros y (K1 & K2 & K3 & K4). change (gn mv_D) with 3%nat in K2. destruct y as [|[|[|y]]]; [vm_compute in K3; discriminate..|lia].
Qed.
