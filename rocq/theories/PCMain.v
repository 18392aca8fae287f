(** PC with a perfect test returns the completed partially directed graph. *)
From Verif Require Import Base EdgeModel EdgeProofs GraphModel GraphSpec GraphProofs DpathProofs RankLib UtilsModel UtilsProofs NamedModel KnowledgeModel
  DsepSpec DsepProofs DsepTheory MeekModel MeekSpec MeekProofs MeekProps CpdagSpec SkelModel SkelSpec SkelProofs SkelMain SkelSep SkelProps
  PCModel PCSpec MeekFull PCGraph PCProofs.
Local Open Scope Z_scope.

Lemma maxl_spec l : l <> [] -> exists m, maxl l = Ok m /\ In m l /\ forall p, In p l -> p <= m.
Proof.
  destruct l as [|a r]; [congruence|]. intros _. cbn [maxl]. exists (fold_left Z.max r a). split; [reflexivity|].
  revert a. induction r as [|b r IH]; intros a; cbn [fold_left].
  - split; [now left|]. intros p [->|[]]. lia.
  - destruct (IH (Z.max a b)) as [H1 H2]. split.
    + destruct H1 as [H1|H1]; [|right; right; exact H1]. destruct (Z.max_spec a b) as [[_ E]|[_ E]]; rewrite E in *; rewrite <- H1; cbn; auto.
    + pose proof (H2 (Z.max a b) (or_introl eq_refl)) as M. intros p [E|[E|H]]; [lia|lia|]. apply H2. now right.
Qed.
Lemma maxl_map {A} (f : A -> Z) l (alpha : Z) : l <> [] -> exists m, maxl (map f l) = Ok m /\
  (m > alpha <-> exists T, In T l /\ f T > alpha).
Proof.
  intros N. destruct (maxl_spec (map f l)) as (m & E & H1 & H2); [destruct l; [congruence|discriminate]|].
  exists m. split; [exact E|]. split.
  - intros K. apply in_map_iff in H1. destruct H1 as (T & <- & H1). eauto.
  - intros (T & K1 & K2). specialize (H2 (f T) (in_map f l T K1)). lia.
Qed.
Lemma combs_filter (f : nat -> bool) l : In (filter f l) (combs (length (filter f l)) l).
Proof.
  induction l as [|a l IH]; [now left|]. cbn [filter]. destruct (f a); cbn [length combs].
  - apply in_app_iff. left. now apply in_map.
  - destruct (filter f l) as [|b r] eqn:E; [rewrite combs_0; now left|]. cbn [length combs] in *. apply in_app_iff. now right.
Qed.
Lemma powerset_filter f l : In (filter f l) (powerset l).
Proof.
  unfold powerset. apply in_flat_map. exists (length (filter f l)). split; [|apply combs_filter]. apply in_seq. pose proof (filter_len f l). lia.
Qed.
Lemma powerset_in l T : In T (powerset l) -> incl T l /\ (NoDup l -> NoDup T).
Proof. unfold powerset. rewrite in_flat_map. intros (k & _ & H). apply combs_in in H. tauto. Qed.

Lemma without_mid_nonempty g x y z : find_cond_sets_without_mid g x z y <> [].
Proof.
  intros E. assert (H : In (filter (fun _ => false) (neighbors g x)) (find_cond_sets_without_mid g x z y)); [|rewrite E in H; exact H].
  unfold find_cond_sets_without_mid. apply filter_In. split; [apply in_app_iff; left; apply powerset_filter|]. apply negb_true_iff, memb_not_In.
  intros K. apply filter_In in K. now destruct K.
Qed.
Lemma fill_ok f l : (forall t, In t l -> exists v, f t = Ok v) -> forall d, exists d', fill_dict f l d = Ok d' /\
  forall t, In t (map fst d') <-> In t (map fst d) \/ In t l.
Proof.
  induction l as [|t l IH]; intros H d; cbn [fill_dict].
  - exists d. split; [reflexivity|]. intros t. cbn. tauto.
  - destruct (H t (or_introl eq_refl)) as (v & ->). cbn [res_bind]. destruct (IH (fun u Hu => H u (or_intror Hu)) (tput d t v)) as (d' & E & Hd').
    exists d'. split; [exact E|]. intros u. rewrite Hd', tput_keys. cbn [In]. intuition.
Qed.
Section Oracle.
Variable n : nat.
Variable D : ggraph.
Variable pv : nat -> nat -> list nat -> Z.
Variable alpha : Z.
Notation ind := (fun x y cs => pv x y cs >? alpha).
Hypothesis HO : oracle n D ind.
Let Dn : gn D = n := proj1 HO.
Let HD : dag D := proj1 (proj2 HO).
Let noblk : nat -> nat -> bool := fun _ _ => false.
Variable cls : ggraph -> Prop.
Hypothesis cls_D : cls D.
Hypothesis cls_eq : forall D', cls D' -> equivalent D D'.

Lemma ind_iff x y T : (x < n)%nat -> (y < n)%nat -> x <> y -> conditioning n x y T -> (pv x y T > alpha <-> ~ dconnected D x y T).
Proof. intros Hx Hy N HC. pose proof HO as (_ & _ & H). rewrite <- (H x y T Hx Hy N HC). rewrite Z.gtb_lt. lia. Qed.

Lemma directed_dedge a b : directed D a b <-> dedge D a b.
Proof. rewrite (DsepProofs.dag_dedge D HD). reflexivity. Qed.
Lemma short_path x y z T : unshielded D x y z -> opens D T x y z -> dconnected D x z T.
Proof.
  intros (J1 & J2 & N & _) H. pose proof (joinedD_neq D HD _ _ J1). pose proof (joinedD_neq D HD _ _ J2).
  exists [y]. cbn [app]. split.
  - repeat constructor; cbn; intuition congruence.
  - apply active_cons2. split; [now apply (dag_joined D HD)|]. split.
    + apply active_cons2. split; [|split; [apply active_one|intros c r E; discriminate]]. apply (dag_joined D HD).
      destruct J2 as (Hz & Hy & NZ). split; [exact Hy|]. split; [exact Hz|]. pose proof HD as (_ & _ & K). specialize (K z y Hz Hy NZ). lia.
    + intros c r E. injection E as <- <-. exact H.
Qed.
Lemma sep_collider x y z T : ucollider D x y z -> ~ dconnected D x z T -> ~ In y T.
Proof.
  intros Hc HS Hy. apply HS. apply (short_path x y z T); [now apply ucollider_unshielded|].
  destruct (ucollider_directed D HD x y z Hc) as [H1 H2]. left. split; [now apply directed_dedge|]. split; [now apply directed_dedge|].
  exists y. split; [exact Hy|apply reach_refl].
Qed.
Lemma sep_noncollider x y z T : unshielded D x y z -> ~ ucollider D x y z -> ~ dconnected D x z T -> In y T.
Proof.
  intros Hu Hn HS. destruct (in_dec Nat.eq_dec y T) as [|NI]; [assumption|exfalso]. apply HS. apply (short_path x y z T); [exact Hu|].
  right. split; [|exact NI]. intros [H1 H2]. apply Hn. apply directed_dedge in H1, H2. destruct Hu as (_ & _ & N & NJ).
  now apply ucollider_intro.
Qed.
Lemma ucollider_dec x y z : ucollider D x y z \/ ~ ucollider D x y z.
Proof.
  unfold ucollider.
  destruct (lt_dec x (gn D)), (lt_dec y (gn D)), (lt_dec z (gn D)), (Nat.eq_dec x z), (Z.eq_dec (gm D y x) 1), (Z.eq_dec (gm D y z) 1),
    (Z.eq_dec (gm D x y) 0), (Z.eq_dec (gm D z y) 0), (Z.eq_dec (gm D x z) 0); tauto.
Qed.
Lemma unshielded_bounds x y z : unshielded D x y z -> (x < n)%nat /\ (y < n)%nat /\ (z < n)%nat /\ x <> z /\ x <> y /\ z <> y.
Proof.
  intros (J1 & J2 & N & _). pose proof (joinedD_neq D HD _ _ J1). pose proof (joinedD_neq D HD _ _ J2).
  destruct J1 as (B1 & B2 & _), J2 as (B3 & _ & _). rewrite Dn in B1, B2, B3. auto 10.
Qed.

(** ** The skeleton *)
Notation Inv := (Inv n D cls).
Lemma skeleton_Inv g : built n g -> all_undirected g -> (forall a b, joined g a b <-> joined D a b) -> Inv g.
Proof.
  intros HB HU Hj. split; [exact HB|]. split; [exact Hj|]. split.
  - intros a b J. right. right. now apply HU.
  - intros a b K. exfalso. pose proof (proj1 (directed_joined _ _ _ K)) as J. destruct (HU a b J) as [_ U].
    destruct K as (_ & _ & K1 & K2), U as (_ & _ & U1 & U2). lia.
Qed.
Definition good_seps (sep : nat -> nat -> list (list nat)) : Prop := forall x y z, unshielded D x y z ->
  sep x z <> [] /\ (forallb (fun cs => negb (memb y cs)) (sep x z) = true <-> ucollider D x y z).
Lemma skeleton_seps stable fuel g sep : (n <= fuel)%nat -> skeleton_discovery ind no_ban stable fuel n = Some (g, sep) ->
  Inv g /\ good_seps sep.
Proof.
  intros Hf E. destruct (C23_skeleton_oracle n D ind stable fuel HO Hf) as (g0 & sep0 & E0 & Hn & HU & Hj).
  rewrite E in E0. injection E0 as <- <-. split; [apply skeleton_Inv; auto; eapply skeleton_built; eauto|].
  intros x y z Hu. destruct (unshielded_bounds x y z Hu) as (Hx & Hy & Hz & N & N1 & N2).
  assert (NJ : ~ joined g x z) by (rewrite Hj; apply Hu).
  assert (Hsep : forall T, conditioning n x z T -> ind x z T = true -> ~ dconnected D x z T) by (intros T K; now apply HO).
  assert (Hsep' : forall T, conditioning n z x T -> ind z x T = true -> ~ dconnected D x z T).
  { intros T K1 K2 K3. apply dconnected_sym in K3. revert K3. apply HO; auto. }
  assert (Cs : forall T, conditioning n x z T -> conditioning n z x T).
  { intros T [K1 K2]. split; [exact K1|]. intros w Hw. destruct (K2 w Hw) as (? & ? & ?). auto. }
  destruct stable.
  - destruct (C56_stable_sepsets ind n fuel g sep x z Hf (oracle_order_free n D ind HO) E Hx Hz N) as (_ & _ & Hall & Hex).
    destruct (Hex NJ) as (U & Ts & HU1 & HU2 & HU3 & HU4). split; [intros E1; rewrite E1 in HU1; destruct HU1|].
    assert (Hms : forall T, minimal_separator n ind x z T \/ minimal_separator n ind z x T -> ~ dconnected D x z T).
    { intros T [(K1 & K2 & _)|(K1 & K2 & _)]; auto. }
    rewrite forallb_forall. split.
    + intros HA. destruct (ucollider_dec x y z) as [|NC]; [assumption|exfalso].
      destruct Ts as [|T Ts]; [congruence|]. pose proof (HU4 T (or_introl eq_refl)) as HT. apply Hms in HT.
      pose proof (sep_noncollider x y z T Hu NC HT) as Hy'. specialize (HA U HU1). apply negb_true_iff in HA. apply memb_not_In in HA.
      apply HA. apply HU3. exists T. cbn. auto.
    + intros Hc U' HU'. apply negb_true_iff, memb_not_In. destruct (Hall U' HU') as (Ts' & [_ K1] & K2). intros Hy'. apply K1 in Hy'.
      destruct Hy' as (T & K3 & K4). revert K4. apply (sep_collider x y z T Hc). apply Hms. now apply K2.
  - destruct (C24_sepset_nonstable_partial ind n fuel g sep x z Hf E Hx Hz N NJ) as (T & KC & KI & E1 & _).
    assert (HT : ~ dconnected D x z T) by (destruct KI; auto). rewrite E1. split; [discriminate|].
    cbn [forallb memb]. rewrite andb_true_r, negb_true_iff. rewrite memb_not_In. split.
    + intros Hy'. destruct (ucollider_dec x y z) as [|NC]; [assumption|]. exfalso. apply Hy'. now apply (sep_noncollider x y z).
    + intros Hc. now apply (sep_collider x y z).
Qed.

(** ** uc_sepset *)
Lemma blocked_no t : blocked noblk t = false.
Proof. destruct t as [[x y] z]. reflexivity. Qed.
Definition coll (sep : nat -> nat -> list (list nat)) (t : triple) : bool := forallb (fun cs => negb (memb (t2 t) cs)) (sep (t1 t) (t3 t)).
Lemma uc_fold prio sep l : (forall x y z, In (x, y, z) l -> sep x z <> []) -> forall s,
  fold_left (uc_step noblk prio sep) l (Ok s) =
  Ok (if Nat.leb prio 2 then (fold_left (now prio) (filter (coll sep) l) (fst s), snd s) else (fst s, snd s ++ filter (coll sep) l)).
Proof.
  induction l as [|[[x y] z] l IH]; intros HN s; cbn [fold_left filter].
  - rewrite app_nil_r. destruct s, (Nat.leb prio 2); reflexivity.
  - unfold uc_step at 2. cbn [res_bind]. rewrite blocked_no. pose proof (HN x y z (or_introl eq_refl)) as Hne.
    change (coll sep (x, y, z)) with (forallb (fun cs => negb (memb y cs)) (sep x z)). destruct (sep x z) as [|c r] eqn:E; [congruence|]. rewrite <- E. clear Hne.
    destruct (forallb _ (sep x z)).
    + destruct (Nat.leb prio 2) eqn:EP; rewrite IH by (intros; eapply HN; right; eauto); rewrite ?EP; cbn [fst snd fold_left]; [reflexivity|].
      now rewrite <- app_assoc.
    + rewrite IH by (intros; eapply HN; right; eauto). reflexivity.
Qed.
Lemma in_ordered_D g x y z : Inv g -> In (x, y, z) (ordered_triples g) <-> unshielded D x y z /\ (x < z)%nat.
Proof.
  intros HI. pose proof HI as (HB & Hj & Hp & _). destruct (built_inv n g HB) as (_ & Hw & _).
  rewrite in_ordered by assumption. now rewrite (Inv_unshielded n D cls).
Qed.
Lemma neighbors_D g x w : Inv g -> (x < n)%nat -> In w (neighbors g x) <-> joined D x w.
Proof. intros HI Hx. rewrite in_neighbors by (rewrite (Inv_gn n D cls); auto). apply HI. Qed.
Lemma joinedD_sym a b : joined D a b -> joined D b a.
Proof. intros J. apply (dag_joined D HD) in J. apply (dag_joined D HD). destruct J; [right|left]; assumption. Qed.
Lemma with_mid_nonempty g x y z : Inv g -> unshielded D x y z -> find_cond_sets_with_mid g x z y <> [].
Proof.
  intros HI Hu E. destruct (unshielded_bounds x y z Hu) as (Hx & Hy & Hz & N & N1 & N2).
  assert (H : In (filter (fun _ => true) (neighbors g x)) (find_cond_sets_with_mid g x z y)); [|rewrite E in H; exact H].
  unfold find_cond_sets_with_mid. apply filter_In. split; [apply in_app_iff; left; apply powerset_filter|]. apply memb_In, filter_In.
  split; [|reflexivity]. apply (neighbors_D g x y HI Hx). apply Hu.
Qed.
Lemma apply_sorted_is g l : apply_sorted noblk g l = fold_left (now 2) l g.
Proof.
  unfold apply_sorted. revert g. induction l as [|t l IH]; intros g; [reflexivity|]. cbn [fold_left]. rewrite blocked_no. apply IH.
Qed.
Definition keeps (g g' : ggraph) : Prop := forall a b, directed g a b -> directed g' a b.
(** A list of all ordered colliders, processed in any order, puts all of them in place. *)
Lemma process prio g l : Inv g -> (forall x y z, In (x, y, z) l <-> ucollider D x y z /\ (x < z)%nat) ->
  built n (fold_left (now prio) l g) /\ keeps g (fold_left (now prio) l g) /\ midc cls D (fold_left (now prio) l g).
Proof.
  intros HI Hl. destruct (now_fold n D Dn HD cls cls_D cls_eq prio l g HI) as (H1 & H2 & H3); [intros x y z K; now apply Hl|].
  split; [apply H1|]. split; [exact H3|]. apply (covering n D Dn HD cls l _ H1 H2). intros x y z K1 K2. now apply Hl.
Qed.
Lemma p_ok g x y z : Inv g -> unshielded D x y z -> (exists v, p_with pv g (x, y, z) = Ok v) /\ (exists v, p_without pv g (x, y, z) = Ok v).
Proof.
  intros HI Hu. split; [destruct (maxl_map (pv x z) _ 0 (with_mid_nonempty g x y z HI Hu)) as (m & E & _)|
    destruct (maxl_map (pv x z) _ 0 (without_mid_nonempty g x y z)) as (m & E & _)]; exists m; exact E.
Qed.
Lemma uc_sepset_places prio sep g : (prio <= 4)%nat -> Inv g -> good_seps sep ->
  exists g', uc_sepset pv noblk prio sep g = Ok g' /\ built n g' /\ keeps g g' /\ midc cls D g'.
Proof.
  intros Hp HI HS. unfold uc_sepset. apply Nat.leb_le in Hp. rewrite Hp.
  assert (HN : forall x y z, In (x, y, z) (ordered_triples g) -> sep x z <> []).
  { intros x y z K. apply in_ordered_D in K; [|exact HI]. now apply (HS x y z). }
  rewrite (uc_fold prio sep _ HN). cbn [res_bind fst snd].
  assert (HL : forall x y z, In (x, y, z) (filter (coll sep) (ordered_triples g)) <-> ucollider D x y z /\ (x < z)%nat).
  { intros x y z. rewrite filter_In, in_ordered_D by exact HI. unfold coll, t1, t2, t3. cbn [fst snd]. split.
    - intros [[K1 K2] K3]. split; [|exact K2]. now apply (HS x y z K1).
    - intros [K1 K2]. pose proof (ucollider_unshielded D _ _ _ K1) as K3. repeat split; auto; try apply K3. now apply (HS x y z K3). }
  destruct (Nat.leb prio 2) eqn:E2.
  - eexists. split; [reflexivity|]. cbn [fst]. now apply process.
  - cbn [fst snd app]. set (l := filter (coll sep) (ordered_triples g)) in *.
    destruct (fill_ok (if Nat.eqb prio 3 then p_with pv g else p_without pv g) l) with (d := @nil (triple * Z)) as (d & Ed & Hd).
    { intros [[x y] z] K. apply HL in K. destruct K as [K _]. pose proof (ucollider_unshielded D _ _ _ K) as Ku.
      destruct (p_ok g x y z HI Ku) as [P1 P2]. destruct (Nat.eqb prio 3); assumption. }
    cbn [fst snd]. rewrite Ed. cbn [res_bind]. eexists. split; [reflexivity|]. rewrite apply_sorted_is. apply process; [exact HI|].
    intros x y z. rewrite sort_dict_in, Hd. cbn [map In]. rewrite <- HL. tauto.
Qed.

(** ** maxp and definite_maxp: the maxima are on opposite sides of alpha *)
Lemma cond_sets_ok g x y z T : Inv g -> unshielded D x y z -> In T (find_cond_sets g x z) -> conditioning n x z T.
Proof.
  intros HI Hu H. destruct (unshielded_bounds x y z Hu) as (Hx & Hy & Hz & N & N1 & N2). unfold find_cond_sets in H. apply in_app_iff in H.
  assert (NJ : ~ joined D x z) by apply Hu. assert (NJ' : ~ joined D z x) by (intros K; apply NJ; now apply joinedD_sym).
  destruct H as [H|H]; apply powerset_in in H; destruct H as [H1 H2]; (split; [apply H2, neighbors_nodup|]); intros w Hw; apply H1 in Hw;
  apply neighbors_D in Hw; auto; pose proof (joinedD_neq D HD _ _ Hw) as Nw; pose proof Hw as (_ & B & _); rewrite Dn in B;
  (split; [exact B|]); split; try congruence; intros ->; contradiction.
Qed.
Lemma some_separates g x y z : Inv g -> unshielded D x y z -> exists T, In T (find_cond_sets g x z) /\ ~ dconnected D x z T.
Proof.
  intros HI Hu. destruct (unshielded_bounds x y z Hu) as (Hx & Hy & Hz & N & N1 & N2).
  assert (NA : ~ adjacent D x z) by (rewrite <- (dag_joined D HD); apply Hu).
  assert (P : forall a, (a < n)%nat -> forall w, In w (filter (fun w => if dedge_dec D w a then true else false) (neighbors g a)) <-> dedge D w a).
  { intros a Ha w. rewrite filter_In, (neighbors_D g a w HI Ha). destruct (dedge_dec D w a) as [K|K]; [|intuition discriminate].
    split; [auto|]. intros _. split; [|reflexivity]. apply (dag_joined D HD). now right. }
  assert (R : ~ reach (dedge D) x z \/ ~ reach (dedge D) z x).
  { destruct (reach_dec D HD x z) as [K|K]; [|auto]. right. intros K'. pose proof HD as (_ & Hac & _).
    apply reach_split in K. destruct K as [K|K]; [congruence|]. destruct K as (w & K1 & K2). apply (Hac x). exists w. split; [exact K1|].
    eapply reach_trans; eauto. }
  destruct R as [R|R].
  - eexists. split; [unfold find_cond_sets; apply in_app_iff; left; apply powerset_filter|]. apply (parents_separate D HD x z); [auto|auto|auto|].
    apply P. exact Hx.
  - eexists. split; [unfold find_cond_sets; apply in_app_iff; right; apply powerset_filter|]. intros K. apply dconnected_sym in K. revert K.
    apply (parents_separate D HD z x); [auto|intros [K|K]; apply NA; [now right|now left]|auto|]. apply P. exact Hz.
Qed.
(** Which sets exceed alpha. *)
Lemma with_exceeds g x y z : Inv g -> unshielded D x y z ->
  (exists T, In T (find_cond_sets_with_mid g x z y) /\ pv x z T > alpha) <-> ~ ucollider D x y z.
Proof.
  intros HI Hu. destruct (unshielded_bounds x y z Hu) as (Hx & Hy & Hz & N & N1 & N2). unfold find_cond_sets_with_mid. split.
  - intros (T & K1 & K2) Hc. apply filter_In in K1. destruct K1 as [K1 K3]. apply memb_In in K3. revert K3.
    apply (sep_collider x y z T Hc). apply ind_iff; auto. eapply cond_sets_ok; eauto.
  - intros NC. destruct (some_separates g x y z HI Hu) as (T & K1 & K2). exists T. split.
    + apply filter_In. split; [exact K1|]. apply memb_In. now apply (sep_noncollider x y z).
    + apply ind_iff; auto. eapply cond_sets_ok; eauto.
Qed.
Lemma without_exceeds g x y z : Inv g -> unshielded D x y z ->
  (exists T, In T (find_cond_sets_without_mid g x z y) /\ pv x z T > alpha) <-> ucollider D x y z.
Proof.
  intros HI Hu. destruct (unshielded_bounds x y z Hu) as (Hx & Hy & Hz & N & N1 & N2). unfold find_cond_sets_without_mid. split.
  - intros (T & K1 & K2). apply filter_In in K1. destruct K1 as [K1 K3]. apply negb_true_iff, memb_not_In in K3.
    destruct (ucollider_dec x y z) as [|NC]; [assumption|]. exfalso. apply K3. apply (sep_noncollider x y z T Hu NC).
    apply ind_iff; auto. eapply cond_sets_ok; eauto.
  - intros Hc. destruct (some_separates g x y z HI Hu) as (T & K1 & K2). exists T. split.
    + apply filter_In. split; [exact K1|]. apply negb_true_iff, memb_not_In. now apply (sep_collider x y z).
    + apply ind_iff; auto. eapply cond_sets_ok; eauto.
Qed.
Lemma maxp_decides g x y z : Inv g -> unshielded D x y z -> exists pw po, p_with pv g (x, y, z) = Ok pw /\ p_without pv g (x, y, z) = Ok po /\
  ((po >? pw) = true <-> ucollider D x y z).
Proof.
  intros HI Hu. destruct (maxl_map (pv x z) _ alpha (with_mid_nonempty g x y z HI Hu)) as (pw & E1 & H1).
  destruct (maxl_map (pv x z) _ alpha (without_mid_nonempty g x y z)) as (po & E2 & H2).
  exists pw, po. split; [exact E1|]. split; [exact E2|]. rewrite (with_exceeds g x y z HI Hu) in H1. rewrite (without_exceeds g x y z HI Hu) in H2.
  rewrite Z.gtb_lt. destruct (ucollider_dec x y z) as [K|K].
  - split; [auto|]. intros _. assert (~ pw > alpha) by tauto. assert (po > alpha) by tauto. lia.
  - assert (pw > alpha) by tauto. assert (~ po > alpha) by tauto. split; [lia|tauto].
Qed.
Lemma maxp_fold prio l : (forall x y z, In (x, y, z) l -> unshielded D x y z) -> forall g d, Inv g ->
  exists g' d', fold_left (maxp_step pv noblk prio) l (Ok (g, d)) = Ok (g', d') /\ Inv g' /\ (forall a b, directed g a b -> directed g' a b) /\
   ((prio <= 2)%nat -> forall x y z, In (x, y, z) l -> ucollider D x y z -> directed g' x y /\ directed g' z y) /\
   ((2 < prio)%nat -> g' = g /\ forall t, In t (map fst d') <-> In t (map fst d) \/ (In t l /\ ucollider D (t1 t) (t2 t) (t3 t))).
Proof.
  induction l as [|[[x y] z] l IH]; intros HL g d HI; cbn [fold_left].
  - exists g, d. split; [reflexivity|]. split; [exact HI|]. split; [auto|]. split; [intros _ ? ? ? []|]. intros _. split; [reflexivity|]. cbn. tauto.
  - unfold maxp_step at 2. cbn [res_bind fst snd]. rewrite blocked_no.
    pose proof (HL x y z (or_introl eq_refl)) as Hu. destruct (maxp_decides g x y z HI Hu) as (pw & po & -> & -> & Hdec). cbn [res_bind].
    assert (HL' : forall a b c, In (a, b, c) l -> unshielded D a b c) by (intros; apply HL; now right).
    destruct (po >? pw) eqn:EC.
    + assert (Hc : ucollider D x y z) by now apply Hdec. destruct (Nat.leb prio 2) eqn:EP.
      * apply Nat.leb_le in EP. destruct (now_effect n D Dn HD cls cls_D prio g x y z HI Hc) as [HB HE].
        destruct (effect_inv n D Dn HD cls cls_D cls_eq g x y z _ HI Hc HB HE) as (HI' & K1 & K2 & K3).
        destruct (IH HL' _ d HI') as (g' & d' & -> & L1 & L2 & L3 & L4). exists g', d'. split; [reflexivity|]. split; [exact L1|].
        split; [auto|]. split; [|lia]. intros _ a b c [[= <- <- <-]|K] Hc'; [auto|now apply (L3 EP a b c)].
      * apply Nat.leb_gt in EP. destruct (IH HL' g (tput d (x, y, z) (if Nat.eqb prio 3 then pw else po)) HI) as (g' & d' & -> & L1 & L2 & L3 & L4).
        exists g', d'. split; [reflexivity|]. split; [exact L1|]. split; [auto|]. split; [lia|]. intros _. destruct (L4 EP) as [-> L5]. split; [reflexivity|].
        intros t. rewrite L5, tput_keys. cbn [In]. split.
        -- intros [[->|K]|[K1 K2]]; auto. 
        -- intros [K|[[<-|K1] K2]]; auto.
    + assert (Hc : ~ ucollider D x y z) by (rewrite <- Hdec; discriminate).
      destruct (IH HL' g d HI) as (g' & d' & -> & L1 & L2 & L3 & L4). exists g', d'. split; [reflexivity|]. split; [exact L1|]. split; [auto|]. split.
      * intros EP a b c [[= <- <- <-]|K] Hc'; [contradiction|now apply (L3 EP a b c)].
      * intros EP. destruct (L4 EP) as [-> L5]. split; [reflexivity|]. intros t. rewrite L5. cbn [In]. split; [intuition|].
        intros [K|[[<-|K1] K2]]; auto. contradiction.
Qed.
Lemma maxp_places prio g : (prio <= 4)%nat -> Inv g -> exists g', maxp pv noblk prio g = Ok g' /\ built n g' /\ keeps g g' /\ midc cls D g'.
Proof.
  intros Hp HI. unfold maxp. apply Nat.leb_le in Hp. rewrite Hp.
  destruct (maxp_fold prio (ordered_triples g)) with (g := g) (d := @nil (triple * Z)) as (g' & d' & EF & L1 & L2 & L3 & L4); [|exact HI|].
  { intros x y z K. apply in_ordered_D in K; tauto. }
  change (fold_left (maxp_step pv noblk prio) (ordered_triples g) (Ok (g, [])) = Ok (g', d')) in EF. unfold tdict in *. rewrite EF.
  cbn [res_bind fst snd]. destruct (Nat.leb prio 2) eqn:E2.
  - apply Nat.leb_le in E2. eexists. split; [reflexivity|]. split; [apply L1|]. split; [exact L2|]. apply (Inv_midc n D Dn); [exact L1|]. intros x y z Hc.
    pose proof (ucollider_sym n D Dn HD _ _ _ Hc) as Hc'.
    destruct (Nat.lt_total x z) as [L|[->|L]].
    + apply (L3 E2 x y z); [|exact Hc]. apply in_ordered_D; [exact HI|]. split; [now apply ucollider_unshielded|exact L].
    + destruct Hc as (_ & _ & _ & N & _). congruence.
    + apply (L3 E2 z y x); [|exact Hc']. apply in_ordered_D; [exact HI|]. split; [now apply ucollider_unshielded|exact L].
  - apply Nat.leb_gt in E2. destruct (L4 E2) as [-> L5]. eexists. split; [reflexivity|]. rewrite apply_sorted_is. apply process; [exact HI|].
    intros x y z. rewrite sort_dict_in, L5. cbn [map In]. unfold t1, t2, t3. cbn [fst snd]. rewrite in_ordered_D by exact HI. split; [tauto|].
    intros [K1 K2]. right. split; [|exact K1]. split; [now apply ucollider_unshielded|exact K2].
Qed.

(** ** definite_maxp *)
Lemma scan_with_spec ps : forall mx, fst (scan_with alpha ps mx) = true <-> ~ exists p, In p ps /\ p > alpha.
Proof.
  induction ps as [|p r IH]; intros mx; cbn [scan_with].
  - split; [intros _ (p & [] & _)|reflexivity].
  - destruct (p >? alpha) eqn:E; cbn [fst].
    + split; [discriminate|]. intros K. exfalso. apply K. exists p. split; [now left|]. apply Z.gtb_lt in E. lia.
    + rewrite IH. rewrite Z.gtb_ltb, Z.ltb_ge in E. split; intros K (q & K1 & K2); apply K.
      * destruct K1 as [->|K1]; [lia|]. eauto.
      * exists q. split; [now right|exact K2].
Qed.
Lemma scan_without_spec uc ps : forall nuc mx, fst (scan_without alpha uc ps nuc mx) = true <-> nuc = true /\ ~ exists p, In p ps /\ p > alpha.
Proof.
  induction ps as [|p r IH]; intros nuc mx; cbn [scan_without].
  - cbn [fst]. split; [intros K; split; [exact K|intros (p & [] & _)]|tauto].
  - destruct (p >? alpha) eqn:E; cbn [andb].
    + assert (X : exists q, In q (p :: r) /\ q > alpha) by (exists p; split; [now left|]; apply Z.gtb_lt in E; lia).
      destruct (negb uc); cbn [fst]; [|rewrite IH]; intuition discriminate.
    + rewrite IH. rewrite Z.gtb_ltb, Z.ltb_ge in E. split; intros [K0 K]; (split; [exact K0|]); intros (q & K1 & K2); apply K.
      * destruct K1 as [->|K1]; [lia|]. eauto.
      * exists q. split; [now right|exact K2].
Qed.
Lemma exists_map {A} (f : A -> Z) l : (exists p, In p (map f l) /\ p > alpha) <-> exists T, In T l /\ f T > alpha.
Proof.
  split.
  - intros (p & K & K2). apply in_map_iff in K. destruct K as (T & <- & K). eauto.
  - intros (T & K1 & K2). exists (f T). split; [now apply in_map|exact K2].
Qed.
Lemma definite_decides prio g s x y z : Inv g -> unshielded D x y z ->
  (ucollider D x y z /\ exists v, definite_step pv alpha prio g s (x, y, z) = (tput (fst s) (x, y, z) v, snd s)) \/
  (~ ucollider D x y z /\ definite_step pv alpha prio g s (x, y, z) = (fst s, snd s ++ [(x, y, z)])).
Proof.
  intros HI Hu. unfold definite_step.
  pose proof (scan_with_spec (map (pv x z) (find_cond_sets_with_mid g x z y)) 0) as S1.
  destruct (scan_with _ _ _) as [uc pw]. cbn [fst] in S1.
  pose proof (scan_without_spec uc (map (pv x z) (find_cond_sets_without_mid g x z y)) true 0) as S2.
  destruct (scan_without _ _ _ _ _) as [nuc po]. cbn [fst] in S2.
  rewrite exists_map in S1, S2. rewrite (with_exceeds g x y z HI Hu) in S1. rewrite (without_exceeds g x y z HI Hu) in S2.
  destruct (ucollider_dec x y z) as [K|K].
  - left. split; [exact K|]. assert (uc = true) as -> by tauto. assert (nuc = false) as -> by (apply not_true_iff_false; tauto). eauto.
  - right. split; [exact K|]. assert (uc = false) as -> by (apply not_true_iff_false; tauto). assert (nuc = true) as -> by tauto. reflexivity.
Qed.
Lemma definite_fold prio g l : Inv g -> (forall x y z, In (x, y, z) l -> unshielded D x y z) -> forall s,
  let s' := fold_left (definite_step pv alpha prio g) l s in
  (forall t, In t (map fst (fst s')) <-> In t (map fst (fst s)) \/ (In t l /\ ucollider D (t1 t) (t2 t) (t3 t))) /\
  (forall t, In t (snd s') <-> In t (snd s) \/ (In t l /\ ~ ucollider D (t1 t) (t2 t) (t3 t))).
Proof.
  intros HI. induction l as [|[[x y] z] l IH]; intros HL s s'; [cbn; split; tauto|].
  unfold s'. cbn [fold_left]. clear s'. assert (HL' : forall a b c, In (a, b, c) l -> unshielded D a b c) by (intros; apply HL; now right).
  destruct (definite_decides prio g s x y z HI (HL x y z (or_introl eq_refl))) as [(K & v & E)|(K & E)]; rewrite E; clear E.
  - destruct (IH HL' (tput (fst s) (x, y, z) v, snd s)) as [H1 H2]. cbn [fst snd] in H1, H2. split.
    + intros t. rewrite H1, tput_keys. cbn [In]. split.
      * intros [[->|Q]|[Q1 Q2]]; auto.
      * intros [Q|[[<-|Q1] Q2]]; auto.
    + intros t. rewrite H2. cbn [In]. split; [intuition|]. intros [Q|[[<-|Q1] Q2]]; auto. contradiction.
  - destruct (IH HL' (fst s, snd s ++ [(x, y, z)])) as [H1 H2]. cbn [fst snd] in H1, H2. split.
    + intros t. rewrite H1. cbn [In]. split; [intuition|]. intros [Q|[[<-|Q1] Q2]]; auto. contradiction.
    + intros t. rewrite H2, in_app_iff. cbn [In]. split.
      * intros [[Q|[<-|[]]]|[Q1 Q2]]; auto.
      * intros [Q|[[<-|Q1] Q2]]; auto.
Qed.
Lemma definite_apply_is l : forall g uc, Inv g -> true_colliders D l ->
  fold_left (definite_apply noblk) l (g, uc) = (fold_left (now 2) l g, uc ++ l).
Proof.
  induction l as [|[[x y] z] l IH]; intros g uc HI HT; cbn [fold_left]; [now rewrite app_nil_r|].
  assert (Hc : ucollider D x y z) by (apply HT; now left). destruct (keep_effect n D Dn HD cls cls_D g x y z HI Hc) as (HF & HB & HE).
  unfold definite_apply at 2. rewrite blocked_no. cbn [fst snd]. rewrite HF. cbn [now].
  destruct (effect_inv n D Dn HD cls cls_D cls_eq g x y z _ HI Hc HB HE) as (HI' & _). rewrite IH; [now rewrite <- app_assoc|exact HI'|intros a b c K; apply HT; now right].
Qed.
Lemma definite_places prio g : (2 <= prio <= 4)%nat -> Inv g ->
  exists g' UC NUC, definite_maxp pv noblk alpha prio g = Ok (g', UC, NUC) /\ built n g' /\ keeps g g' /\ midc cls D g' /\ (forall x y z, In (x, y, z) UC -> ucollider D x y z) /\ (forall x y z, In (x, y, z) NUC -> unshielded D x y z /\ ~ ucollider D x y z).
Proof.
  intros [P1 P2] HI. unfold definite_maxp. apply Nat.leb_le in P1, P2. rewrite P1, P2. cbn [andb].
  assert (HL : forall x y z, In (x, y, z) (ordered_triples g) -> unshielded D x y z) by (intros x y z K; apply in_ordered_D in K; tauto).
  destruct (definite_fold prio g (ordered_triples g) HI HL ([], [])) as [H1 H2].
  destruct (fold_left (definite_step pv alpha prio g) (ordered_triples g) ([], [])) as [d nuc]. cbn [fst snd map In] in H1, H2.
  set (d' := if Nat.eqb prio 3 then _ else _).
  assert (Hd' : forall x y z, In (x, y, z) (map fst d') <-> ucollider D x y z /\ (x < z)%nat).
  { intros x y z. assert (In (x, y, z) (map fst d') <-> In (x, y, z) (map fst d)) as ->.
    { unfold d'. destruct (Nat.eqb prio 3); [apply sort_dict_in|]. destruct (Nat.eqb prio 4); [apply sort_dict_in|reflexivity]. }
    rewrite H1. unfold t1, t2, t3. cbn [fst snd]. rewrite in_ordered_D by exact HI. split; [tauto|].
    intros [K1 K2]. right. split; [|exact K1]. split; [now apply ucollider_unshielded|exact K2]. }
  assert (HT : true_colliders D (map fst d')) by (intros x y z K; now apply Hd').
  rewrite (definite_apply_is _ _ _ HI HT). cbn [app].
  exists (fold_left (now 2) (map fst d') g), (map fst d'), nuc. split; [reflexivity|].
  destruct (process 2 g (map fst d') HI Hd') as (Q1 & Q3 & Q2). split; [exact Q1|]. split; [exact Q3|]. split; [exact Q2|]. split; [exact HT|].
  intros x y z K. apply H2 in K. unfold t1, t2, t3 in K. cbn [fst snd] in K. destruct K as [[]|[K1 K2]]. split; [now apply HL|exact K2].
Qed.

(** ** The whole algorithm *)
Lemma definite_midway fuel rx nm g UC NUC : (n * n < fuel)%nat -> midc cls D g -> built n g ->
  (forall x y z, In (x, y, z) UC -> ucollider D x y z) -> (forall x y z, In (x, y, z) NUC -> unshielded D x y z /\ ~ ucollider D x y z) ->
  exists g', definite_meek fuel rx nm None UC NUC g = Some g' /\ keeps g g' /\ midc cls D g' /\ wf g' /\ simple g' /\ gsound g'.
Proof.
  intros Hf HP HB HU HN. destruct (built_inv n g HB) as (Hn & Hw & Hs & Hg). pose proof HP as (_ & Hj & Hpd & Hd & Hall).
  assert (Hb : forall i j k, In (i, j, k) NUC -> (i < gn g)%nat /\ (j < gn g)%nat /\ (k < gn g)%nat).
  { intros i j k K. apply HN in K. destruct K as [K _]. apply unshielded_bounds in K. rewrite Hn. tauto. }
  assert (Hf' : (gn g * gn g < fuel)%nat) by now rewrite Hn.
  destruct (dloop_spec (bk_block rx nm None) g UC NUC Hb (fun h => gsound h) fuel g) as (g' & E & Hw' & Ho & Hg'); auto using orients_refl.
  { intros h a b Q1 Q2 Q3 Q4 _ _ _. now apply dirg_gsound. }
  { pose proof (ucount_bound g). lia. }
  exists g'. split; [exact E|]. split.
  { intros a b (Ha & Hb' & E1 & E2). unfold directed. rewrite (proj1 Ho). destruct (proj2 Ho a b Ha Hb') as [[-> ->]|[(_ & _ & U1 & U2) _]]; [auto|lia]. }
  split; [|split; [exact Hw'|split; [|exact Hg']]].
  2: { intros a b Ha Hb'. rewrite (proj1 Ho) in Ha, Hb'. destruct (proj2 Ho a b Ha Hb') as [[-> _]|[_ [(_ & _ & K1 & K2)|(_ & _ & K1 & K2)]]]; [now apply Hs|lia|lia]. }
  assert (Hback : forall a b, joined g' a b <-> joined g a b).
  { intros a b. unfold joined. rewrite (proj1 Ho). split; intros (Ha & Hb' & N); (split; [exact Ha|]); (split; [exact Hb'|]);
    destruct (proj2 Ho a b Ha Hb') as [[K1 K2]|[(_ & _ & U1 & U2) [(_ & _ & K1 & K2)|(_ & _ & K1 & K2)]]]; lia. }
  split; [rewrite (proj1 Ho); now destruct HP|]. split; [intros a b; now rewrite Hback|]. split.
  { intros a b J. apply Hback in J. pose proof J as (Ha & Hb' & _). destruct (proj2 Ho a b Ha Hb') as [[K1 K2]|[_ [K|K]]]; auto.
    unfold directed, undirected. rewrite (proj1 Ho), K1, K2. now apply Hpd. }
  split.
  { intros a b c Hc. assert (K : directed g a b) by eauto. pose proof K as (Ha & Hb' & E1 & E2).
    unfold directed. rewrite (proj1 Ho). destruct (proj2 Ho a b Ha Hb') as [[K1 K2]|[(_ & _ & U1 & U2) _]]; [|lia].
    repeat split; auto; congruence. }
  intros a b Hab D' HC. pose proof (cls_eq D' HC) as HE. pose proof HE as (En & _ & HD' & Ej & Eu).
  apply (C21_definite_meek_sound rx nm None UC NUC g fuel g' D' Hw Hb Hf' E); auto.
  - rewrite En, Hn. exact Dn.
  - intros x y. rewrite <- Ej. symmetry. apply Hj.
  - intros i j k K. apply HU in K. apply Eu in K. now apply ucollider_directed.
  - intros i j k K [Q1 Q2]. apply HN in K. destruct K as [(K1 & K2 & K3 & K4) K5]. apply K5, Eu. apply ucollider_intro; auto. now rewrite <- Ej.
Qed.
Lemma uc_and_meek_runs fuel rx nm rule prio sep g0 : (n * n < fuel)%nat -> Inv g0 -> good_seps sep ->
  match rule with
  | 0%nat | 1%nat => forall p, prio = Some p -> (p <= 4)%nat
  | 2%nat => forall p, prio = Some p -> (2 <= p <= 4)%nat
  | _ => False
  end ->
  exists g2 g, keeps g0 g2 /\ midc cls D g2 /\ wf g2 /\ simple g2 /\ gsound g2 /\ meek fuel rx nm None g2 = Some g /\
    uc_and_meek fuel rx nm None pv alpha rule prio sep g0 = Ret g.
Proof.
  intros Hf2 HI HS Hr. unfold uc_and_meek. change (bk_block rx nm None) with noblk.
  assert (FIN : forall g2, keeps g0 g2 -> midc cls D g2 -> wf g2 -> simple g2 -> gsound g2 ->
    exists g3 g, keeps g0 g3 /\ midc cls D g3 /\ wf g3 /\ simple g3 /\ gsound g3 /\ meek fuel rx nm None g3 = Some g /\ of_opt (meek fuel rx nm None g2) = Ret g).
  { intros g2 HK HM Hw Hs Hg. destruct (C20_meek_conservative rx nm None g2 fuel Hw) as (g' & E & _).
    { destruct HM as (Hn & _). rewrite Hn, Dn. exact Hf2. }
    exists g2, g'. rewrite E. auto 10. }
  assert (FIN' : forall g2, built n g2 -> keeps g0 g2 -> midc cls D g2 ->
    exists g3 g, keeps g0 g3 /\ midc cls D g3 /\ wf g3 /\ simple g3 /\ gsound g3 /\ meek fuel rx nm None g3 = Some g /\ of_opt (meek fuel rx nm None g2) = Ret g).
  { intros g2 HB HK HM. destruct (built_inv n g2 HB) as (_ & Hw & Hs & Hg). now apply FIN. }
  destruct rule as [|[|[|r]]]; [| | |destruct Hr].
  - destruct (uc_sepset_places (match prio with Some p => p | None => 3%nat end) sep g0) as (g1 & -> & HB & HK & HP); [|exact HI|exact HS|].
    + destruct prio as [p|]; [now apply Hr|lia].
    + cbn [of_res obind]. now apply FIN'.
  - destruct (maxp_places (match prio with Some p => p | None => 3%nat end) g0) as (g1 & -> & HB & HK & HP); [|exact HI|].
    + destruct prio as [p|]; [now apply Hr|lia].
    + cbn [of_res obind]. now apply FIN'.
  - destruct (definite_places (match prio with Some p => p | None => 4%nat end) g0) as (g1 & UC & NUC & -> & HB & HK & HP & HU & HN); [|exact HI|].
    + destruct prio as [p|]; [now apply Hr|lia].
    + cbn [of_res obind fst snd]. destruct (definite_midway fuel rx nm g1 UC NUC Hf2 HP HB HU HN) as (g2 & -> & HK2 & HM & Hw & Hs & Hg).
      cbn [of_opt obind]. apply FIN; auto. intros a b Q. apply HK2, HK, Q.
Qed.
End Oracle.

Theorem pc_correct n D pv alpha fuel rx nm stable rule prio : oracle n D (fun x y cs => pv x y cs >? alpha) -> (n <= fuel)%nat -> (n * n < fuel)%nat ->
  match rule with
  | 0%nat | 1%nat => forall p, prio = Some p -> (p <= 4)%nat
  | 2%nat => forall p, prio = Some p -> (2 <= p <= 4)%nat
  | _ => False
  end ->
  exists g, pc_alg fuel rx nm None pv alpha stable rule prio n = Ret g /\ completed D g.
Proof.
  intros HO Hf1 Hf2 Hr. pose proof HO as (Dn & HD & _). unfold pc_alg.
  change (fun x y : nat => false && false) with no_ban.
  destruct (C23_skeleton_oracle n D _ stable fuel HO Hf1) as (g0 & sep & E & _). rewrite E. cbn [of_opt obind fst snd].
  destruct (skeleton_seps n D pv alpha HO (equivalent D) stable fuel g0 sep Hf1 E) as [HI HS].
  destruct (uc_and_meek_runs n D pv alpha HO (equivalent D) (equivalent_refl D HD) (fun D' H => H) fuel rx nm rule prio sep g0 Hf2 HI HS Hr)
    as (g2 & g & _ & HM & Hw & Hs & Hg & Em & EQ).
  exists g. split; [exact EQ|]. now apply (midway_completes rx nm D g2 fuel g).
Qed.
