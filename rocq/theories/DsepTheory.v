(** Facts about d-separation in a DAG: minimal separators consist of ancestors, and separation survives adding ancestors. *)
From Verif Require Import Base EdgeModel GraphModel GraphSpec GraphProofs RankLib UtilsModel UtilsProofs DsepSpec DsepProofs.

Section Theory.
Variable D : ggraph.
Hypothesis HD : dag D.

Lemma opens_sym Z a b c : opens D Z a b c -> opens D Z c b a.
Proof. unfold opens. tauto. Qed.
Lemma adjacent_sym a b : adjacent D a b -> adjacent D b a.
Proof. unfold adjacent. tauto. Qed.
Lemma active_rev Z p : active D Z p -> active D Z (rev p).
Proof.
  assert (R : forall (l : list nat) m, rev p = l ++ m -> p = rev m ++ rev l).
  { intros l m E. rewrite <- (rev_involutive p), E, rev_app_distr. reflexivity. }
  intros [H1 H2]. split.
  - intros l a b r E. apply R in E. apply adjacent_sym. apply (H1 (rev r) b a (rev l)). rewrite E. cbn. now rewrite <- !app_assoc.
  - intros l a b c r E. apply R in E. apply opens_sym. apply (H2 (rev r) c b a (rev l)). rewrite E. cbn. now rewrite <- !app_assoc.
Qed.
(** Every node of an active walk leads to one of its ends or to the conditioning set. *)
Lemma down_run Z y : forall p a b, active D Z (a :: b :: p) -> dedge D a b -> (exists l, b :: p = l ++ [y]) ->
  reach (dedge D) b y \/ exists z, In z Z /\ reach (dedge D) b z.
Proof.
  induction p as [|c p IH]; intros a b HA Hab [l E].
  - destruct l as [|u [|v l]]; try discriminate. injection E as <-. left. constructor.
  - apply active_cons2 in HA. destruct HA as (_ & HA & Ho). specialize (Ho c p eq_refl).
    pose proof HA as HA'. apply active_cons2 in HA'. destruct HA' as (Hbc & _ & _).
    assert (El : exists l', c :: p = l' ++ [y]) by (destruct l as [|u l]; [discriminate|]; injection E as _ E; eauto).
    destruct Hbc as [Hbc|Hcb].
    + destruct (IH b c HA Hbc El) as [H|(z & H1 & H2)]; [left|right; exists z; split; [exact H1|]]; econstructor; eauto.
    + destruct Ho as [(_ & _ & z & Hz & Hr)|[N _]]; [right; eauto|tauto].
Qed.
Lemma walk_ancestors Z x y l b r : active D Z (l ++ b :: r) -> (exists l', l ++ [b] = x :: l') -> (exists r', b :: r = r' ++ [y]) ->
  reach (dedge D) b x \/ reach (dedge D) b y \/ exists z, In z Z /\ reach (dedge D) b z.
Proof.
  intros HA [l' El] [r' Er].
  destruct r as [|c r].
  - destruct r' as [|u [|v r']]; try discriminate. injection Er as ->. right. left. constructor.
  - assert (Er2 : exists r2, c :: r = r2 ++ [y]) by (destruct r' as [|u r']; [discriminate|]; injection Er as _ Er; eauto).
    pose proof (active_suffix _ _ _ _ HA) as HS. pose proof HS as HS'. apply active_cons2 in HS'. destruct HS' as (Hbc & _ & _).
    destruct Hbc as [Hbc|Hcb].
    + destruct (down_run Z y r b c HS Hbc Er2) as [H|(z & H1 & H2)]; [right; left|right; right; exists z; split; [exact H1|]]; econstructor; eauto.
    + (* the right neighbour points here: look left *)
      destruct l as [|a l _] using rev_ind.
      * cbn in El. injection El as -> _. left. constructor.
      * rewrite <- app_assoc in HA. cbn [app] in HA.
        destruct HA as [HA1 HA2]. pose proof (HA1 l a b (c :: r) eq_refl) as Hab. pose proof (HA2 l a b c r eq_refl) as Ho.
        destruct Hab as [Hab|Hba].
        -- destruct Ho as [(_ & _ & z & Hz & Hr)|[N _]]; [right; right; eauto|tauto].
        -- assert (HP : active D Z (l ++ [a; b])).
           { apply (active_prefix D Z (l ++ [a; b]) (c :: r)). rewrite <- app_assoc. split; assumption. }
           apply active_rev in HP. rewrite rev_app_distr in HP. cbn in HP.
           destruct (down_run Z x (rev l) b a HP Hba) as [H|(z & H1 & H2)].
           ++ assert (Ex : exists l2, l ++ [a] = x :: l2).
              { destruct l as [|u l]; [cbn in El; injection El as -> _; exists []; reflexivity|]. cbn in El. injection El as -> _. exists (l ++ [a]). reflexivity. }
              destruct Ex as [l2 Ex]. apply (f_equal (@rev nat)) in Ex. rewrite rev_app_distr in Ex. cbn in Ex. rewrite Ex. eauto.
           ++ left. econstructor; eauto.
           ++ right. right. exists z. split; [exact H1|]. econstructor; eauto.
Qed.

Lemma reach_dec a b : {reach (dedge D) a b} + {~ reach (dedge D) a b}.
Proof.
  destruct (lt_dec a (gn D)) as [Ha|Ha].
  2: { destruct (Nat.eq_dec a b) as [->|N]; [left; constructor|right]. intros H. inversion H as [|? c ? H1 H2]; subst; [congruence|].
       apply Ha. apply (dedge_bound _ _ _ H1). }
  assert (K : forall k a, gn D - rank D a < k -> a < gn D -> {reach (dedge D) a b} + {~ reach (dedge D) a b}).
  { induction k as [|k IH]; intros u Hk Hu; [lia|].
    destruct (Nat.eq_dec u b) as [->|N]; [left; constructor|].
    assert (Q : {exists c, In c (seq 0 (gn D)) /\ dedge D u c /\ reach (dedge D) c b} + {~ exists c, In c (seq 0 (gn D)) /\ dedge D u c /\ reach (dedge D) c b}).
    { assert (Hs : forall c, In c (seq 0 (gn D)) -> c < gn D) by (intros c Hc; now apply in_seq0). revert Hs.
      induction (seq 0 (gn D)) as [|c l IHl]; intros Hs; [right; intros (c & [] & _)|].
      destruct IHl as [Y|Nn]; [intros; apply Hs; now right|left; destruct Y as (d & H1 & H2); exists d; cbn; auto|].
      assert (Hc : c < gn D) by (apply Hs; now left).
      destruct (dedge_dec D u c) as [E|E]; [|right; intros (d & [<-|H1] & H2 & H3); [auto|apply Nn; eauto]].
      destruct (IH c) as [R|R].
      - pose proof HD as (_ & Hac & _). pose proof (rank_lt D u c Hac E). pose proof (rank_le_n D c Hc). lia.
      - exact Hc.
      - left. exists c. cbn. auto.
      - right. intros (d & [<-|H1] & H2 & H3); [auto|apply Nn; eauto]. }
    destruct Q as [Q|Q].
    - left. destruct Q as (c & _ & H1 & H2). econstructor; eauto.
    - right. intros H. inversion H as [|? c ? H1 H2]; subst; [congruence|]. apply Q. exists c. split; [|auto]. apply in_seq0. apply (dedge_bound _ _ _ H1). }
  apply (K (S (gn D - rank D a))); [lia|exact Ha].
Qed.

(** Restricting a separating set to the ancestors of the two nodes keeps it separating. *)
Lemma restrict_to_ancestors x y T T' : (forall z, In z T' <-> In z T /\ (reach (dedge D) z x \/ reach (dedge D) z y)) ->
  dconnected D x y T' -> dconnected D x y T.
Proof.
  intros HT (m & Hd & HA). exists m. split; [exact Hd|]. pose proof HA as [H1 H2]. split; [exact H1|].
  intros l a b c r E. destruct (H2 l a b c r E) as [(K1 & K2 & z & K3 & K4)|[K1 K2]].
  - left. split; [exact K1|]. split; [exact K2|]. exists z. split; [now apply HT|exact K4].
  - right. split; [exact K1|]. intros Hb. apply K2. apply HT. split; [exact Hb|].
    destruct (walk_ancestors T' x y (l ++ [a]) b (c :: r)) as [H|[H|(z & Hz & Hr)]]; auto.
    + rewrite <- app_assoc. cbn. now rewrite <- E.
    + rewrite <- app_assoc. cbn. destruct l as [|u l]; cbn in E; injection E as -> E; [exists [b]; reflexivity|exists (l ++ [a; b]); reflexivity].
    + clear - E. change (x :: m ++ [y]) with ((x :: m) ++ [y]) in E.
      destruct (@exists_last _ (c :: r)) as (s & w & Es); [discriminate|]. rewrite Es in E.
      assert (w = y).
      { replace (l ++ a :: b :: s ++ [w]) with ((l ++ a :: b :: s) ++ [w]) in E by (now rewrite <- app_assoc).
        apply app_inj_tail in E. symmetry. apply E. }
      subst w. rewrite Es. exists (b :: s). reflexivity.
    + apply HT in Hz. destruct Hz as [_ [Hz|Hz]]; [left|right]; eapply reach_trans; eauto.
Qed.

(** ** Adding ancestors *)
Section Grow.
Variable x y : nat.
Variable Z Z' : list nat.
Hypothesis Hxy : x <> y.
Hypothesis Hsub : forall z, In z Z -> In z Z'.
Hypothesis Hanc : forall z, In z Z' -> reach (dedge D) z x \/ reach (dedge D) z y.

Definition arrives (a b : nat) : Prop := exists m, active D Z ((x :: m) ++ [b]) /\ exists l, x :: m = l ++ [a].
Lemma arrives_step a b c : arrives a b -> adjacent D b c -> opens D Z a b c -> arrives b c.
Proof.
  intros (m & Hm & l & El) Hbc Ho. exists (m ++ [b]). split; [|exists (x :: m); reflexivity].
  change ((x :: m ++ [b]) ++ [c]) with (((x :: m) ++ [b]) ++ [c]). rewrite <- app_assoc. cbn [app].
  apply (active_join D Z (x :: m) b [c]); auto.
  - apply active_cons2. split; [exact Hbc|]. split; [apply active_one|]. intros ? ? E; discriminate E.
  - intros l' a' c' r' E1 E2. injection E2 as <- _. rewrite E1 in El. apply app_inj_tail in El.
    destruct El as [_ ->]. exact Ho.
Qed.
Lemma arrives_first b : adjacent D x b -> arrives x b.
Proof.
  intros H. exists []. split; [|exists []; reflexivity]. cbn. apply active_cons2. split; [exact H|]. split; [apply active_one|]. intros ? ? E; discriminate E.
Qed.
Lemma arrives_dconnected a : arrives a y -> dconnected D x y Z.
Proof. intros (m & Hm & _). apply (walk_to_path D Z (dag_asym D HD) (length m) m x y); auto. Qed.
Definition away (b : nat) : Prop := forall z, In z Z -> ~ reach (dedge D) b z.
Lemma away_next b c : away b -> dedge D b c -> away c.
Proof. intros H E z Hz R. apply (H z Hz). econstructor; eauto. Qed.
Lemma away_not_in b : away b -> ~ In b Z.
Proof. intros H Hb. apply (H b Hb). constructor. Qed.
Lemma go_down b : reach (dedge D) b y -> forall a, arrives a b -> away b -> dconnected D x y Z.
Proof.
  intros Hr. remember y as t eqn:Et in Hr. revert Et. induction Hr as [u|b c t Hbc _ IH]; intros Et a Ha Hw.
  - subst u. now apply (arrives_dconnected a).
  - subst t. apply (IH eq_refl b); [|now apply (away_next b)]. apply (arrives_step a b c Ha); [now left|].
    right. split; [|now apply away_not_in]. intros [_ H]. now apply (dag_asym D HD b c).
Qed.
Lemma come_up b : reach (dedge D) b x -> away b -> b = x \/ exists a, arrives a b /\ dedge D b a.
Proof.
  intros Hr. remember x as t eqn:Et in Hr. revert Et. induction Hr as [u|b c t Hbc _ IH]; intros Et Hw; [now left|subst t]. right.
  destruct (IH eq_refl (away_next b c Hw Hbc)) as [-> |(a & Ha & Hca)].
  - exists x. split; [|exact Hbc]. apply arrives_first. now right.
  - exists c. split; [|exact Hbc]. apply (arrives_step a c b Ha); [now right|]. right. split.
    + intros [H _]. now apply (dag_asym D HD c a).
    + apply away_not_in. now apply (away_next b).
Qed.
Lemma away_dec b : away b \/ exists z, In z Z /\ reach (dedge D) b z.
Proof.
  unfold away. clear Hsub. induction Z as [|z l IH]; [left; intros z []|]. destruct IH as [IH|(w & H1 & H2)]; [|right; exists w; cbn; auto].
  destruct (reach_dec b z) as [R|R]; [right; exists z; cbn; auto|]. left. intros w [<-|Hw]; auto.
Qed.
Lemma grow_walk : forall r a b, active D Z' (a :: b :: r) -> (exists l, b :: r = l ++ [y]) -> arrives a b -> dconnected D x y Z.
Proof.
  induction r as [|c r IH]; intros a b HA [l E] Hab.
  - destruct l as [|u [|v l]]; try discriminate. injection E as ->. now apply (arrives_dconnected a).
  - apply active_cons2 in HA. destruct HA as (_ & HA & Ho). specialize (Ho c r eq_refl).
    pose proof HA as HA'. apply active_cons2 in HA'. destruct HA' as (Hbc & _ & _).
    assert (El : exists l', c :: r = l' ++ [y]) by (destruct l as [|u l]; [discriminate|]; injection E as _ E; eauto).
    assert (Next : arrives b c -> dconnected D x y Z) by (intros H; now apply (IH b c)).
    destruct Ho as [(K1 & K2 & z & Hz & Hr)|[K1 K2]].
    + destruct (away_dec b) as [Hw|Hw]; [|apply Next, (arrives_step a b c Hab Hbc); left; auto].
      destruct (Hanc z Hz) as [Hx|Hy].
      * destruct (come_up b (reach_trans _ _ _ _ Hr Hx) Hw) as [-> |(a' & Ha' & Hba')].
        -- apply Next. now apply arrives_first.
        -- apply Next. apply (arrives_step a' b c Ha' Hbc). right. split; [|now apply away_not_in].
           intros [H _]. now apply (dag_asym D HD b a').
      * apply (go_down b (reach_trans _ _ _ _ Hr Hy) a Hab Hw).
    + apply Next, (arrives_step a b c Hab Hbc). right. split; [exact K1|]. intros H. apply K2. auto.
Qed.
Lemma grow_separator : dconnected D x y Z' -> dconnected D x y Z.
Proof.
  intros (m & _ & HA). destruct m as [|b m].
  - apply (arrives_dconnected x). apply arrives_first. cbn in HA. apply active_cons2 in HA. apply HA.
  - cbn [app] in HA. apply (grow_walk (m ++ [y]) x b HA); [exists (b :: m); reflexivity|]. apply arrives_first.
    apply active_cons2 in HA. apply HA.
Qed.
End Grow.
End Theory.

(** d-connection is symmetric and decidable. *)
Section Decide.
Variable D : ggraph.
Hypothesis HD : dag D.
Lemma dconnected_sym x y Z : dconnected D x y Z -> dconnected D y x Z.
Proof.
  intros (m & H1 & H2). exists (rev m).
  assert (E : y :: rev m ++ [x] = rev (x :: m ++ [y])) by (cbn; rewrite rev_app_distr; reflexivity).
  rewrite E. split; [now apply NoDup_rev|now apply active_rev].
Qed.
Fixpoint lists (k : nat) : list (list nat) :=
  match k with O => [[]] | S k => [] :: flat_map (fun v => map (cons v) (lists k)) (seq 0 (gn D)) end.
Lemma in_lists k : forall m, length m <= k -> (forall v, In v m -> v < gn D) -> In m (lists k).
Proof.
  induction k as [|k IH]; intros [|v m] Hl Hm; cbn in *; try lia; [auto|auto|]. right. apply in_flat_map. exists v. split.
  - apply in_seq0. apply Hm. now left.
  - apply in_map. apply IH; [lia|]. intros w Hw. apply Hm. now right.
Qed.
Lemma active_bound Z : forall p a, active D Z (a :: p) -> forall v, In v p -> v < gn D.
Proof.
  induction p as [|b p IH]; intros a HA v Hv; [destruct Hv|]. apply active_cons2 in HA. destruct HA as (H1 & H2 & _).
  destruct Hv as [<-|Hv]; [|now apply (IH b)]. destruct H1 as [H1|H1]; apply (dedge_bound _ _ _ H1).
Qed.
Lemma adjacent_dec a b : {adjacent D a b} + {~ adjacent D a b}.
Proof. unfold adjacent. destruct (dedge_dec D a b), (dedge_dec D b a); tauto. Qed.
Lemma opens_dec Z a b c : {opens D Z a b c} + {~ opens D Z a b c}.
Proof.
  unfold opens.
  assert (Q : {exists z, In z Z /\ reach (dedge D) b z} + {~ exists z, In z Z /\ reach (dedge D) b z}).
  { induction Z as [|z l IH]; [right; intros (z & [] & _)|]. destruct IH as [Y|N]; [left; destruct Y as (w & ? & ?); exists w; cbn; auto|].
    destruct (reach_dec D HD b z) as [R|R]; [left; exists z; cbn; auto|]. right. intros (w & [<-|Hw] & Hr); [auto|apply N; eauto]. }
  destruct (dedge_dec D a b), (dedge_dec D c b), Q, (in_dec Nat.eq_dec b Z); tauto.
Qed.
Lemma active_dec Z : forall p, {active D Z p} + {~ active D Z p}.
Proof.
  induction p as [|a [|b p] IH]; [left|left; apply active_one|].
  - split; intros l; destruct l; discriminate.
  - destruct (adjacent_dec a b) as [A|A]; [|right; intros H; apply active_cons2 in H; tauto].
    destruct IH as [I|I]; [|right; intros H; apply active_cons2 in H; tauto].
    destruct p as [|c p].
    + left. apply active_cons2. split; [exact A|]. split; [exact I|]. intros ? ? E; discriminate E.
    + destruct (opens_dec Z a b c) as [O|O].
      * left. apply active_cons2. split; [exact A|]. split; [exact I|]. intros ? ? E. injection E as <- <-. exact O.
      * right. intros H. apply active_cons2 in H. destruct H as (_ & _ & H). apply O. now apply (H c p).
Qed.
Lemma dconnected_dec x y Z : {dconnected D x y Z} + {~ dconnected D x y Z}.
Proof.
  set (P := fun m => NoDup (x :: m ++ [y]) /\ active D Z (x :: m ++ [y])).
  assert (PD : forall m, {P m} + {~ P m}).
  { intros m. unfold P. destruct (nodup_dec (x :: m ++ [y])), (active_dec Z (x :: m ++ [y])); tauto. }
  destruct (Exists_dec P (lists (gn D)) PD) as [H|H].
  - left. apply Exists_exists in H. destruct H as (m & _ & H). exists m. exact H.
  - right. intros (m & H1 & H2). apply H. apply Exists_exists. exists m. split; [|split; assumption].
    assert (Hb : forall v, In v m -> v < gn D).
    { intros v Hv. apply (active_bound Z _ _ H2). apply in_app_iff. now left. }
    apply in_lists; [|exact Hb]. rewrite <- (seq_length (gn D) 0). apply NoDup_incl_length.
    + inversion H1 as [|? ? _ Hn]; subst. clear - Hn. apply NoDup_remove_1 in Hn. now rewrite app_nil_r in Hn.
    + intros v Hv. apply in_seq0. auto.
Qed.
End Decide.
