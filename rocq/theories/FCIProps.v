(** Properties of FCI. *)
From Verif Require Import Base EdgeModel EdgeProofs GraphModel GraphSpec GraphProofs DsepSpec DsepProofs DsepTheory UtilsModel UtilsProofs RankLib CheckLib DconnLib
  SkelModel SkelSpec SkelProofs SkelSep SkelMain SkelProps PCModel MeekSpec MeekProofs
  FCIModel FCISpec FCIProofs FCIRules FCILoops FCIFront FCISep FCITotal FCIStill FCIExhaust FCISound FCISuff FCITri.
From Coq Require Import Permutation.
Local Open Scope Z_scope.

(** A rule's answer: the graph keeps its tails, arrows and adjacencies and may lose circles; the change flag is raised exactly
    when the rule did something, and then a circle is gone. *)
Definition rule_effect (n : nat) (s s' : st) : Prop :=
  mixed n (fst s') /\ only_fills n (fst s) (fst s') /\
  (s' = s \/ (snd s' = true /\ exists x y, (x < n)%nat /\ (y < n)%nat /\ circle_at (fst s) x y /\ ~ circle_at (fst s') x y)).
(** No new arrowhead. *)
Definition no_new_arrow (n : nat) (s s' : st) : Prop := forall x y, (x < n)%nat -> (y < n)%nat -> arrow_at (fst s') x y -> arrow_at (fst s) x y.
Definition rule_ok (n : nat) (s : st) (o : outcome st) : Prop := exists s', o = Ret s' /\ rule_effect n s s'.
Definition tail_rule_ok (n : nat) (s : st) (o : outcome st) : Prop := exists s', o = Ret s' /\ rule_effect n s s' /\ no_new_arrow n s s'.
Lemma adv_fills_ok n s o : (exists s', o = Ret s' /\ adv only_fills n s s') -> rule_ok n s o.
Proof.
  intros (s' & E & M & F & G). exists s'. split; [exact E|]. split; [exact M|]. split; [exact F|]. destruct G as [G|[G (i & j & Hi & Hj & C1 & C2)]]; [now left|]. right. split; [exact G|].
  exists j, i. unfold circle_at. auto.
Qed.
Lemma adv_tails_ok n s o : mixed n (fst s) -> (exists s', o = Ret s' /\ adv only_tails n s s') -> tail_rule_ok n s o.
Proof.
  intros HM (s' & E & M & F & G). exists s'. split; [exact E|]. split; [split; [exact M|split]|].
  - intros x y Hx Hy. unfold circle_at, arrow_at, tail_at. destruct (F y x Hy Hx) as [K|[K1 K2]]; [split; auto; intros; left; congruence|]. split; [intros; contradiction|auto].
  - destruct G as [G|[G (i & j & Hi & Hj & C1 & C2)]]; [now left|]. right. split; [exact G|]. exists j, i. unfold circle_at. auto.
  - intros x y Hx Hy. unfold arrow_at. destruct (F y x Hy Hx) as [K|[K1 K2]]; lia.
Qed.

(** ** C36: the orientation rules *)
Theorem C36_R1_R2 : forall forb n s, mixed n (fst s) -> rule_ok n s (rulesR1R2 forb s).
Proof. intros. apply adv_fills_ok. now apply (R12_adv (fun _ _ _ => false)). Qed.
Theorem C36_R3 : forall forb sep n s, mixed n (fst s) -> rule_ok n s (ruleR3 forb sep s).
Proof. intros. apply adv_fills_ok. now apply (R3_adv (fun _ _ _ => false)). Qed.
(** R4 for every test, every recorded separating sets and every path length limit. *)
Theorem C36_R4 : forall ind forb fuel mpl sep n s, mixed n (fst s) -> (2 * n < fuel)%nat -> rule_ok n s (ruleR4B ind forb fuel mpl sep s).
Proof. intros. apply adv_fills_ok. now apply R4_adv. Qed.
Theorem C36_R5 : forall fuel n s, mixed n (fst s) -> (n < fuel)%nat -> tail_rule_ok n s (ruleR5 fuel s).
Proof. intros. apply adv_tails_ok; auto. now apply R5_adv. Qed.
Theorem C36_R6_R7_R8 : forall n s, mixed n (fst s) -> tail_rule_ok n s (ruleR6 s) /\ tail_rule_ok n s (ruleR7 s) /\ tail_rule_ok n s (rule8 s).
Proof. intros. split; [|split]; (apply adv_tails_ok; [assumption|]); [now apply R6_adv|now apply R7_adv|now apply (R8_adv (fun _ _ _ => false) (fun _ _ => false))]. Qed.
(** R9 and R10, in whatever order Python lists a set of nodes. *)
Theorem C36_R9_R10 : forall so fuel n s, (forall l, Permutation (so l) l) -> mixed n (fst s) -> (n < fuel)%nat ->
  tail_rule_ok n s (rule9 so fuel s) /\ tail_rule_ok n s (rule10 so fuel s).
Proof.
  intros so fuel n s HS HM HF. assert (so_in : forall l x, In x (so l) <-> In x l) by (intros l x; split; apply Permutation_in; [apply HS|apply Permutation_sym, HS]).
  split; (apply adv_tails_ok; [assumption|]); [now apply (R9_adv (fun _ _ _ => false) (fun _ _ => false) so so_in)|now apply (R10_adv (fun _ _ _ => false) (fun _ _ => false) so so_in)].
Qed.
(** The loop over the rules returns, and its result only fills in circles. *)
Theorem C36_rules_loop : forall ind forb so fuel mpl kall sep n g, (forall l, Permutation (so l) l) -> mixed n g -> (2 * n + n * n + 2 <= fuel)%nat ->
  exists g', fci_loop ind forb so fuel mpl kall true sep g = Ret g' /\ mixed n g' /\ only_fills n g g'.
Proof.
  intros ind forb so fuel mpl kall sep n g HS HM HF.
  destruct (loop_adv ind forb so (so_in so HS) n mpl kall sep fuel true g) as (g' & E & M & F & _); [pose proof (ccount_bound n g); lia|exact HM|]. eauto.
Qed.
(** R5 acts on what it should: a path it uses runs from node to node over o-o edges, and nodes two steps apart are not adjacent. *)
Theorem C36_R5_uncovered_circle_path : forall fuel n g from to ex p, mixed n g -> (from < n)%nat -> (n < fuel)%nat ->
  uncovered_circle_path fuel g from to ex = Ret (Some p) ->
  hd 0%nat p = from /\ last p 0%nat = to /\
  (forall i, (i + 1 < length p)%nat -> circle_at g (nth i p 0%nat) (nth (i + 1) p 0%nat) /\ circle_at g (nth (i + 1) p 0%nat) (nth i p 0%nat)) /\
  (forall i, (i + 2 < length p)%nat -> ~ adj g (nth i p 0%nat) (nth (i + 2) p 0%nat)).
Proof.
  intros fuel n g from to ex p HM Hf HF E. destruct (circle_path_spec n fuel g from to ex HM Hf HF) as (o & Eo & H). rewrite E in Eo. injection Eo as <-.
  destruct (H p eq_refl) as [(H1 & H2 & H3 & H4) HU]. split; [exact H1|]. split; [exact H2|]. split.
  - intros i Hi. destruct (H4 (nth i p 0%nat) (nth (i + 1) p 0%nat)) as (_ & _ & A & B); [|split; assumption].
    clear -Hi. revert i Hi. induction p as [|a p IH]; intros i Hi; [cbn in Hi; lia|]. destruct p as [|b p]; [cbn in Hi; lia|].
    destruct i as [|i]; [now left|]. right. apply (IH i). cbn [length] in *. lia.
  - intros i Hi HA. unfold is_uncovered_path in HU. rewrite forallb_forall in HU. specialize (HU i). rewrite in_seq0, negb_true_iff in HU.
    rewrite (proj2 (adj_iff g _ _) HA) in HU. assert (true = false) by (apply HU; lia). discriminate.
Qed.
(** Non-vacuity: a graph with circles on which R1 changes something. *)
Definition o_chain : ggraph := add_edge (add_edge (empty_graph 3) (Edge 0 1 CIRCLE ARROW)) (Edge 1 2 CIRCLE CIRCLE).
Lemma o_chain_mixed : mixed 3 o_chain.
Proof. split; [reflexivity|]. split; [apply wfb_sound; reflexivity|apply simpleb_sound; reflexivity]. Qed.
Lemma C36_R1_example : exists s', rulesR1R2 (fun _ _ => false) (o_chain, false) = Ret s' /\ points (fst s') 1 2 /\ circle_at o_chain 1 2 /\ circle_at o_chain 2 1.
Proof. eexists. split; [vm_compute; reflexivity|]. vm_compute. auto. Qed.

(** ** C37: existsSemiDirectedPath *)
Theorem C37_semi_directed_path : forall n fuel g a b, mixed n g -> (a < n)%nat -> (n < fuel)%nat ->
  exists r, exists_semi fuel g a b = Ret r /\ (r = true <-> reach1 (semi_step n g) a b).
Proof. intros n fuel g a b HM Ha HF. exact (exists_semi_spec (fun _ _ _ => false) (fun _ _ => false) n fuel g a b HM Ha HF). Qed.
Lemma C37_example : reach1 (semi_step 3 o_chain) 0%nat 2%nat /\ ~ reach1 (semi_step 3 o_chain) 2%nat 0%nat.
Proof.
  pose proof (C37_semi_directed_path 3 9 o_chain 0 2 o_chain_mixed ltac:(lia) ltac:(lia)) as (r & E & H).
  pose proof (C37_semi_directed_path 3 9 o_chain 2 0 o_chain_mixed ltac:(lia) ltac:(lia)) as (r2 & E2 & H2).
  vm_compute in E, E2. injection E as <-. injection E2 as <-. split; [now apply H|]. intros K. apply H2 in K. discriminate.
Qed.

(** ** The whole algorithm *)
Section Whole.
Variable ind : nat -> nat -> list nat -> bool.
Variables forb req : nat -> nat -> bool.
Variables so srt : list nat -> list nat.
Hypothesis so_perm : forall l, Permutation (so l) l.
Hypothesis srt_perm : forall l, Permutation (srt l) l.
Variable n : nat.
Lemma run_adj mpl kall gs gk gc go sep : fci_run ind forb req so n mpl kall gs gk gc go sep -> same_adj n gs go.
Proof.
  intros H. apply (same_adj_fills n gs gc); [|apply H]. apply (same_adj_fills n gs gk); [|apply H]. apply (bk_marks_adj forb req n); apply H.
Qed.
Lemma run_keeps mpl kall gs gk gc go sep : fci_run ind forb req so n mpl kall gs gk gc go sep -> only_fills n gk go.
Proof. intros H. eapply fills_trans; [apply (fr_coll _ _ _ _ _ _ _ _ _ _ _ _ H)|apply H]. Qed.
End Whole.
Lemma mixed_same n g h : mixed n h -> (forall a b, gm h a b = gm g a b) -> forall x y, (arrow_at h x y <-> arrow_at g x y) /\ (tail_at h x y <-> tail_at g x y) /\ (circle_at h x y <-> circle_at g x y) /\ (adj h x y <-> adj g x y).
Proof. intros _ E x y. unfold arrow_at, tail_at, circle_at, adj. rewrite E. tauto. Qed.

(** ** C70: FCI returns, whatever the test and the knowledge say *)
Theorem C70_fci_returns : forall ind forb req so srt depth mpl kall n fuel, (forall l, Permutation (so l) l) -> (forall l, Permutation (srt l) l) ->
  (2 * n + n * n + 2 <= fuel)%nat -> exists g l, fci ind forb req so srt fuel depth mpl kall n = Ret (g, l) /\ mixed n g.
Proof.
  intros ind forb req so srt depth mpl kall n fuel H1 H2 HF. destruct (fci_spec ind forb req so srt H1 H2 n fuel depth mpl kall HF) as (gs & gk & gc & go & sep & g & l & E & _ & M & _). eauto.
Qed.

(** ** C71: what a missing edge means *)
Theorem C71_missing_edge : forall ind forb req so srt depth mpl kall n fuel g l x y, (forall l, Permutation (so l) l) -> (forall l, Permutation (srt l) l) ->
  (2 * n + n * n + 2 <= fuel)%nat -> fci ind forb req so srt fuel depth mpl kall n = Ret (g, l) -> (x < n)%nat -> (y < n)%nat -> x <> y -> ~ adj g x y ->
  (forb x y = true /\ forb y x = true) \/ exists T, conditioning n x y T /\ (ind x y T = true \/ ind y x T = true).
Proof.
  intros ind forb req so srt depth mpl kall n fuel g l x y H1 H2 HF E Hx Hy N NA. destruct (fci_spec ind forb req so srt H1 H2 n fuel depth mpl kall HF) as (gs & gk & gc & go & sep & g' & l' & E' & R & M & S & _).
  rewrite E in E'. injection E' as <- <-. apply (fr_missing _ _ _ _ _ _ _ _ _ _ _ _ R); auto. pose proof (run_adj _ _ _ _ _ _ _ _ _ _ _ _ R) as SA.
  destruct (Z.eq_dec (gm gs x y) 0) as [Z0|Nz]; [exact Z0|]. exfalso. apply NA. apply (mixed_same n go g M S). apply (SA x y Hx Hy). intros Q. apply Nz. apply (mx_zero n gs (fr_s _ _ _ _ _ _ _ _ _ _ _ _ R)); auto.
Qed.
(** With a test that answers d-separation in a DAG with latent variables, pairs that no set of observed variables separates stay adjacent. *)
Theorem C71_inseparable_adjacent : forall D ind req so srt depth mpl kall n fuel g l x y, (forall l, Permutation (so l) l) -> (forall l, Permutation (srt l) l) ->
  (2 * n + n * n + 2 <= fuel)%nat -> latent_oracle n D ind -> fci ind nok req so srt fuel depth mpl kall n = Ret (g, l) ->
  (x < n)%nat -> (y < n)%nat -> x <> y -> inseparable n D x y -> adj g x y.
Proof.
  intros D ind req so srt depth mpl kall n fuel g l x y H1 H2 HF HO E Hx Hy N HI. unfold adj. intros Q.
  destruct (C71_missing_edge ind nok req so srt depth mpl kall n fuel g l x y H1 H2 HF E Hx Hy N) as [[K _]|(T & HC & K)]; [unfold adj; lia|discriminate|]. destruct K as [K|K].
  - apply (lo_ind n D ind HO) in K; auto.
  - apply (lo_ind n D ind HO) in K; auto; [apply K; apply dconnected_sym; auto|now apply cond_sym].
Qed.
(** Non-vacuity: 0 <- 2 -> 1 with 2 latent. *)
Definition fork2 : ggraph := graph_of 3 [dir 2 0; dir 2 1].
Lemma fork2_dag : dag fork2.
Proof. apply (dagb_sound (fun v => match v with 2%nat => 0 | _ => 1 end)%nat). reflexivity. Qed.
Lemma test_latent D n : dag D -> (n <= gn D)%nat -> latent_oracle n D (dsep_test D).
Proof. intros HD L. split; [exact L|]. split; [exact HD|]. intros x y T Hx Hy N _. apply dsep_test_spec; auto. lia. Qed.
Lemma test_oracle D : dag D -> oracle (gn D) D (dsep_test D).
Proof. intros HD. split; [reflexivity|]. split; [exact HD|]. intros x y T Hx Hy N _. apply dsep_test_spec; auto. Qed.
Lemma C71_example : latent_oracle 2 fork2 (dsep_test fork2) /\ inseparable 2 fork2 0 1.
Proof.
  split; [apply test_latent; [apply fork2_dag|cbn; lia]|]. intros T (ND & HT). destruct T as [|z T].
  - destruct (dsep_test fork2 0 1 []) eqn:E; [vm_compute in E; discriminate|]. destruct (dconnected_dec fork2 fork2_dag 0 1 []) as [C|C]; [exact C|].
    apply (dsep_test_spec fork2 0 1 []) in C; [congruence|apply fork2_dag|cbn; lia|lia].
  - destruct (HT z (or_introl eq_refl)) as (H1 & H2 & H3). lia.
Qed.

(** ** C72: the result is closed under the orientation rules *)
(** A graph to which R1, R2, R6, R7 and R9 do not apply, and R8 not to a pair with a before c. *)
Definition closed_R1 (n : nat) (may : nat -> nat -> Prop) (g : ggraph) : Prop := forall a b c, (a < n)%nat -> (b < n)%nat -> (c < n)%nat -> a <> c ->
  arrow_at g a b -> circle_at g c b -> ~ adj g a c -> may b c -> False.
Definition closed_R2 (n : nat) (may : nat -> nat -> Prop) (g : ggraph) : Prop := forall a b c, (a < n)%nat -> (b < n)%nat -> (c < n)%nat ->
  circle_at g a c -> arrow_at g a b -> arrow_at g b c -> tail_at g b a \/ tail_at g c b -> may a c -> False.
Definition closed_R6 (n : nat) (g : ggraph) : Prop := forall a b c, (a < n)%nat -> (b < n)%nat -> (c < n)%nat ->
  tail_at g a b -> tail_at g b a -> circle_at g c b -> False.
Definition closed_R7 (n : nat) (g : ggraph) : Prop := forall a b c, (a < n)%nat -> (b < n)%nat -> (c < n)%nat -> a <> c ->
  circle_at g a b -> tail_at g b a -> circle_at g c b -> ~ adj g a c -> False.
Definition closed_R8 (n : nat) (P : nat -> nat -> Prop) (g : ggraph) : Prop := forall a b c, P a c -> (a < n)%nat -> (b < n)%nat -> (c < n)%nat ->
  tail_at g b a -> arrow_at g a b \/ circle_at g a b -> points g b c -> arrow_at g a c -> circle_at g c a -> False.
Definition closed_R9 (n : nat) (g : ggraph) : Prop := forall a b c, (a < n)%nat -> (b < n)%nat -> (c < n)%nat ->
  arrow_at g a c -> circle_at g c a -> b <> c -> adj g a b -> ~ arrow_at g b a -> ~ adj g b c -> reach1 (semi_step n g) b c -> False.
Lemma go_exhausted ind forb so sep mpl kall n go : (forall l, Permutation (so l) l) -> mixed n go ->
  (exists fuel' ft' ft'', (2 * n < fuel')%nat /\ fci_pass ind forb so fuel' mpl kall ft' sep go = Ret ((go, false), ft'')) ->
  closed_R1 n (may_point forb go) go /\ closed_R2 n (may_point forb go) go /\ closed_R6 n go /\ closed_R7 n go /\ closed_R8 n lt go /\ closed_R9 n go.
Proof.
  intros HS HM (f & ft & ft' & HF & HP). pose proof (so_in so HS) as SI. assert (HF1 : (n < f)%nat) by lia. destruct (pass_exhausted ind forb so n f mpl kall ft sep go ft' HF HM HP) as (E1 & E3 & E5 & E6 & E7 & E8 & E9 & E10).
  split; [|split; [|split; [|split; [|split]]]].
  - intros a b c Ha Hb Hc N A C NA MP. exact (R1_exh ind forb n f go HM HF1 E1 a b c Ha Hb Hc N A C NA MP).
  - intros a b c Ha Hb Hc C A1 A2 T MP. exact (R2_exh ind forb n f go HM HF1 E1 a b c Ha Hb Hc C A1 A2 T MP).
  - intros a b c Ha Hb Hc. exact (R6_exh n go HM E6 a b c Ha Hb Hc).
  - intros a b c Ha Hb Hc. exact (R7_exh n go HM E7 a b c Ha Hb Hc).
  - intros a b c L Ha Hb Hc. exact (R8_exh n f go HM HF1 E8 a b c L Hb Hc).
  - intros a b c Ha Hb Hc A C N J NAr NA HR.
    exact (R9_exh ind forb so SI n f go HM HF1 E9 a b c Ha Hb Hc A C N J NAr NA HR).
Qed.

Lemma semi_same n g h a b : (forall i j, gm h i j = gm g i j) -> reach1 (semi_step n h) a b -> reach1 (semi_step n g) a b.
Proof.
  intros E. apply reach1_ext. intros x y. unfold semi_step, tail_at, circle_at. rewrite E. reflexivity.
Qed.
Lemma may_same forb g h x y : (forall i j, gm h i j = gm g i j) -> may_point forb h x y -> may_point forb g x y.
Proof. intros E. unfold may_point, arrow_at, circle_at. rewrite !E. auto. Qed.
Theorem C72_closed_partial : forall ind forb req so srt depth mpl kall n fuel g l, (forall l, Permutation (so l) l) -> (forall l, Permutation (srt l) l) ->
  (2 * n + n * n + 2 <= fuel)%nat -> fci ind forb req so srt fuel depth mpl kall n = Ret (g, l) ->
  closed_R1 n (may_point forb g) g /\ closed_R2 n (may_point forb g) g /\ closed_R6 n g /\ closed_R7 n g /\ closed_R8 n lt g /\ closed_R9 n g.
Proof.
  intros ind forb req so srt depth mpl kall n fuel g l H1 H2 HF E. destruct (fci_spec ind forb req so srt H1 H2 n fuel depth mpl kall HF) as (gs & gk & gc & go & sep & g' & l' & E' & R & M & S & _).
  rewrite E in E'. injection E' as <- <-. destruct (go_exhausted ind forb so sep mpl kall n go H1 (fr_o _ _ _ _ _ _ _ _ _ _ _ _ R) (fr_last _ _ _ _ _ _ _ _ _ _ _ _ R)) as (K1 & K2 & K6 & K7 & K8 & K9).
  unfold closed_R1, closed_R2, closed_R6, closed_R7, closed_R8, closed_R9 in *. unfold points, arrow_at, tail_at, circle_at, adj in *.
  split; [|split; [|split; [|split; [|split]]]]; intros a b c; rewrite ?S.
  - intros Ha Hb Hc N A C NA MP. exact (K1 a b c Ha Hb Hc N A C NA (may_same forb go g b c S MP)).
  - intros Ha Hb Hc C A1 A2 T MP. exact (K2 a b c Ha Hb Hc C A1 A2 T (may_same forb go g a c S MP)).
  - apply K6.
  - apply K7.
  - apply K8.
  - intros Ha Hb Hc A C N J NAr NA HR. exact (K9 a b c Ha Hb Hc A C N J NAr NA (semi_same n go g b c S HR)).
Qed.
(** R5 for cycles of four circle edges without chords, and R10 for two children each of which has a possibly directed path to both parents (see C72_R10_refuted). *)
Definition circles (g : ggraph) (a b : nat) : Prop := circle_at g a b /\ circle_at g b a.
Definition closed_R5_four (n : nat) (g : ggraph) : Prop := forall a b c d, (a < n)%nat -> (b < n)%nat -> (c < n)%nat -> (d < n)%nat -> c <> b -> d <> a ->
  circles g a b -> circles g a c -> circles g c d -> circles g d b -> ~ adj g a d -> ~ adj g b c -> False.
Definition closed_R10_both (n : nat) (g : ggraph) : Prop := forall a b c d u v, (a < n)%nat -> (b < n)%nat -> (c < n)%nat -> (d < n)%nat -> (u < n)%nat -> (v < n)%nat ->
  arrow_at g a c -> circle_at g c a -> points g b c -> points g d c -> b <> d -> u <> v -> u <> c -> v <> c ->
  adj g a u -> ~ arrow_at g u a -> adj g a v -> ~ arrow_at g v a -> ~ adj g u v ->
  reach1 (semi_step n g) u b -> reach1 (semi_step n g) v d -> reach1 (semi_step n g) u d -> reach1 (semi_step n g) v b -> False.
Theorem C72_closed_R5_R10_partial : forall ind forb req so srt depth mpl kall n fuel g l, (forall l, Permutation (so l) l) -> (forall l, Permutation (srt l) l) ->
  (2 * n + n * n + 2 <= fuel)%nat -> fci ind forb req so srt fuel depth mpl kall n = Ret (g, l) -> closed_R5_four n g /\ closed_R10_both n g.
Proof.
  intros ind forb req so srt depth mpl kall n fuel g l H1 H2 HF E. destruct (fci_spec ind forb req so srt H1 H2 n fuel depth mpl kall HF) as (gs & gk & gc & go & sep & g' & l' & E' & R & M & S & _).
  rewrite E in E'. injection E' as <- <-. pose proof (fr_o _ _ _ _ _ _ _ _ _ _ _ _ R) as Mo. destruct (fr_last _ _ _ _ _ _ _ _ _ _ _ _ R) as (f & ft & ft' & Hf & LP).
  pose proof (pass_exhausted ind forb so n f mpl kall ft sep go ft' Hf Mo LP) as (_ & _ & E5 & _ & _ & _ & _ & E10). assert (Hf1 : (n < f)%nat) by lia.
  split.
  - intros a b c d Ha Hb Hc Hd N1 N2. unfold circles, circle_at, adj. rewrite !S. intros [C1 C2] [C3 C4] [C5 C6] [C7 C8] NA NB.
    assert (Nab : a <> b) by (intros ->; rewrite (mx_diag n go Mo b Hb) in C1; discriminate).
    refine (R5_exh n f go Mo Hf1 E5 a b c d Nab _ _ _ _ N1 N2 NA NB); unfold circ; repeat split; assumption.
  - intros a b c d u v Ha Hb Hc Hd Hu Hv. unfold arrow_at, circle_at, points, arrow_at, tail_at, adj. rewrite !S. intros A C P1 P2 N1 N2 N3 N4 J1 NA1 J2 NA2 NA R1 R2 R3 R4.
    refine (R10_exh so (so_in so H1) n f go Mo Hf1 E10 a b c d u v Ha Hb Hc Hd Hu Hv A C P1 P2 N1 N2 N3 N4 J1 NA1 J2 NA2 NA _ _ _ _); eapply semi_same; eauto.
Qed.
(** Without latent variables and knowledge it is also closed under R3. *)
Definition closed_R3 (n : nat) (g : ggraph) : Prop := forall a b c d, (a < n)%nat -> (b < n)%nat -> (c < n)%nat -> (d < n)%nat -> a <> c ->
  arrow_at g a b -> arrow_at g c b -> ~ adj g a c -> circle_at g a d -> circle_at g c d -> circle_at g d b -> False.
Lemma oracle_out D ind so srt mpl kall n fuel g l : (forall l, Permutation (so l) l) -> (forall l, Permutation (srt l) l) ->
  (2 * n + n * n + 2 <= fuel)%nat -> oracle n D ind -> fci ind nok nok so srt fuel None mpl kall n = Ret (g, l) ->
  exists gs gc go sep, mixed n go /\ mixed n gs /\ (forall x y, (x < n)%nat -> (y < n)%nat -> adj gs x y <-> adjacent D x y) /\ seps_good n D gs sep /\ keep n D gs gc /\ only_fills n gc go /\
    (forall i j, gm g i j = gm go i j) /\ mixed n g /\ (forall a b c, (b < n)%nat -> collider_reason sep n gs a b c -> arrow_at gc a b) /\
    (exists fuel' ft' ft'', (2 * n < fuel')%nat /\ fci_pass ind nok so fuel' mpl kall ft' sep go = Ret ((go, false), ft'')) /\ fci_oriented ind nok nok so srt fuel None mpl kall n = Ret go.
Proof.
  intros H1 H2 HF HO E. unfold fci in E. apply obind_inv in E. destruct E as (go & E1 & E2).
  destruct (suff_run n D ind HO so srt H1 H2 fuel mpl kall HF) as (gs & gc & go' & sep & E3 & Mo & Ms & A & SG & K & F & L & CC & LP). rewrite E1 in E3. injection E3 as <-.
  destruct (color_spec n fuel go Mo) as (g' & l' & E4 & M' & S & _); [lia|]. rewrite E2 in E4. injection E4 as <- <-. exists gs, gc, go, sep. do 6 (split; [assumption|]). split; [exact S|]. auto.
Qed.
Theorem C72_closed_R3_partial : forall D ind so srt mpl kall n fuel g l, (forall l, Permutation (so l) l) -> (forall l, Permutation (srt l) l) ->
  (2 * n + n * n + 2 <= fuel)%nat -> oracle n D ind -> fci ind nok nok so srt fuel None mpl kall n = Ret (g, l) -> closed_R3 n g.
Proof.
  intros D ind so srt mpl kall n fuel g l H1 H2 HF HO E. destruct (oracle_out D ind so srt mpl kall n fuel g l H1 H2 HF HO E) as (gs & gc & go & sep & Mo & Ms & A & SG & K & F & S & Mg & CC & (f & ft & ft' & Hf & LP) & _).
  pose proof (pass_exhausted ind nok so n f mpl kall ft sep go ft' Hf Mo LP) as (_ & E3 & _). pose proof (proj1 (proj2 K)) as SA1. pose proof (same_adj_fills n gs gc go SA1 F) as SA.
  assert (W : forall a b c d, (a < c)%nat -> (b < n)%nat -> (c < n)%nat -> (d < n)%nat -> arrow_at go a b -> arrow_at go c b -> ~ adj go a c -> circle_at go a d -> circle_at go c d -> circle_at go d b -> False).
  { intros a b c d L Hb Hc Hd A1 A2 NA C1 C2 C3. assert (Ha : (a < n)%nat) by lia. assert (NA' : ~ adj gs a c) by (intros J; apply NA; now apply SA).
    destruct (SG a c Ha Hc) as (U & EU & _); [lia|exact NA'|]. destruct (in_dec Nat.eq_dec d U) as [I|I].
    - refine (R3_exh nok n f sep go Mo _ E3 a b c d U L Hb Hc Hd A1 A2 C3 NA C1 C2 EU I _); [lia|]. right. split; [exact C3|]. intros [Q _]. discriminate Q.
    - assert (R : collider_reason sep n gs a d c).
      { unfold collider_reason. split; [exact Ha|]. split; [exact Hc|]. split; [lia|]. split; [apply SA; auto; unfold adj, circle_at in *; lia|]. split; [apply SA; auto; unfold adj, circle_at in *; lia|].
        split; [exact NA'|]. exists U. rewrite Nat.min_l, Nat.max_r by lia. auto. }
      apply (CC a d c Hd) in R. apply (fills_arrows n gc go F a d Ha Hd) in R. unfold arrow_at, circle_at in *. lia. }
  intros a b c d Ha Hb Hc Hd N. unfold arrow_at, circle_at, adj in *. rewrite !S. intros A1 A2 NA C1 C2 C3. assert (L : (a < c)%nat \/ (c < a)%nat) by lia. destruct L as [L|L].
  - exact (W a b c d L Hb Hc Hd A1 A2 NA C1 C2 C3).
  - refine (W c b a d L Hb Ha Hd A2 A1 _ C2 C1 C3). intros J. apply NA. intros Q. apply J. now apply (mx_zero n go Mo).
Qed.
(** R8 is only tried with a before c: with the edges 2 --> 1 and 1 --> 0 required, 2 o-> 0 is left, while 0 --> 1, 1 --> 2 give 0 --> 2. *)
Definition req2 (p q : nat * nat) (x y : nat) : bool := pair_eqb p (x, y) || pair_eqb q (x, y).
Definition out_marks (o : outcome (ggraph * list (edge * option (bool * bool)))) (x y : nat) : Z * Z := match o with Ret (g, _) => (gm g x y, gm g y x) | _ => (0, 0) end.
Theorem C72_R8_refuted : exists ind req n fuel g l a b c, (2 * n + n * n + 2 <= fuel)%nat /\ (a < n)%nat /\ (b < n)%nat /\ (c < n)%nat /\
  fci ind nok req (fun l => l) (fun l => l) fuel None (-1) false n = Ret (g, l) /\
  tail_at g b a /\ arrow_at g a b /\ points g b c /\ arrow_at g a c /\ circle_at g c a.
Proof.
  pose (o := fci (fun _ _ _ => false) nok (req2 (2, 1) (1, 0))%nat (fun l => l) (fun l => l) 20 None (-1) false 3).
  assert (K : out_marks o 2 1 = (-1, 1) /\ out_marks o 1 0 = (-1, 1) /\ out_marks o 2 0 = (2, 1)) by (vm_compute; auto).
  destruct o as [[g l]| |] eqn:E; try (destruct K as (K & _); discriminate K).
  exists (fun _ _ _ => false), (req2 (2, 1) (1, 0))%nat, 3%nat, 20%nat, g, l, 2%nat, 1%nat, 0%nat. do 4 (split; [lia|]). split; [exact E|].
  unfold out_marks in K. destruct K as ([= K1 K2] & [= K3 K4] & [= K5 K6]). unfold points, tail_at, arrow_at, circle_at. auto.
Qed.
Lemma C72_R8_other_order : let o := fci (fun _ _ _ => false) nok (req2 (0, 1) (1, 2))%nat (fun l => l) (fun l => l) 20 None (-1) false 3 in
  out_marks o 0 1 = (-1, 1) /\ out_marks o 1 2 = (-1, 1) /\ out_marks o 0 2 = (-1, 1).
Proof. vm_compute. auto. Qed.

(** R4 is tried only in a pass in which R1, R2 or R3 changed something.  True knowledge can prevent that: in this DAG <0, 1, 2, 3> is a discriminating path for 2, FCI finds
    2 --> 3 without knowledge, and leaves 2 o-> 3 when it is told that 1 --> 3. *)
Definition ddp_dag : ggraph := graph_of 5 [dir 0 1; dir 2 1; dir 1 3; dir 2 3; dir 4 3].
Lemma ddp_is_dag : dag ddp_dag.
Proof. apply (dagb_sound (fun v => nth v [0; 2; 1; 3; 0] 0)%nat). reflexivity. Qed.
Lemma ddp_req x y : req2 (1, 3)%nat (1, 3)%nat x y = true -> dedge ddp_dag x y.
Proof.
  intros H. unfold req2, pair_eqb in H. cbn [fst snd] in H. rewrite orb_true_iff, !andb_true_iff, !Nat.eqb_eq in H. assert (x = 1 /\ y = 3)%nat as [-> ->] by (destruct H as [[H1 H2]|[H1 H2]]; now split).
  split; [change (gn ddp_dag) with 5%nat; lia|]. split; [change (gn ddp_dag) with 5%nat; lia|]. left. vm_compute. auto.
Qed.
Definition discriminates (g : ggraph) (a q b c : nat) : Prop := a <> c /\ ~ adj g a c /\ arrow_at g a q /\ arrow_at g b q /\ points g q c /\ adj g b c.
Theorem C72_R4_refuted : exists D ind req g l g' l' a q b c, oracle 5 D ind /\ (forall x y, req x y = true -> dedge D x y) /\
  fci ind nok nok (fun l => l) (fun l => l) 60 None (-1) false 5 = Ret (g', l') /\ fci ind nok req (fun l => l) (fun l => l) 60 None (-1) false 5 = Ret (g, l) /\
  discriminates g a q b c /\ circle_at g c b /\ discriminates g' a q b c /\ points g' b c.
Proof.
  pose (o' := fci (dsep_test ddp_dag) nok nok (fun l => l) (fun l => l) 60 None (-1) false 5).
  pose (o := fci (dsep_test ddp_dag) nok (req2 (1, 3) (1, 3))%nat (fun l => l) (fun l => l) 60 None (-1) false 5).
  assert (K : map (fun p => out_marks o (fst p) (snd p)) [(0, 3); (0, 1); (2, 1); (1, 3); (2, 3)]%nat = [(0, 0); (2, 1); (2, 1); (-1, 1); (2, 1)]) by (vm_compute; reflexivity).
  assert (K' : map (fun p => out_marks o' (fst p) (snd p)) [(0, 3); (0, 1); (2, 1); (1, 3); (2, 3)]%nat = [(0, 0); (2, 1); (2, 1); (-1, 1); (-1, 1)]) by (vm_compute; reflexivity).
  destruct o as [[g l]| |] eqn:E; try discriminate K. destruct o' as [[g' l']| |] eqn:E'; try discriminate K'. cbn [map out_marks fst snd] in K, K'.
  injection K as K1 K2 K3 K4 K5 K6 K7 K8 K9 K10. injection K' as L1 L2 L3 L4 L5 L6 L7 L8 L9 L10.
  exists ddp_dag, (dsep_test ddp_dag), (req2 (1, 3) (1, 3))%nat, g, l, g', l', 0%nat, 1%nat, 2%nat, 3%nat.
  split; [apply (test_oracle ddp_dag ddp_is_dag)|]. split.
  { exact ddp_req. }
  split; [exact E'|]. split; [exact E|]. unfold discriminates, points, tail_at, arrow_at, circle_at, adj. repeat split; try assumption; try lia.
Qed.
(** R10 looks for a path of positive length from a child of a to b: in this DAG, told that 1 --> 2 and 3 --> 2, FCI leaves 0 o-> 2 although 0 o-> 1 --> 2 <-- 3 <-o 0. *)
Definition r10_dag : ggraph := graph_of 6 [dir 0 1; dir 0 2; dir 0 3; dir 1 2; dir 3 2; dir 4 1; dir 5 3; dir 4 2; dir 5 2].
Lemma r10_is_dag : dag r10_dag.
Proof. apply (dagb_sound (fun v => nth v [0; 1; 2; 1; 0; 0] 0)%nat). reflexivity. Qed.
Lemma r10_req x y : req2 (1, 2)%nat (3, 2)%nat x y = true -> dedge r10_dag x y.
Proof.
  intros H. unfold req2, pair_eqb in H. cbn [fst snd] in H. rewrite orb_true_iff, !andb_true_iff, !Nat.eqb_eq in H. assert ((x = 1 \/ x = 3) /\ y = 2)%nat as [Hx ->] by (destruct H as [[H1 H2]|[H1 H2]]; subst; auto).
  split; [change (gn r10_dag) with 6%nat; destruct Hx; lia|]. split; [change (gn r10_dag) with 6%nat; lia|]. left. destruct Hx as [-> | ->]; vm_compute; auto.
Qed.
Theorem C72_R10_refuted : exists D ind req g l a b c d, oracle 6 D ind /\ (forall x y, req x y = true -> dedge D x y) /\
  fci ind nok req (fun l => l) (fun l => l) 80 None (-1) false 6 = Ret (g, l) /\
  arrow_at g a c /\ circle_at g c a /\ points g b c /\ points g d c /\ b <> d /\ ~ adj g b d /\
  arrow_at g a b /\ circle_at g b a /\ arrow_at g a d /\ circle_at g d a.
Proof.
  pose (o := fci (dsep_test r10_dag) nok (req2 (1, 2) (3, 2))%nat (fun l => l) (fun l => l) 80 None (-1) false 6).
  assert (K : map (fun p => out_marks o (fst p) (snd p)) [(0, 2); (1, 2); (3, 2); (1, 3); (0, 1); (0, 3)]%nat = [(2, 1); (-1, 1); (-1, 1); (0, 0); (2, 1); (2, 1)]) by (vm_compute; reflexivity).
  destruct o as [[g l]| |] eqn:E; try discriminate K. cbn [map out_marks fst snd] in K. injection K as K1 K2 K3 K4 K5 K6 K7 K8 K9 K10 K11 K12.
  exists r10_dag, (dsep_test r10_dag), (req2 (1, 2) (3, 2))%nat, g, l, 0%nat, 1%nat, 2%nat, 3%nat. split; [apply (test_oracle r10_dag r10_is_dag)|]. split.
  { exact r10_req. }
  split; [exact E|]. unfold points, tail_at, arrow_at, circle_at, adj. repeat split; try assumption; try lia.
Qed.

(** ** C73: background knowledge *)
Lemma run_marks ind forb req so mpl kall n gs gk gc go sep i j : fci_run ind forb req so n mpl kall gs gk gc go sep -> (i < n)%nat -> (j < n)%nat ->
  points gk i j -> points go i j.
Proof.
  intros R Hi Hj [T A]. pose proof (run_keeps _ _ _ _ _ _ _ _ _ _ _ _ R) as F. destruct (F i j Hi Hj) as [F1 _]. destruct (F j i Hj Hi) as [F2 _]. unfold points, tail_at, arrow_at, circle_at in *.
  rewrite F1, F2 by lia. auto.
Qed.
(** A forbidden edge i --> j never appears: i and j are not adjacent, or j --> i; forbidden both ways: not adjacent. *)
Theorem C73_forbidden : forall ind forb req so srt depth mpl kall n fuel g l i j, (forall l, Permutation (so l) l) -> (forall l, Permutation (srt l) l) ->
  (2 * n + n * n + 2 <= fuel)%nat -> fci ind forb req so srt fuel depth mpl kall n = Ret (g, l) -> (i < n)%nat -> (j < n)%nat -> forb i j = true ->
  (adj g i j -> points g j i) /\ (forb j i = true -> ~ adj g i j).
Proof.
  intros ind forb req so srt depth mpl kall n fuel g l i j H1 H2 HF E Hi Hj FB. destruct (fci_spec ind forb req so srt H1 H2 n fuel depth mpl kall HF) as (gs & gk & gc & go & sep & g' & l' & E' & R & M & S & _).
  rewrite E in E'. injection E' as <- <-. pose proof (run_adj _ _ _ _ _ _ _ _ _ _ _ _ R) as SA. unfold points, tail_at, arrow_at, adj. rewrite !S.
  assert (B : forb j i = true -> gm gs j i = 0). { intros FB2. apply (fr_banned _ _ _ _ _ _ _ _ _ _ _ _ R); auto. }
  assert (NB : forb j i = true -> ~ gm go j i <> 0). { intros FB2 J. apply (SA i j Hi Hj) in J. apply J. auto. }
  split; [|exact NB]. intros J. pose proof (proj1 (SA i j Hi Hj) J) as Js. unfold adj in Js. pose proof (fr_s _ _ _ _ _ _ _ _ _ _ _ _ R) as Ms.
  pose proof (mx_neq n gs Ms j i Hj Js) as N. apply (run_marks _ _ _ _ _ _ _ _ _ _ _ _ j i R Hj Hi).
  destruct (fr_bk _ _ _ _ _ _ _ _ _ _ _ _ R) as [_ BK]. assert (L : (i < j)%nat \/ (j < i)%nat) by lia. unfold points, tail_at, arrow_at. destruct L as [L|L].
  - assert (Js' : gm gs i j <> 0) by (intros Q; apply Js; now apply (mx_zero n gs Ms)). specialize (BK i j L Hj Js'). unfold bk_dir in BK. rewrite FB in BK. tauto.
  - specialize (BK j i L Hi Js). unfold bk_dir in BK. rewrite FB in BK. destruct (forb j i) eqn:F2; [|exact BK]. exfalso. now apply NB.
Qed.
(** A required edge i --> j is oriented so whenever i and j are adjacent, if the knowledge does not contradict itself. *)
Theorem C73_required_partial : forall ind forb req so srt depth mpl kall n fuel g l i j, (forall l, Permutation (so l) l) -> (forall l, Permutation (srt l) l) ->
  (2 * n + n * n + 2 <= fuel)%nat -> fci ind forb req so srt fuel depth mpl kall n = Ret (g, l) -> (i < n)%nat -> (j < n)%nat ->
  req i j = true -> forb i j = false -> req j i = false -> adj g i j -> points g i j.
Proof.
  intros ind forb req so srt depth mpl kall n fuel g l i j H1 H2 HF E Hi Hj RQ FB RQ2. destruct (fci_spec ind forb req so srt H1 H2 n fuel depth mpl kall HF) as (gs & gk & gc & go & sep & g' & l' & E' & R & M & S & _).
  rewrite E in E'. injection E' as <- <-. pose proof (run_adj _ _ _ _ _ _ _ _ _ _ _ _ R) as SA. unfold points, tail_at, arrow_at, adj. rewrite !S.
  intros J. pose proof (proj1 (SA i j Hi Hj) J) as Js. unfold adj in Js. pose proof (fr_s _ _ _ _ _ _ _ _ _ _ _ _ R) as Ms.
  pose proof (mx_neq n gs Ms j i Hj Js) as N. apply (run_marks _ _ _ _ _ _ _ _ _ _ _ _ i j R Hi Hj).
  destruct (fr_bk _ _ _ _ _ _ _ _ _ _ _ _ R) as [_ BK]. assert (L : (i < j)%nat \/ (j < i)%nat) by lia. unfold points, tail_at, arrow_at. destruct L as [L|L].
  - assert (Js' : gm gs i j <> 0) by (intros Q; apply Js; now apply (mx_zero n gs Ms)). specialize (BK i j L Hj Js'). unfold bk_dir in BK. rewrite FB, RQ in BK. destruct (forb j i); tauto.
  - specialize (BK j i L Hi Js). unfold bk_dir in BK. rewrite FB, RQ, RQ2 in BK. destruct (forb j i); tauto.
Qed.
(** A required edge does not protect against removal. *)
Theorem C73_required_refuted : exists ind req n fuel g l i j, (2 * n + n * n + 2 <= fuel)%nat /\ (i < n)%nat /\ (j < n)%nat /\
  fci ind nok req (fun l => l) (fun l => l) fuel None (-1) false n = Ret (g, l) /\ req i j = true /\ ~ adj g i j.
Proof.
  pose (o := fci (fun _ _ _ => true) nok (req2 (0, 1) (0, 1))%nat (fun l => l) (fun l => l) 20 None (-1) false 2).
  assert (K : match o with Ret (g, _) => gm g 1%nat 0%nat =? 0 | _ => false end = true) by (vm_compute; auto).
  destruct o as [[g l]| |] eqn:E; try discriminate K. apply Z.eqb_eq in K.
  exists (fun _ _ _ => true), (req2 (0, 1) (0, 1))%nat, 2%nat, 20%nat, g, l, 0%nat, 1%nat. do 3 (split; [lia|]). split; [exact E|]. split; [reflexivity|]. unfold adj. lia.
Qed.
(** Non-vacuity of the two theorems above: knowledge 1 --> 0 forbidden, 0 --> 2 required, everything dependent. *)
Lemma C73_example : let o := fci (fun _ _ _ => false) (req2 (1, 0) (1, 0))%nat (req2 (0, 2) (0, 2))%nat (fun l => l) (fun l => l) 20 None (-1) false 3 in
  out_marks o 0 1 = (-1, 1) /\ out_marks o 0 2 = (-1, 1).
Proof. vm_compute. auto. Qed.

(** ** C74: rule 0 *)
(** b is between a and c, which are not adjacent, and b is not in the set recorded for the pair. *)
Definition omitted (n : nat) (sep : nat -> nat -> option (list nat)) (g : ggraph) (a b c : nat) : Prop :=
  (a < n)%nat /\ (c < n)%nat /\ a <> c /\ adj g a b /\ adj g c b /\ ~ adj g a c /\ exists s, sep (Nat.min a c) (Nat.max a c) = Some s /\ ~ In b s.
(** Without knowledge, whatever marks g has: the result has the adjacencies of g and arrowheads exactly where the recorded sets say so,
    circles elsewhere. *)
Theorem C74_rule0 : forall n sep g, mixed n g -> exists g', rule0 nok nok sep g = Ret g' /\ mixed n g' /\
  forall a b, (a < n)%nat -> (b < n)%nat -> (adj g' a b <-> adj g a b) /\ (arrow_at g' a b <-> exists c, omitted n sep g a b c) /\ ~ tail_at g' a b.
Proof.
  intros n sep g HM. destruct (reorient_spec n g HM) as [M1 H1]. unfold rule0. set (g1 := reorient_all g) in *.
  assert (HC : forall i j, (i < n)%nat -> (j < n)%nat -> gm g1 i j = 0 \/ gm g1 i j = 2).
  { intros i j Hi Hj. destruct (H1 i j Hi Hj) as [A B]. destruct (Z.eq_dec (gm g i j) 0); auto. }
  destruct (bk_spec nok nok n g1 M1 HC) as (M3 & Z3 & D3). set (g3 := fci_orient_bk nok nok g1) in *.
  assert (C3 : forall i j, (i < n)%nat -> (j < n)%nat -> (gm g i j <> 0 -> gm g3 i j = 2) /\ (gm g i j = 0 -> gm g3 i j = 0)).
  { intros i j Hi Hj. destruct (H1 i j Hi Hj) as [A B]. split; intros K; [|auto]. pose proof (mx_neq n g HM i j Hi K) as Nij.
    assert (K' : gm g j i <> 0) by (intros Q; apply K; now apply (mx_zero n g HM)). assert (L : (i < j)%nat \/ (j < i)%nat) by lia. destruct L as [L|L].
    - destruct (D3 i j L Hj) as [Q _]; [rewrite A; lia|exact Q].
    - destruct (H1 j i Hj Hi) as [A' _]. destruct (D3 j i L Hi) as [_ Q]; [rewrite A'; lia|exact Q]. }
  assert (AD : forall x y, (x < n)%nat -> (y < n)%nat -> adj g3 x y <-> adj g x y).
  { intros x y Hx Hy. destruct (C3 y x Hy Hx) as [A B]. unfold adj. destruct (Z.eq_dec (gm g y x) 0) as [Q|Q]; [rewrite B by exact Q; tauto|]. rewrite A by exact Q. split; [auto|lia]. }
  assert (RE : forall a b c, (b < n)%nat -> collider_reason sep n g3 a b c <-> omitted n sep g a b c).
  { intros a b c Hb. unfold collider_reason, omitted. split; intros (Ha & Hc & N & J1 & J2 & J3 & X).
    - do 3 (split; [assumption|]). split; [now apply AD|]. split; [now apply AD|]. split; [intros J; apply J3; now apply AD|exact X].
    - do 3 (split; [assumption|]). split; [now apply AD|]. split; [now apply AD|]. split; [intros J; apply J3; now apply AD|exact X]. }
  assert (Eg : gn g = gn g3) by (rewrite (mx_n _ _ HM), (mx_n _ _ M3); reflexivity). rewrite Eg.
  destruct (rule0_fold nok nok sep n g3 M3) as (g' & E & M' & [R1 R2] & CC). exists g'. split; [exact E|]. split; [exact M'|]. intros a b Ha Hb.
  split; [rewrite <- AD by auto; apply (proj1 (fills_weak _ _ _ R1 a b Ha Hb))|]. specialize (R2 a b Ha Hb).
  assert (NT : never_tailed n g3). { intros x y Hx Hy. unfold tail_at. destruct (C3 y x Hy Hx) as [A B]. destruct (Z.eq_dec (gm g y x) 0) as [Q|Q]; [rewrite B by exact Q; lia|rewrite A by exact Q; lia]. }
  split; [split|].
  - unfold arrow_at. intros A. destruct R2 as [R2|(_ & _ & c & Hr)]; [|exists c; now apply RE]. destruct (C3 b a Hb Ha) as [A1 B1]. destruct (Z.eq_dec (gm g b a) 0) as [Q|Q]; [rewrite (B1 Q) in R2|rewrite (A1 Q) in R2]; lia.
  - intros (c & Hr). apply (CC (fun _ _ => eq_refl) NT a b c Hb). now apply RE.
  - intros T. unfold tail_at in T. specialize (NT a b Ha Hb). unfold tail_at in NT. destruct R2 as [R2|(R2 & _)]; lia.
Qed.
(** Without latent variables every unshielded collider of the DAG is marked as one in the result of FCI. *)
Theorem C74_fci_colliders : forall D ind so srt mpl kall n fuel g l a b c, (forall l, Permutation (so l) l) -> (forall l, Permutation (srt l) l) ->
  (2 * n + n * n + 2 <= fuel)%nat -> oracle n D ind -> fci ind nok nok so srt fuel None mpl kall n = Ret (g, l) ->
  dedge D a b -> dedge D c b -> a <> c -> ~ adjacent D a c -> arrow_at g a b /\ arrow_at g c b.
Proof.
  intros D ind so srt mpl kall n fuel g l a b c H1 H2 HF HO E Eab Ecb N NA. destruct (oracle_out D ind so srt mpl kall n fuel g l H1 H2 HF HO E) as (gs & gc & go & sep & Mo & Ms & A & SG & K & F & S & Mg & CC & _).
  pose proof HO as (Dn & HD & _). assert (BD : forall x y, dedge D x y -> (x < n)%nat /\ (y < n)%nat) by (intros x y (K1 & K2 & _); rewrite Dn in K1, K2; auto).
  destruct (BD _ _ Eab) as [Ha Hb]. destruct (BD _ _ Ecb) as [Hc _]. pose proof K as (_ & SA & (_ & TT) & _).
  assert (NR : forall u, dedge D u b -> ~ reach (dedge D) b u) by (intros u Eu R; destruct HD as (_ & AC & _); apply (AC u); exists b; auto).
  destruct (TT a b c Ha Hb Hc N) as [[A1 A2]|[R|R]].
  - apply SA; auto. apply A; auto. now left.
  - apply SA; auto. apply A; auto. now left.
  - intros J. apply NA. apply A; auto. now apply SA.
  - apply (fills_arrows n gc go F a b Ha Hb) in A1. apply (fills_arrows n gc go F c b Hc Hb) in A2. unfold arrow_at. rewrite !S. auto.
  - destruct (NR a Eab R).
  - destruct (NR c Ecb R).
Qed.
Definition square : ggraph := graph_of 4 [dir 0 1; dir 0 2; dir 1 3; dir 2 3].
Lemma square_dag : dag square.
Proof. apply (dagb_sound (fun v => v)). reflexivity. Qed.
Lemma C74_example : oracle 4 square (dsep_test square) /\ dedge square 1 3 /\ dedge square 2 3 /\ ~ adjacent square 1 2 /\
  out_marks (fci (dsep_test square) nok nok (fun l => l) (fun l => l) 30 None (-1) false 4) 1 3 = (-1, 1).
Proof.
  split; [apply (test_oracle square square_dag)|]. assert (DE : dedge square 1 3 /\ dedge square 2 3) by (split; (split; [cbn; lia|split; [cbn; lia|left; vm_compute; auto]])).
  split; [apply DE|]. split; [apply DE|]. split; [|vm_compute; reflexivity]. intros J. apply (adjacent_spec square square_dag) in J. destruct J as (_ & _ & J). apply J. vm_compute. reflexivity.
Qed.

(** ** C78: what the marks say about the causal graph *)
(** Arrowheads mean "not an ancestor", tails "an ancestor"; for no unshielded triple is the middle node neither marked a collider nor an ancestor
    of an end; and no edge has a tail without an arrow at the other end. *)
Definition truthful (n : nat) (D g : ggraph) : Prop :=
  mixed n g /\
  (forall x y, (x < n)%nat -> (y < n)%nat -> (arrow_at g x y -> ~ reach (dedge D) y x) /\ (tail_at g x y -> reach (dedge D) y x)) /\
  (forall a b c, (a < n)%nat -> (b < n)%nat -> (c < n)%nat -> a <> c -> adj g a b -> adj g c b -> ~ adj g a c -> (arrow_at g a b /\ arrow_at g c b) \/ reach (dedge D) b a \/ reach (dedge D) b c) /\
  (forall x y, (x < n)%nat -> (y < n)%nat -> tail_at g x y -> arrow_at g y x).
Lemma truthful_keep n D g : truthful n D g -> keep n D g g.
Proof. intros (M & S & T & L). split; [exact M|]. split; [intros x y _ _; reflexivity|]. split; [split; [exact S|exact T]|exact L]. Qed.
Lemma keep_truthful n D g0 g : keep n D g0 g -> truthful n D g.
Proof. intros (M & _ & (S & T) & L). split; [exact M|]. split; [exact S|]. split; [exact T|exact L]. Qed.
(** A set recorded for x and y: it contains a separating set, and all its members are ancestors of x or y. *)
Definition recorded_right (n : nat) (D g : ggraph) (sep : nat -> nat -> option (list nat)) : Prop := forall x y, (x < n)%nat -> (y < n)%nat -> x <> y -> ~ adj g x y ->
  exists U, sep x y = Some U /\ (exists T, incl T U /\ conditioning n x y T /\ ~ dconnected D x y T) /\ forall z, In z U -> reach (dedge D) z x \/ reach (dedge D) z y.
(** R1, R2, R3 and R8 write nothing wrong, with latent variables too. *)
Theorem C78_R1_R2_R3_R8_partial : forall n D forb sep s s', dag D -> (n <= gn D)%nat -> truthful n D (fst s) -> recorded_right n D (fst s) sep ->
  (rulesR1R2 forb s = Ret s' -> truthful n D (fst s')) /\ (ruleR3 forb sep s = Ret s' -> truthful n D (fst s')) /\ (rule8 s = Ret s' -> truthful n D (fst s')).
Proof.
  intros n D forb sep s s' HD L HT HR. apply truthful_keep in HT. pose proof (test_latent D n HD L) as HO. split; [|split]; intros E; apply (keep_truthful n D (fst s)).
  - exact (R12_keep n D (dsep_test D) HO forb (fst s) s s' HT E).
  - exact (R3_keep n D forb sep (fst s) s s' HR HT E).
  - exact (R8_keep n D (fst s) s s' HT E).
Qed.
(** Neither do R4, R9 and R10 when every adjacency is an edge of the DAG (no latent variables). *)
Theorem C78_R4_R9_R10_partial : forall n D ind forb so fuel mpl sep s s', latent_oracle n D ind -> truthful n D (fst s) -> recorded_right n D (fst s) sep ->
  (forall x y, (x < n)%nat -> (y < n)%nat -> adj (fst s) x y -> adjacent D x y) ->
  (ruleR4B ind forb fuel mpl sep s = Ret s' -> truthful n D (fst s')) /\ (rule9 so fuel s = Ret s' -> truthful n D (fst s')) /\ (rule10 so fuel s = Ret s' -> truthful n D (fst s')).
Proof.
  intros n D ind forb so fuel mpl sep s s' HO HT HR HA. apply truthful_keep in HT. split; [|split]; intros E; apply (keep_truthful n D (fst s)).
  - exact (R4_keep n D ind forb HO (fst s) HA sep HR fuel mpl s s' HT E).
  - exact (R9_keep n D (fst s) HA so fuel s s' HT E).
  - exact (R10_keep n D (fst s) HA so fuel s s' HT E).
Qed.
(** Without latent variables and without triangles, FCI's result has the adjacencies of the DAG and every mark is right. *)
Theorem C78_fci_triangle_free_partial : forall D ind so srt mpl kall n fuel g l, (forall l, Permutation (so l) l) -> (forall l, Permutation (srt l) l) ->
  (2 * n + n * n + 2 <= fuel)%nat -> oracle n D ind -> (forall x y z, adjacent D x y -> adjacent D y z -> adjacent D x z -> False) ->
  fci ind nok nok so srt fuel None mpl kall n = Ret (g, l) ->
  forall x y, (x < n)%nat -> (y < n)%nat -> (adj g x y <-> adjacent D x y) /\ (arrow_at g x y -> dedge D x y) /\ (tail_at g x y -> dedge D y x).
Proof.
  intros D ind so srt mpl kall n fuel g l H1 H2 HF HO HT E x y Hx Hy. destruct (oracle_out D ind so srt mpl kall n fuel g l H1 H2 HF HO E) as (gs & gc & go & sep & Mo & Ms & A & SG & K & F & S & Mg & CC & _ & EO).
  destruct (tri_run n D ind HO so srt H1 H2 fuel mpl kall HT HF) as (go' & E' & _ & AD & SO & TL). rewrite EO in E'. injection E' as <-. unfold adj, arrow_at, tail_at. rewrite !S.
  pose proof HO as (_ & HD & _). split; [now apply AD|]. destruct (SO x y Hx Hy) as [S1 S2]. split.
  - intros Q. assert (J : adjacent D x y) by (apply AD; auto; unfold adj; lia). destruct J as [J|J]; [exact J|]. exfalso. apply (S1 Q). now apply reach_one.
  - intros Q. assert (J : adjacent D x y) by (apply AD; auto; unfold adj; lia). destruct J as [J|J]; [|exact J]. exfalso. destruct HD as (_ & AC & _). apply (AC x). exists y. auto.
Qed.
Lemma C78_triangle_free_example : forall x y z, adjacent square x y -> adjacent square y z -> adjacent square x z -> False.
Proof.
  intros x y z J1 J2 J3. pose proof (proj1 (adjacent_spec square square_dag _ _) J1) as (Hx & Hy & K1). pose proof (proj1 (adjacent_spec square square_dag _ _) J2) as (_ & Hz & K2).
  pose proof (proj1 (adjacent_spec square square_dag _ _) J3) as (_ & _ & K3). clear J1 J2 J3.
  assert (C : allb 4 (fun x => allb 4 (fun y => allb 4 (fun z => (gm square x y =? 0) || (gm square y z =? 0) || (gm square x z =? 0)))) = true) by (vm_compute; reflexivity).
  rewrite allb_spec in C. specialize (C x Hx). rewrite allb_spec in C. specialize (C y Hy). rewrite allb_spec in C. specialize (C z Hz). rewrite !orb_true_iff, !Z.eqb_eq in C. tauto.
Qed.
(** With triangles R5 is wrong: every edge of this DAG on five observed nodes comes out undirected, which claims selection bias. *)
Definition fan : ggraph := graph_of 5 [dir 0 1; dir 0 2; dir 0 3; dir 0 4; dir 1 2; dir 1 3; dir 2 4].
Lemma fan_dag : dag fan.
Proof. apply (dagb_sound (fun v => v)). reflexivity. Qed.
Theorem C78_fci_refuted : exists D ind g l, oracle 5 D ind /\ fci ind nok nok (fun l => l) (fun l => l) 60 None (-1) false 5 = Ret (g, l) /\
  (forall x y, (x < 5)%nat -> (y < 5)%nat -> adj g x y -> tail_at g x y) /\ exists x y, (x < 5)%nat /\ (y < 5)%nat /\ tail_at g x y /\ ~ reach (dedge D) y x.
Proof.
  pose (o := fci (dsep_test fan) nok nok (fun l => l) (fun l => l) 60 None (-1) false 5).
  assert (K : match o with Ret (g, _) => all2 5 (fun x y => (gm g y x =? 0) || (gm g y x =? -1)) && (gm g 1%nat 0%nat =? -1) | _ => false end = true) by (vm_compute; reflexivity).
  destruct o as [[g l]| |] eqn:E; try discriminate K. apply andb_true_iff in K. destruct K as [K1 K2]. rewrite all2_spec in K1. apply Z.eqb_eq in K2.
  exists fan, (dsep_test fan), g, l. split; [apply (test_oracle fan fan_dag)|]. split; [exact E|]. split.
  - intros x y Hx Hy J. specialize (K1 x y Hx Hy). rewrite orb_true_iff, !Z.eqb_eq in K1. unfold adj, tail_at in *. tauto.
  - exists 0%nat, 1%nat. do 2 (split; [lia|]). split; [exact K2|]. intros R. destruct fan_dag as (_ & AC & _). apply (AC 0%nat). exists 1%nat. split; [|exact R].
    split; [cbn; lia|]. split; [cbn; lia|]. left. vm_compute. auto.
Qed.

(** ** C75: latent variables *)
(** R9 takes any semi-directed path, also one that goes back through the node whose mark it sets: with 0 <- 4 -> 2, 0 -> 1, 3 -> 2 and 4 latent,
    FCI claims 0 --> 2 although 0 is not an ancestor of 2. *)
Definition r9_dag : ggraph := graph_of 5 [dir 4 0; dir 4 2; dir 0 1; dir 3 2].
Lemma r9_dag_dag : dag r9_dag.
Proof. apply (dagb_sound (fun v => match v with 4%nat => 0 | 0%nat => 1 | 3%nat => 0 | _ => 2 end)%nat). reflexivity. Qed.
Lemma r9_no_path : ~ reach (dedge r9_dag) 0%nat 2%nat.
Proof.
  assert (G : forall u v, dedge r9_dag u v -> u = 0%nat \/ u = 1%nat -> v = 1%nat).
  { intros u v (Hu & Hv & H) [-> | ->]; cbn in Hv; (do 5 (destruct v as [|v]; [vm_compute in H; try reflexivity; exfalso; intuition discriminate|])); lia. }
  assert (W : forall u v, reach (dedge r9_dag) u v -> u = 0%nat \/ u = 1%nat -> v <> 2%nat).
  { intros u v R. induction R as [u|u m v Em R IH]; [lia|]. intros I. apply IH. right. exact (G u m Em I). }
  intros R. exact (W _ _ R (or_introl eq_refl) eq_refl).
Qed.
Theorem C75_R9_refuted : exists D ind g l, latent_oracle 4 D ind /\ fci ind nok nok (fun l => l) (fun l => l) 60 None (-1) false 4 = Ret (g, l) /\
  points g 0 2 /\ ~ reach (dedge D) 0%nat 2%nat.
Proof.
  pose (o := fci (dsep_test r9_dag) nok nok (fun l => l) (fun l => l) 60 None (-1) false 4).
  assert (K : out_marks o 0 2 = (-1, 1)) by (vm_compute; reflexivity).
  destruct o as [[g l]| |] eqn:E; try discriminate K. exists r9_dag, (dsep_test r9_dag), g, l.
  split; [apply test_latent; [apply r9_dag_dag|cbn; lia]|]. split; [exact E|]. injection K as K1 K2. split; [split; [exact K1|exact K2]|].
  exact r9_no_path.
Qed.
(** The Possible-D-Sep phase looks at too few sets: 3 and 4 are separated by {0, 1, 5}, and stay adjacent. *)
Definition pds_dag : ggraph := graph_of 9 [dir 0 2; dir 0 5; dir 1 3; dir 2 4; dir 5 4; dir 6 1; dir 6 2; dir 7 1; dir 7 4; dir 8 3; dir 8 5].
Lemma pds_dag_dag : dag pds_dag.
Proof. apply (dagb_sound (fun v => match v with 6%nat | 7%nat | 8%nat | 0%nat => 0 | 1%nat | 2%nat | 5%nat => 1 | _ => 2 end)%nat). reflexivity. Qed.
Theorem C75_possible_dsep_refuted : exists D ind g l x y T, latent_oracle 6 D ind /\ fci ind nok nok (fun l => l) (fun l => l) 60 None (-1) false 6 = Ret (g, l) /\
  conditioning 6 x y T /\ ~ dconnected D x y T /\ ind x y T = true /\ adj g x y.
Proof.
  pose (o := fci (dsep_test pds_dag) nok nok (fun l => l) (fun l => l) 60 None (-1) false 6).
  assert (K : match o with Ret (g, _) => negb (gm g 4%nat 3%nat =? 0) | _ => false end = true) by (vm_compute; reflexivity).
  destruct o as [[g l]| |] eqn:E; try discriminate K. apply negb_true_iff, Z.eqb_neq in K.
  assert (I : dsep_test pds_dag 3 4 [0; 1; 5]%nat = true) by (vm_compute; reflexivity).
  exists pds_dag, (dsep_test pds_dag), g, l, 3%nat, 4%nat, [0; 1; 5]%nat. split; [apply test_latent; [apply pds_dag_dag|apply Nat.leb_le; vm_compute; reflexivity]|]. split; [exact E|].
  split; [split; [repeat constructor; cbn; lia|intros z Hz; cbn in Hz; lia]|]. split; [|split; [exact I|exact K]].
  apply (dsep_test_spec pds_dag 3 4 [0; 1; 5]%nat pds_dag_dag); [apply Nat.ltb_lt; vm_compute; reflexivity|lia|exact I].
Qed.


(** ** C76: the edge labels *)
(** Another semi-directed path than the edge x --> y itself. *)
Definition detour (n : nat) (g : ggraph) (x y : nat) : Prop := reach1 (fun a b => semi_step n g a b /\ ~ (a = x /\ b = y)) x y.
(** FCI labels exactly the directed edges: 'dd' iff there is no other semi-directed path, 'nl' iff a node not adjacent to y points at x, or x has a parent. *)
Theorem C76_labels_partial : forall ind forb req so srt depth mpl kall n fuel g l, (forall l, Permutation (so l) l) -> (forall l, Permutation (srt l) l) ->
  (2 * n + n * n + 2 <= fuel)%nat -> fci ind forb req so srt fuel depth mpl kall n = Ret (g, l) ->
  map fst l = get_graph_edges g /\
  forall e o, In (e, o) l ->
    match o with
    | None => ~ (e_end1 e = TAIL /\ e_end2 e = ARROW) /\ ~ (e_end1 e = ARROW /\ e_end2 e = TAIL)
    | Some (dd, nl) => exists x y, (x < n)%nat /\ (y < n)%nat /\ e = Edge x y TAIL ARROW /\ points g x y /\ (dd = true <-> ~ detour n g x y) /\
        (nl = true <-> (exists c, (c < n)%nat /\ c <> y /\ arrow_at g c x /\ ~ adj g c y) \/ exists c, (c < n)%nat /\ points g c x)
    end.
Proof.
  intros ind forb req so srt depth mpl kall n fuel g l H1 H2 HF E. destruct (fci_spec ind forb req so srt H1 H2 n fuel depth mpl kall HF) as (gs & gk & gc & go & sep & g' & l' & E' & R & M & S & ML & OK).
  rewrite E in E'. injection E' as <- <-. pose proof (fr_o _ _ _ _ _ _ _ _ _ _ _ _ R) as Mo. split.
  - rewrite ML. rewrite (graph_edges_map n go Mo), (graph_edges_map n g M). unfold adjacent_pairs.
    assert (EF : filter (fun p => negb (gm go (fst p) (snd p) =? 0)) (pairs_lt n) = filter (fun p => negb (gm g (fst p) (snd p) =? 0)) (pairs_lt n)) by (apply filter_ext; intros p; now rewrite S).
    rewrite EF. apply map_ext. intros (i, j). apply edge_at_same; cbn [fst snd]; auto.
  - intros e o Hin. specialize (OK (e, o) Hin). unfold color_ok in OK. cbn [fst snd] in OK. destruct o as [[dd nl]|]; [|exact OK]. destruct OK as (x & y & Hx & Hy & Ee & T & A & D1 & N1).
    exists x, y. do 3 (split; [assumption|]). split; [unfold points, tail_at, arrow_at in *; rewrite !S; auto|]. split.
    + rewrite D1. apply not_iff_compat. unfold detour. apply reach1_ext. intros a b. unfold other_step, sstep, semi_step, tail_at, circle_at. rewrite !S. tauto.
    + rewrite N1. unfold nl_cond, points, arrow_at, tail_at, adj. split.
      * intros [(c & K)|(c & K)]; [left|right]; exists c; rewrite !S; tauto.
      * intros [(c & K)|(c & K)]; [left|right]; exists c; rewrite !S in K; tauto.
Qed.
(** 'nl' is meant to say that the edge is visible, for which a node not adjacent to y is needed; a parent of x adjacent to y is enough here. *)
Theorem C76_visible_refuted : exists ind req n fuel g l e dd x y, (2 * n + n * n + 2 <= fuel)%nat /\
  fci ind nok req (fun l => l) (fun l => l) fuel None (-1) false n = Ret (g, l) /\ In (e, Some (dd, true)) l /\ e = Edge x y TAIL ARROW /\
  forall c, (c < n)%nat -> c <> y -> adj g c y.
Proof.
  pose (req := fun x y => pair_eqb (2, 0)%nat (x, y) || pair_eqb (0, 1)%nat (x, y) || pair_eqb (2, 1)%nat (x, y)).
  pose (o := fci (fun _ _ _ => false) nok req (fun l => l) (fun l => l) 20 None (-1) false 3).
  assert (K : match o with Ret (g, l) => existsb (fun en => match snd en with Some (_, true) => edge_eqb (fst en) (Edge 0 1 TAIL ARROW) | _ => false end) l && negb (gm g 1%nat 0%nat =? 0) && negb (gm g 1%nat 2%nat =? 0) | _ => false end = true) by (vm_compute; reflexivity).
  destruct o as [[g l]| |] eqn:E; try discriminate K. apply andb_true_iff in K. destruct K as [K K3]. apply andb_true_iff in K. destruct K as [K K2].
  apply negb_true_iff, Z.eqb_neq in K2. apply negb_true_iff, Z.eqb_neq in K3.
  apply existsb_exists in K. destruct K as ((e & oo) & Hin & K). cbn [fst snd] in K. destruct oo as [[dd []]|]; try discriminate K.
  exists (fun _ _ _ => false), req, 3%nat, 20%nat, g, l, e, dd, 0%nat, 1%nat. split; [lia|]. split; [exact E|]. split; [exact Hin|]. split.
  - destruct (C76_labels_partial (fun _ _ _ => false) nok req (fun l => l) (fun l => l) None (-1) false 3 20 g l (fun _ => Permutation_refl _) (fun _ => Permutation_refl _) ltac:(lia) E) as [_ H].
    destruct (H e _ Hin) as (x & y & _ & _ & -> & _). unfold edge_eqb, Edge in K. cbn in K. apply andb_true_iff in K. destruct K as [Kx Ky]. apply Nat.eqb_eq in Kx, Ky. now subst.
  - intros c Hc N. unfold adj. destruct c as [|[|[|c]]]; [exact K2|congruence|exact K3|lia].
Qed.
