(** The correction loop of mvpc: invariant, termination, completeness of the search. *)
From Coq Require Import Permutation.
From Verif Require Import Base EdgeModel EdgeProofs GraphModel GraphSpec GraphProofs UtilsModel UtilsProofs DpathProofs NamedModel KnowledgeModel
  DsepSpec MeekModel MeekSpec MeekProofs CpdagModel SkelModel SkelSpec SkelProofs SkelMain PCModel PCSpec MeekFull PCGraph MVPCModel.
Local Open Scope Z_scope.

Lemma in_perms2 n x y : In (x, y) (perms2 n) <-> (x < n)%nat /\ (y < n)%nat /\ x <> y.
Proof.
  unfold perms2. rewrite in_flat_map. split.
  - intros (a & Ha & H). apply in_map_iff in H. destruct H as (b & E & Hb). injection E as -> ->. apply filter_In in Hb. rewrite in_seq0 in *.
    destruct Hb as [Hb E]. apply negb_true_iff, Nat.eqb_neq in E. auto.
  - intros (Hx & Hy & N). exists x. split; [now apply in_seq0|]. apply in_map. apply filter_In. split; [now apply in_seq0|]. apply negb_true_iff, Nat.eqb_neq. auto.
Qed.
Lemma built_joined_sym n g a b : built n g -> joined g a b -> joined g b a.
Proof.
  intros HB (Ha & Hb & N). split; [exact Hb|]. split; [exact Ha|]. destruct (built_inv n g HB) as (Hn & Hw & _).
  pose proof (proj2 Hw a b Ha Hb) as HL. intros E. rewrite E in HL. pair_cases HL; congruence.
Qed.
Lemma built_joined_neq n g a b : built n g -> joined g a b -> (a < n)%nat /\ (b < n)%nat /\ a <> b.
Proof. intros HB (Ha & Hb & N). exact (built_outside n g HB a b N). Qed.
Lemma same_pair_refl a b : same_pair a b a b = true.
Proof. apply same_pair_iff. auto. Qed.

Section CLoop.
Variable ind : nat -> nat -> list nat -> bool.
Variable stable : bool.
Variable n : nat.
Variable ps : list (nat * nat).
Hypothesis Hps : forall x y, In (x, y) ps -> (x < n)%nat /\ (y < n)%nat /\ x <> y.
Variable g0 : ggraph.
Variable S0 : nat -> nat -> list (list nat).
Hypothesis HB0 : built n g0.

Definition why (a b : nat) (T : list nat) : Prop :=
  exists x y, ((x = a /\ y = b) \/ (x = b /\ y = a)) /\ In (x, y) ps /\ ind x y T = true /\ conditioning n x y T /\ forall z, In z T -> joined g0 x z.
Lemma why_sym a b T : why a b T -> why b a T.
Proof. intros (x & y & H & K). exists x, y. split; [tauto|exact K]. Qed.
Definition FI (st : cst) : Prop :=
  built n (cG st) /\
  (forall a b, gm (cG st) a b = gm g0 a b \/ (gm (cG st) a b = 0 /\ gm (cG st) b a = 0 /\ exists T, why a b T /\ (stable = true -> In T (cS st a b)))) /\
  (forall a b, exists L, cS st a b = S0 a b ++ L /\ (forall T, In T L -> why a b T) /\ (stable = false -> L = []) /\
     (L <> [] -> gm (cG st) a b = 0 \/ In (a, b) (cR st))) /\
  (forall a b, In (a, b) (cR st) -> In (b, a) (cR st) /\ exists T, why a b T /\ In T (cS st a b)) /\
  (stable = false -> cR st = []).
Lemma FI_sub st : FI st -> sub_graph (cG st) g0.
Proof.
  intros (H1 & H2 & _). destruct (built_inv n _ H1) as (Hn & _), (built_inv n _ HB0) as (Hn0 & _). split; [congruence|].
  intros a b (Ha & Hb & N). split; [congruence|]. split; [congruence|]. destruct (H2 a b) as [E|(E & _)]; congruence.
Qed.
Lemma found_why st x y depth T : FI st -> In (x, y) ps -> find (ind x y) (combs depth (filter (fun z => negb (Nat.eqb z y)) (neighbors (cG st) x))) = Some T -> why x y T.
Proof.
  intros HF Hp Ef. apply find_some in Ef. destruct Ef as [HT Hi]. destruct (Hps x y Hp) as (Hx & Hy & N).
  pose proof (FI_sub st HF) as [Sn Sj]. pose proof HF as (HB & _). destruct (built_inv n _ HB) as (Hn & _).
  destruct (combs_in _ _ _ HT) as (_ & H2 & H3). exists x, y. split; [auto|]. split; [exact Hp|]. split; [exact Hi|].
  assert (J : forall z, In z T -> joined (cG st) x z /\ z <> y).
  { intros z Hz. apply H2 in Hz. rewrite filter_In, negb_true_iff, Nat.eqb_neq in Hz. destruct Hz as [Hz Nz]. split; [|exact Nz]. apply in_neighbors in Hz; [exact Hz|now rewrite Hn]. }
  split; [split; [apply H3; apply NoDup_filter, neighbors_nodup|]|].
  - intros z Hz. destruct (J z Hz) as [Jz Nz]. destruct (built_joined_neq n _ _ _ HB Jz) as (_ & K1 & K2). split; [exact K1|]. split; congruence.
  - intros z Hz. apply Sj. now apply J.
Qed.
Lemma step_FI depth st p : In p ps -> FI st -> FI (c_step ind stable depth st p).
Proof.
  destruct p as [x y]. intros Hp HF. unfold c_step. destruct (memb y (neighbors (cG st) x)) eqn:EM; [|exact HF].
  destruct (Nat.leb depth _); [|exact HF]. destruct (find _ _) as [T|] eqn:Ef; [|exact HF].
  pose proof (found_why st x y depth T HF Hp Ef) as HW. destruct (Hps x y Hp) as (Hx & Hy & N). unfold FI in *. destruct HF as (H1 & H2 & H3 & H4 & H5). destruct stable eqn:Es.
  - split; [exact H1|]. cbn [cG cS cR]. split; [|split; [|split; [|discriminate]]].
    + intros a b. destruct (H2 a b) as [E|(E1 & E2 & T' & K1 & K2)]; [now left|right]. split; [exact E1|]. split; [exact E2|]. exists T'. split; [exact K1|]. intros _.
      specialize (K2 eq_refl). destruct (same_pair a b x y) eqn:SP.
      * apply same_pair_iff in SP. destruct SP as [[-> ->]|[-> ->]]; [rewrite append_both_xy by exact N|rewrite append_both_yx by exact N]; apply in_app_iff; now left.
      * now rewrite append_both_other.
    + intros a b. destruct (H3 a b) as (L & E & K1 & K2 & K3). destruct (same_pair a b x y) eqn:SP.
      * exists (L ++ [T]). apply same_pair_iff in SP. split; [|split; [|split; [discriminate|]]].
        -- rewrite app_assoc, <- E. destruct SP as [[-> ->]|[-> ->]]; [now apply append_both_xy|now apply append_both_yx].
        -- intros T' HT'. apply in_app_iff in HT'. destruct HT' as [HT'|[<-|[]]]; [now apply K1|]. destruct SP as [[-> ->]|[-> ->]]; [exact HW|now apply why_sym].
        -- intros _. right. apply in_app_iff. right. destruct SP as [[-> ->]|[-> ->]]; cbn; auto.
      * exists L. rewrite append_both_other by exact SP. split; [exact E|]. split; [exact K1|]. split; [discriminate|]. intros NL. destruct (K3 NL) as [K|K]; [now left|right].
        apply in_app_iff. now left.
    + intros a b HR. apply in_app_iff in HR. destruct HR as [HR|[E|[E|[]]]].
      * destruct (H4 a b HR) as (K1 & T' & K2 & K3). split; [apply in_app_iff; now left|]. exists T'. split; [exact K2|]. destruct (same_pair a b x y) eqn:SP.
        -- apply same_pair_iff in SP. destruct SP as [[-> ->]|[-> ->]]; [rewrite append_both_xy by exact N|rewrite append_both_yx by exact N]; apply in_app_iff; now left.
        -- now rewrite append_both_other.
      * injection E as <- <-. split; [apply in_app_iff; right; right; now left|]. exists T. split; [exact HW|]. rewrite append_both_xy by exact N. apply in_app_iff. right. now left.
      * injection E as <- <-. split; [apply in_app_iff; right; now left|]. exists T. split; [now apply why_sym|]. rewrite append_both_yx by exact N. apply in_app_iff. right. now left.
  - destruct (rie_any n (cG st) x y H1) as [B1 G1]. destruct (rie_any n _ y x B1) as [B2 G2].
    assert (G : forall a b, gm (remove_if_exists (remove_if_exists (cG st) x y) y x) a b = if same_pair a b x y then 0 else gm (cG st) a b).
    { intros a b. rewrite G2, G1. assert (E : same_pair a b y x = same_pair a b x y) by (unfold same_pair; apply orb_comm). rewrite E. now destruct (same_pair a b x y). }
    split; [exact B2|]. cbn [cG cS cR]. split; [|split; [|split; [|exact H5]]].
    + intros a b. rewrite !G. rewrite (same_pair_sym b a). destruct (same_pair a b x y) eqn:SP.
      * right. split; [reflexivity|]. split; [reflexivity|]. exists T. split; [|discriminate]. apply same_pair_iff in SP. destruct SP as [[-> ->]|[-> ->]]; [exact HW|now apply why_sym].
      * destruct (H2 a b) as [E|E]; [now left|right]. exact E.
    + intros a b. destruct (H3 a b) as (L & E & K1 & K2 & K3). exists L. split; [exact E|]. split; [exact K1|]. split; [exact K2|]. intros NL. destruct (NL (K2 eq_refl)).
    + intros a b HR. rewrite (H5 eq_refl) in HR. destruct HR.
Qed.
Lemma fold_FI depth l : incl l ps -> forall st, FI st -> FI (fold_left (c_step ind stable depth) l st).
Proof.
  induction l as [|p l IH]; intros HI st HF; cbn [fold_left]; [exact HF|]. apply IH; [intros q Hq; apply HI; now right|]. apply step_FI; [apply HI; now left|exact HF].
Qed.
Lemma remove_all R : forall g, built n g -> (forall a b, In (a, b) R -> In (b, a) R) ->
  built n (fold_left (fun g p => remove_if_exists g (fst p) (snd p)) R g) /\
  forall a b, gm (fold_left (fun g p => remove_if_exists g (fst p) (snd p)) R g) a b = if existsb (fun p => same_pair a b (fst p) (snd p)) R then 0 else gm g a b.
Proof.
  intros g HB _. revert g HB. induction R as [|[x y] R IH]; intros g HB; cbn [fold_left existsb fst snd]; [split; [exact HB|reflexivity]|].
  destruct (rie_any n g x y HB) as [B1 G1]. destruct (IH _ B1) as [B2 G2]. split; [exact B2|]. intros a b. rewrite G2, G1.
  destruct (existsb _ R); [now rewrite orb_true_r|]. rewrite orb_false_r. reflexivity.
Qed.
Lemma FI_start st : FI st -> cR st = [] -> FI (mkC (cG st) (cS st) []).
Proof. intros HF E. destruct st as [g S R]. cbn in *. now subst R. Qed.
Lemma in_R_pair R a b : (forall a b, In (a, b) R -> In (b, a) R) -> existsb (fun p => same_pair a b (fst p) (snd p)) R = true <-> In (a, b) R.
Proof.
  intros HS. rewrite existsb_exists. split.
  - intros ([x y] & H & E). cbn [fst snd] in E. apply same_pair_iff in E. destruct E as [[-> ->]|[-> ->]]; auto.
  - intros H. exists (a, b). split; [exact H|apply same_pair_refl].
Qed.
Lemma pass_FI depth st : FI st -> cR st = [] -> FI (c_pass ind stable ps depth st).
Proof.
  intros HF ER. unfold c_pass. set (st1 := fold_left _ ps _).
  assert (F1 : FI st1) by (apply fold_FI; [apply incl_refl|now apply FI_start]). clearbody st1. destruct F1 as (H1 & H2 & H3 & H4 & H5).
  destruct (remove_all (cR st1) (cG st1) H1 (fun a b K => proj1 (H4 a b K))) as [B G]. set (g' := fold_left _ (cR st1) (cG st1)) in *. clearbody g'.
  assert (GR : forall a b, gm g' a b = 0 /\ In (a, b) (cR st1) \/ gm g' a b = gm (cG st1) a b /\ ~ In (a, b) (cR st1)).
  { intros a b. rewrite G. destruct (existsb _ _) eqn:E; [left|right]; (split; [reflexivity|]).
    - now apply in_R_pair in E; [|intros; now apply H4].
    - rewrite <- (in_R_pair (cR st1)); [congruence|]. intros; now apply H4. }
  split; [exact B|]. cbn [cG cS cR]. split; [|split; [|split; [intros a b []|reflexivity]]].
  - intros a b. destruct (GR a b) as [[E1 K1]|[E1 K1]].
    + right. destruct (H4 a b K1) as (K2 & T & K3 & K4). split; [exact E1|]. split; [destruct (GR b a) as [[E2 _]|[_ K5]]; [exact E2|contradiction]|]. exists T. auto.
    + destruct (GR b a) as [[E2 K2]|[E2 K2]]; [apply H4 in K2; tauto|]. rewrite E1, E2. apply H2.
  - intros a b. destruct (H3 a b) as (L & E & K1 & K2 & K3). exists L. split; [exact E|]. split; [exact K1|]. split; [exact K2|]. intros NL. left.
    destruct (GR a b) as [[E1 _]|[E1 N1]]; [exact E1|]. destruct (K3 NL) as [K|K]; [congruence|contradiction].
Qed.
(** ** Nothing left to test *)
Definition clearp (k : nat) (g : ggraph) : Prop := forall x y, In (x, y) ps -> joined g x y -> hits ind k x (neighbors g x) y = false.
Lemma clearp_sub k g' g : sub_graph g' g -> clearp k g -> clearp k g'.
Proof.
  intros Hs Hc x y Hp J. pose proof Hs as [Hn Hj]. assert (Hx : (x < gn g)%nat) by (destruct J as (H & _); now rewrite Hn in H).
  rewrite (sub_neighbors g' g x Hs Hx). apply hits_filter. apply Hc; auto.
Qed.
Lemma rie_sub g x y : built n g -> sub_graph (remove_if_exists g x y) g.
Proof.
  intros HB. destruct (rie_any n g x y HB) as [B G]. destruct (built_inv n _ HB) as (Hn & _), (built_inv n _ B) as (Hn' & _). split; [congruence|].
  intros a b (Ha & Hb & N). rewrite G in N. destruct (same_pair a b x y); [congruence|]. split; [congruence|]. split; [congruence|exact N].
Qed.
Lemma step_sub depth st p : built n (cG st) -> sub_graph (cG (c_step ind stable depth st p)) (cG st).
Proof.
  intros HB. destruct p as [x y]. unfold c_step. destruct (memb y _); [|apply sub_refl]. destruct (Nat.leb depth _); [|apply sub_refl].
  destruct (find _ _); [|apply sub_refl]. destruct stable; [apply sub_refl|]. cbn [cG]. eapply sub_trans; [|now apply rie_sub]. apply rie_sub. now apply rie_built.
Qed.
Lemma fold_sub depth l : incl l ps -> forall st, FI st -> sub_graph (cG (fold_left (c_step ind stable depth) l st)) (cG st).
Proof.
  induction l as [|p l IH]; intros HI st HF; cbn [fold_left]; [apply sub_refl|].
  eapply sub_trans; [apply IH; [intros q Hq; apply HI; now right|apply step_FI; [apply HI; now left|exact HF]]|]. apply step_sub. apply HF.
Qed.
Lemma R_grows depth l : forall st, incl (cR st) (cR (fold_left (c_step ind stable depth) l st)).
Proof.
  induction l as [|[x y] l IH]; intros st; cbn [fold_left]; [apply incl_refl|]. eapply incl_tran; [|apply IH].
  unfold c_step. destruct (memb y _); [|apply incl_refl]. destruct (Nat.leb depth _); [|apply incl_refl].
  destruct (find _ _); [|apply incl_refl]. destruct stable; [apply incl_appl, incl_refl|apply incl_refl].
Qed.
Lemma hits_find depth g x y : hits ind depth x (neighbors g x) y = true ->
  (depth <= length (filter (fun z => negb (Nat.eqb z y)) (neighbors g x)))%nat /\
  exists T, find (ind x y) (combs depth (filter (fun z => negb (Nat.eqb z y)) (neighbors g x))) = Some T.
Proof.
  unfold hits, others. intros H. apply existsb_exists in H. destruct H as (T & HT & Hi). split.
  - destruct (le_lt_dec depth (length (filter (fun z => negb (Nat.eqb z y)) (neighbors g x)))) as [L|L]; [exact L|]. rewrite combs_short in HT by exact L. destruct HT.
  - destruct (find _ _) as [T'|] eqn:E; [eauto|]. exfalso. pose proof (find_none _ _ E T HT). congruence.
Qed.
(** After its step a pair is gone, scheduled for removal, or passes all tests of this depth in every later graph. *)
Lemma fold_clears depth l : incl l ps -> forall st, FI st -> let st' := fold_left (c_step ind stable depth) l st in
  forall x y, In (x, y) l -> joined (cG st') x y -> In (x, y) (cR st') \/ hits ind depth x (neighbors (cG st') x) y = false.
Proof.
  induction l as [|p l IH]; intros HI st HF st' x y Hp J; [destruct Hp|]. unfold st' in *. cbn [fold_left] in *.
  assert (F1 : FI (c_step ind stable depth st p)) by (apply step_FI; [apply HI; now left|exact HF]).
  assert (HI' : incl l ps) by (intros q Hq; apply HI; now right).
  destruct Hp as [-> |Hp]; [|now apply (IH HI' _ F1)].
  assert (Hxy : In (x, y) ps) by (apply HI; now left). destruct (Hps x y Hxy) as (Hx & Hy & N).
  pose proof (fold_sub depth l HI' _ F1) as Sb. set (st1 := c_step ind stable depth st (x, y)) in *. pose proof Sb as [Sn Sj]. pose proof (Sj _ _ J) as J1.
  pose proof (step_sub depth st (x, y) (proj1 HF)) as Sb0. fold st1 in Sb0. pose proof (proj2 Sb0 _ _ J1) as J0.
  destruct (built_inv n _ (proj1 F1)) as (Hn1 & _).
  enough (K : In (x, y) (cR st1) \/ hits ind depth x (neighbors (cG st1) x) y = false).
  { destruct K as [K|K]; [left; revert K; apply R_grows|right]. rewrite (sub_neighbors _ _ x Sb) by (rewrite Hn1; exact Hx). now apply hits_filter. }
  destruct (hits ind depth x (neighbors (cG st) x) y) eqn:EH.
  - destruct (hits_find depth (cG st) x y EH) as (L & T & Ef). left. unfold st1, c_step in J1 |- *. destruct (built_inv n _ (proj1 HF)) as (Hn & _).
    assert (EM : memb y (neighbors (cG st) x) = true) by (apply memb_In; apply in_neighbors; [now rewrite Hn|exact J0]).
    rewrite EM in J1 |- *. apply Nat.leb_le in L. rewrite L in J1 |- *. rewrite Ef in J1 |- *. destruct stable; cbn [cR cG] in *; [apply in_app_iff; right; now left|]. exfalso.
    destruct (rie_any n (cG st) x y (proj1 HF)) as [B1 G1]. destruct (rie_any n _ y x B1) as [B2 G2]. destruct J1 as (_ & _ & J1). rewrite G2, G1, same_pair_refl in J1.
    destruct (same_pair x y y x); congruence.
  - right. rewrite (sub_neighbors _ _ x Sb0) by (destruct (built_inv n _ (proj1 HF)) as (Hn & _); rewrite Hn; exact Hx). now apply hits_filter.
Qed.
Lemma pass_sub depth st : FI st -> cR st = [] -> sub_graph (cG (c_pass ind stable ps depth st)) (cG st).
Proof.
  intros HF ER. unfold c_pass. cbn [cG]. pose proof (fold_sub depth ps (incl_refl _) _ (FI_start st HF ER)) as Sb. cbn [cG] in Sb.
  assert (F1 : FI (fold_left (c_step ind stable depth) ps (mkC (cG st) (cS st) []))) by (apply fold_FI; [apply incl_refl|now apply FI_start]).
  set (st1 := fold_left (c_step ind stable depth) ps _) in *. clearbody st1. eapply sub_trans; [|exact Sb].
  destruct (remove_all (cR st1) (cG st1) (proj1 F1)) as [B G]; [intros a b K; now apply F1 in K|].
  destruct (built_inv n _ B) as (Hn & _), (built_inv n _ (proj1 F1)) as (Hn1 & _). split; [congruence|].
  intros a b (Ha & Hb & K). rewrite G in K. destruct (existsb _ _); [congruence|]. split; [congruence|]. split; [congruence|exact K].
Qed.
Lemma pass_clear depth st : FI st -> cR st = [] -> clearp depth (cG (c_pass ind stable ps depth st)).
Proof.
  intros HF ER. unfold c_pass. cbn [cG].
  assert (F1 : FI (fold_left (c_step ind stable depth) ps (mkC (cG st) (cS st) []))) by (apply fold_FI; [apply incl_refl|now apply FI_start]).
  pose proof (fold_clears depth ps (incl_refl _) _ (FI_start st HF ER)) as HC. cbn zeta in HC. set (st1 := fold_left (c_step ind stable depth) ps _) in *. clearbody st1.
  destruct (remove_all (cR st1) (cG st1) (proj1 F1)) as [B G]; [intros a b K; now apply F1 in K|].
  destruct (built_inv n _ B) as (Hn & _), (built_inv n _ (proj1 F1)) as (Hn1 & _). intros x y Hp J. set (g' := fold_left _ (cR st1) (cG st1)) in *.
  assert (Sb : sub_graph g' (cG st1)).
  { split; [congruence|]. intros a b (Ha & Hb & K). rewrite G in K. destruct (existsb _ _); [congruence|]. split; [congruence|]. split; [congruence|exact K]. }
  destruct (HC x y Hp (proj2 Sb _ _ J)) as [K|K].
  - exfalso. destruct J as (_ & _ & J). rewrite G in J. assert (E : existsb (fun p => same_pair x y (fst p) (snd p)) (cR st1) = true) by (apply existsb_exists; exists (x, y); split; [exact K|apply same_pair_refl]).
    rewrite E in J. congruence.
  - rewrite (sub_neighbors _ _ x Sb) by (rewrite Hn1; now apply Hps in Hp). now apply hits_filter.
Qed.
Definition LI (k : nat) (st : cst) : Prop := FI st /\ cR st = [] /\ forall j, (j < k)%nat -> clearp j (cG st).
Lemma pass_LI k st : LI k st -> LI (S k) (c_pass ind stable ps k st).
Proof.
  intros (H1 & H2 & H3). split; [now apply pass_FI|]. split; [reflexivity|]. intros j Hj. destruct (Nat.eq_dec j k) as [-> |Nj]; [now apply pass_clear|].
  eapply clearp_sub; [now apply pass_sub|]. apply H3. lia.
Qed.
Lemma degree_lt_built g i : built n g -> (i < n)%nat -> (length (neighbors g i) < n)%nat.
Proof.
  intros HB Hi. destruct (built_inv n g HB) as (Hn & _). unfold neighbors. rewrite Hn. rewrite <- (seq_length n 0) at 2. apply filter_shorter with (x := i); [now apply in_seq0|].
  destruct (Z.eq_dec (gm g i i) 0) as [->|E]; [reflexivity|]. exfalso. now destruct (built_outside n g HB i i E) as (_ & _ & K).
Qed.
Lemma max_degree_built g : built n g -> (max_degree g <= n - 1)%nat.
Proof.
  intros HB. apply max_degree_le. intros i Hi. destruct (built_inv n g HB) as (Hn & _). rewrite Hn in Hi. pose proof (degree_lt_built g i HB Hi). lia.
Qed.
Lemma loop_spec : forall fuel k st, LI k st -> (n <= k + fuel)%nat -> exists st' k', c_loop ind stable ps fuel k st = Some st' /\ LI k' st' /\ (max_degree (cG st') <= k')%nat.
Proof.
  induction fuel as [|fuel IH]; intros k st HL Hf; cbn [c_loop]; destruct (Nat.ltb k (max_degree (cG st))) eqn:E.
  - exfalso. apply Nat.ltb_lt in E. pose proof (max_degree_built _ (proj1 (proj1 HL))). lia.
  - exists st, k. apply Nat.ltb_ge in E. auto.
  - apply (IH (S k)); [now apply pass_LI|lia].
  - exists st, k. apply Nat.ltb_ge in E. auto.
Qed.
Lemma LI_start : LI 0 (mkC g0 S0 []).
Proof.
  split; [|split; [reflexivity|intros j Hj; lia]]. split; [exact HB0|]. cbn [cG cS cR]. split; [now left|]. split; [|split; [intros a b []|reflexivity]].
  intros a b. exists []. rewrite app_nil_r. split; [reflexivity|]. split; [intros T []|]. split; [reflexivity|congruence].
Qed.
(** A remaining edge passes every test on a set of final neighbours. *)
Lemma exit_clear k st : LI k st -> (max_degree (cG st) <= k)%nat -> order_free n ind ->
  forall x y T, In (x, y) ps -> joined (cG st) x y -> NoDup T -> (forall z, In z T -> joined (cG st) x z /\ z <> y) -> ind x y T = false.
Proof.
  intros (H1 & _ & H3) Hk Ho x y T Hp J HT Hin. pose proof H1 as (HB & _). destruct (built_inv n _ HB) as (Hn & _). destruct (Hps x y Hp) as (Hx & Hy & N).
  set (g := cG st) in *. assert (Hx' : (x < gn g)%nat) by now rewrite Hn.
  assert (HI : incl T (others (neighbors g x) y)).
  { intros z Hz. destruct (Hin z Hz) as [Jz Nz]. unfold others. apply filter_In. split; [now apply in_neighbors|]. apply negb_true_iff, Nat.eqb_neq, Nz. }
  assert (HL : (length T < k)%nat).
  { assert (Hyn : In y (neighbors g x)) by now apply in_neighbors. pose proof (others_len _ _ Hyn) as L.
    pose proof (NoDup_incl_length HT HI). pose proof (proj1 (max_degree_le g k) Hk x Hx'). lia. }
  destruct (combs_perm (length T) (others (neighbors g x) y) T) as (T' & K1 & K2); auto; [apply NoDup_filter, neighbors_nodup|].
  rewrite (Ho x y T T' Hx Hy N); [|split; [exact HT|]|exact K2].
  - specialize (H3 (length T) HL x y Hp J). unfold hits in H3. apply not_true_iff_false. intros E. apply not_true_iff_false in H3. apply H3. apply existsb_exists. eauto.
  - intros z Hz. destruct (Hin z Hz) as [Jz Nz]. destruct (built_joined_neq n g x z HB Jz) as (_ & B1 & B2). auto.
Qed.
End CLoop.
