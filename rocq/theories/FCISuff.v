(** FCI when there are no latent variables: R4, R9 and R10 only write what the DAG says. *)
From Verif Require Import Base EdgeModel EdgeProofs GraphModel GraphSpec GraphProofs DsepSpec DsepProofs DsepTheory SkelModel SkelSpec SkelProofs SkelSep PCModel MeekProofs
  UtilsModel UtilsProofs FCIModel FCISpec FCIProofs FCIRules FCILoops FCIFront FCISound.
Local Open Scope Z_scope.

Lemma obind_inv {A B} (o : outcome A) (k : A -> outcome B) r : obind o k = Ret r -> exists a, o = Ret a /\ k a = Ret r.
Proof. destruct o; cbn; try discriminate; eauto. Qed.

Section Suff.
Variable n : nat.
Variable D : ggraph.
Variable ind : nat -> nat -> list nat -> bool.
Variable forb : nat -> nat -> bool.
Hypothesis HO : latent_oracle n D ind.
(** The graph found by the search has the adjacencies of the DAG. *)
Variable g0 : ggraph.
Hypothesis HA : forall x y, (x < n)%nat -> (y < n)%nat -> adj g0 x y -> adjacent D x y.
Variable sep : sepsets.
Hypothesis HSG : seps_good n D g0 sep.
Notation keep := (keep n D).
Let HD : dag D := lo_dag n D ind HO.

Lemma edge_of g x y : keep g0 g -> (x < n)%nat -> (y < n)%nat -> arrow_at g x y -> dedge D x y.
Proof.
  intros K Hx Hy A. destruct (HA x y Hx Hy) as [E|E]; [apply (keep_adj n D g0 g x y K Hx Hy); unfold adj, arrow_at in *; lia|exact E|].
  exfalso. destruct K as (_ & _ & (HS & _) & _). apply (proj1 (HS x y Hx Hy) A). now apply reach_one.
Qed.
(** Writing a --> c where c already has the arrow. *)
Lemma aim g a c s' : keep g0 g -> (a < n)%nat -> (c < n)%nat -> gm g c a = 1 -> changed (reedge g a c (mk TAIL) (mk ARROW)) = Ret s' ->
  keep g0 (fst s') /\ forall x y, (x < n)%nat -> (y < n)%nat -> arrow_at g x y -> arrow_at (fst s') x y.
Proof.
  intros K Ha Hc E2 E. pose proof K as (HM & _ & (HS & _) & _). pose proof (edge_of g a c K Ha Hc E2) as ED.
  assert (N : gm g a c <> 0) by (intros Q; apply (mx_zero n g HM) in Q; auto; lia). pose proof (mx_neq n g HM a c Ha N) as Nq.
  assert (NA : gm g a c <> 1) by (intros Q; apply (proj1 (HS c a Hc Ha) Q); now apply reach_one).
  destruct (reedge_const n _ HM a c TAIL ARROW Ha Hc N st_TA) as (g' & Eg & M' & MK). rewrite Eg in E. injection E as <-. cbn [fst]. cbn [ev] in MK.
  assert (C : gm g a c = -1 \/ gm g a c = 2) by (pose proof (mx_codes n g HM a c Ha Hc); lia). split.
  - apply (mark_keep n D g0 g g' a c (-1) 1 K Ha Hc Nq M' MK); [|now left|reflexivity|discriminate].
    destruct C as [C|C]; [now left|right; split; [exact C|right; split; [reflexivity|now apply reach_one]]].
  - apply fills_arrows. apply (marked_fills n g g' a c (-1) 1 HM Ha Hc Nq MK); [destruct C; auto|auto].
Qed.
(** A state reached from s1, with the arrows of s1 kept. *)
Definition since (s1 s : st) : Prop := keep g0 (fst s) /\ forall x y, (x < n)%nat -> (y < n)%nat -> arrow_at (fst s1) x y -> arrow_at (fst s) x y.
Lemma since_refl s : keep g0 (fst s) -> since s s.
Proof. split; auto. Qed.
Lemma since_aim s1 s a c s' : since s1 s -> (a < n)%nat -> (c < n)%nat -> arrow_at (fst s1) a c -> changed (reedge (fst s) a c (mk TAIL) (mk ARROW)) = Ret s' -> since s1 s'.
Proof. intros [K F] Ha Hc A E. destruct (aim (fst s) a c s' K Ha Hc (F a c Ha Hc A) E) as [K' F']. split; auto. Qed.

(** ** R9 *)
Section R9.
Variable so : list nat -> list nat.
Lemma r9_children_keep fuel s1 a c : (a < n)%nat -> (c < n)%nat -> arrow_at (fst s1) a c -> forall bs s s', since s1 s -> r9_children fuel a c bs s = Ret s' -> since s1 s'.
Proof.
  intros Ha Hc A. induction bs as [|b bs IH]; intros s s' H E; cbn [r9_children] in E; [injection E as <-; exact H|].
  destruct (is_adjacent_to (fst s) b c); [exact (IH s s' H E)|]. apply obind_inv in E. destruct E as (v & _ & E). destruct v; [|exact (IH s s' H E)]. exact (since_aim s1 s a c s' H Ha Hc A E).
Qed.
Lemma R9_keep fuel s s' : keep g0 (fst s) -> rule9 so fuel s = Ret s' -> keep g0 (fst s').
Proof.
  intros K E. unfold rule9 in E. revert E. rewrite (mx_n _ _ (proj1 K)). apply (foldO_keep _ (fun s => keep g0 (fst s))); [exact K|]. clear s s' K.
  intros s1 c s2 Hc K. apply in_seq0 in Hc. pose proof K as (HM & _).
  assert (HL : forall a, In a (get_nodes_into (fst s1) c ARROW) -> (a < n)%nat /\ arrow_at (fst s1) a c) by (intros a H; apply (in_into n _ HM) in H; [exact H|apply mkA|exact Hc]).
  revert HL. generalize (get_nodes_into (fst s1) c ARROW) as l. intros l HL E. refine (proj1 (_ : since s1 s2)). revert E. apply (foldO_keep _ (since s1)); [now apply since_refl|].
  intros s3 a s4 Hin H3 E. destruct (HL a Hin) as [Ha A]. unfold r9_step in E. cbn zeta in E. destruct (epis (fst s3) c a CIRCLE); [|injection E as <-; exact H3].
  exact (r9_children_keep fuel s1 a c Ha Hc A _ s3 s4 H3 E).
Qed.
Lemma r10_pairs_keep fuel s1 a b c d : (a < n)%nat -> (c < n)%nat -> arrow_at (fst s1) a c -> forall ps s s', since s1 s -> r10_pairs fuel a b c d ps s = Ret s' -> since s1 s'.
Proof.
  intros Ha Hc A. induction ps as [|(u, v) ps IH]; intros s s' H E; cbn [r10_pairs] in E; [injection E as <-; exact H|].
  apply obind_inv in E. destruct E as (p1 & _ & E). destruct (negb p1); [exact (IH s s' H E)|]. apply obind_inv in E. destruct E as (p2 & _ & E). destruct (negb p2); [exact (IH s s' H E)|].
  destruct (negb _); [|exact (IH s s' H E)]. exact (since_aim s1 s a c s' H Ha Hc A E).
Qed.
Lemma R10_keep fuel s s' : keep g0 (fst s) -> rule10 so fuel s = Ret s' -> keep g0 (fst s').
Proof.
  intros K E. unfold rule10 in E. revert E. rewrite (mx_n _ _ (proj1 K)). apply (foldO_keep _ (fun s => keep g0 (fst s))); [exact K|]. clear s s' K.
  intros s1 c s2 Hc K. apply in_seq0 in Hc. pose proof K as (HM & _). unfold r10_node. cbn zeta.
  assert (HL : forall a, In a (get_nodes_into (fst s1) c ARROW) -> (a < n)%nat /\ arrow_at (fst s1) a c) by (intros a H; apply (in_into n _ HM) in H; [exact H|apply mkA|exact Hc]).
  revert HL. generalize (get_nodes_into (fst s1) c ARROW) as l. intros l HL. destruct (Nat.ltb _ 2); [intros [= <-]; exact K|]. intros E. refine (proj1 (_ : since s1 s2)). revert E.
  apply (foldO_keep _ (since s1)); [now apply since_refl|]. intros s3 a s4 Hin H3 E. apply filter_In in Hin. destruct Hin as [Hin _]. destruct (HL a Hin) as [Ha A].
  unfold r10_step in E. cbn zeta in E. destruct (Nat.ltb _ 2); [injection E as <-; exact H3|]. revert E. apply (foldO_keep _ (since s1)); [exact H3|].
  intros s5 (b, d) s6 _ H5 E. unfold r10_choice in E. destruct (_ && _); [|injection E as <-; exact H5]. exact (r10_pairs_keep fuel s1 a b c d Ha Hc A _ s5 s6 H5 E).
Qed.
End R9.

(** ** R4 *)
Section R4.
Variables (a b c : nat) (s1 s : st).
Hypothesis Ha : (a < n)%nat.
Hypothesis Hb : (b < n)%nat.
Hypothesis Hc : (c < n)%nat.
Hypothesis HS : since s1 s.
Hypothesis Aba : arrow_at (fst s) b a.
Hypothesis Aac : arrow_at (fst s) a c.
Hypothesis Abc : arrow_at (fst s) b c.
Lemma r4_K : keep g0 (fst s). Proof. apply HS. Qed.
Lemma r4_ba : dedge D b a. Proof. exact (edge_of _ _ _ r4_K Hb Ha Aba). Qed.
Lemma r4_ac : dedge D a c. Proof. exact (edge_of _ _ _ r4_K Ha Hc Aac). Qed.
Lemma r4_bc : dedge D b c. Proof. exact (edge_of _ _ _ r4_K Hb Hc Abc). Qed.
Lemma dneq x y : dedge D x y -> x <> y.
Proof. intros E ->. destruct HD as (_ & AC & _). apply (AC y). exists y. split; [exact E|constructor]. Qed.
(** d --> a <-- b --> c is open given a set with a and without b; d --> a --> c without a. *)
Lemma needs_b d T : (d < n)%nat -> arrow_at (fst s) d a -> d <> b -> d <> c -> ~ dconnected D d c T -> In b T.
Proof.
  intros Hd Ada Ndb Ndc NS. pose proof (edge_of _ _ _ r4_K Hd Ha Ada) as Eda. pose proof r4_ba as Eba. pose proof r4_ac as Eac. pose proof r4_bc as Ebc.
  destruct (in_dec Nat.eq_dec a T) as [Ia|Ia].
  - destruct (in_dec Nat.eq_dec b T) as [Ib|Ib]; [exact Ib|]. exfalso. apply NS. exists [a; b]. split.
    + pose proof (dneq _ _ Eda). pose proof (dneq _ _ Eba). pose proof (dneq _ _ Eac). pose proof (dneq _ _ Ebc). cbn.
      repeat constructor; cbn; intuition congruence.
    + cbn [app]. apply active_cons2. split; [now left|]. split; [apply active_cons2; split; [now right|]; split|].
      * apply active_cons2. split; [now left|]. split; [apply active_one|]. intros ? ? E; discriminate E.
      * intros c' r [= <- <-]. right. split; [|exact Ib]. intros [E _]. exact (dag_asym D HD _ _ E Eba).
      * intros c' r [= <- <-]. left. split; [exact Eda|]. split; [exact Eba|]. exists a. split; [exact Ia|constructor].
  - exfalso. apply NS. exists [a]. split.
    + pose proof (dneq _ _ Eda). pose proof (dneq _ _ Eac). cbn. repeat constructor; cbn; intuition congruence.
    + cbn [app]. apply active_cons2. split; [now left|]. split; [apply active_cons2; split; [now left|]; split; [apply active_one|intros ? ? E; discriminate E]|].
      intros c' r [= <- <-]. right. split; [|exact Ia]. intros [_ E]. exact (dag_asym D HD _ _ E Eac).
Qed.
Lemma orientation_keep fuel d prev x : (d < n)%nat -> arrow_at (fst s) d a -> d <> b -> d <> c ->
  prev d = Some a -> prev a = Some b -> prev b = None -> ddp_orientation ind forb fuel d a b c prev sep s = Ret x -> since s1 (snd x).
Proof.
  intros Hd Ada Ndb Ndc Pd Pa Pb E. pose proof r4_K as K. pose proof K as (HM & SA & (HSo & HT) & TL). unfold ddp_orientation in E. cbn zeta in E.
  destruct (is_adjacent_to (fst s) d c) eqn:NA; [discriminate|]. rewrite Pd in E. apply adj_no in NA.
  assert (P : get_path fuel prev d = Ret [a; b]). { destruct fuel as [|[|f]]; [cbn [get_path] in E; rewrite Pd in E; discriminate|cbn [get_path] in E; rewrite Pd, Pa in E; discriminate|]. cbn [get_path]. rewrite Pd, Pa. destruct f; cbn [get_path]; rewrite Pb; reflexivity. }
  rewrite P in E. cbn [obind lremove1] in E. pose proof (dneq _ _ r4_ba) as Nba. rewrite (proj2 (Nat.eqb_neq a b)) in E by congruence. rewrite Nat.eqb_refl in E.
  pose proof (dneq _ _ r4_ac) as Nac. pose proof (dneq _ _ r4_bc) as Nbc. pose proof (dneq _ _ (edge_of _ _ _ K Hd Ha Ada)) as Nda.
  assert (I2 : ind d c [a] = false).
  { apply not_true_iff_false. intros Q. apply (lo_ind n D ind HO) in Q; auto.
    - apply (needs_b d [a] Hd Ada Ndb Ndc) in Q. destruct Q as [Q|[]]. congruence.
    - split; [repeat constructor; easy|]. intros z [<-|[]]. auto. }
  rewrite I2, orb_false_r in E.
  assert (NAd : ~ adj g0 d c) by (intros J; apply (keep_adj n D g0 (fst s) d c K Hd Hc) in J; contradiction).
  destruct (HSG d c Hd Hc Ndc NAd) as (U & EU & ((T & T1 & T2 & T3) & _)).
  assert (IU : memb b U = true) by (apply memb_In, T1; now apply (needs_b d T)).
  assert (E' : obind (changed (reedge (fst s) c b (kept c) (mk TAIL))) (fun s' => Ret (true, s')) = Ret x).
  { rewrite EU, IU in E. destruct (ind d c [a; b]); exact E. }
  apply obind_inv in E'. destruct E' as (s' & E1 & [= <-]). cbn [snd]. unfold arrow_at in Abc.
  assert (N : gm (fst s) c b <> 0) by (rewrite Abc; lia).
  destruct (reedge_left n _ HM c b TAIL Hc Hb N mkT) as (g' & Eg & M' & MK); [intros [Q _]; lia|]. rewrite Eg in E1. injection E1 as <-. cbn [ev] in MK.
  assert (NB : gm (fst s) b c <> 1) by (intros Q; apply (proj1 (HSo c b Hc Hb) Q); apply reach_one, r4_bc).
  assert (NZ : gm (fst s) b c <> 0) by (intros Q; apply (mx_zero n _ HM) in Q; auto).
  assert (C : gm (fst s) b c = -1 \/ gm (fst s) b c = 2) by (pose proof (mx_codes n _ HM b c Hb Hc); lia).
  split; cbn [fst].
  - apply (mark_keep n D g0 (fst s) g' c b (gm (fst s) c b) (-1) K Hc Hb (fun e => Nbc (eq_sym e)) M' MK); [now left| |rewrite Abc; discriminate|intros _; exact Abc].
    destruct C as [C|C]; [now left|right; split; [exact C|right; split; [reflexivity|apply reach_one, r4_bc]]].
  - intros u v Hu Hv A. destruct HS as [_ F]. specialize (F u v Hu Hv A). revert F.
    apply (fills_arrows n); auto. apply (marked_fills n (fst s) g' c b (gm (fst s) c b) (-1) HM Hc Hb (fun e => Nbc (eq_sym e)) MK); [now left|destruct C; auto].
Qed.
(** No node behind a's own predecessors can be a collider. *)
Definition dback (prev : prevmap) (V Q : list nat) : Prop :=
  prev a = Some b /\ prev b = None /\ In a V /\ In b V /\ incl Q V /\ ~ In b Q /\
  forall v, In v V -> (v < n)%nat /\ (v = b \/ v = a \/ exists p, (p < n)%nat /\ prev v = Some p /\ arrow_at (fst s) v p).
Definition dok (x : st + (st * prevmap * list nat * list nat)) : Prop :=
  match x with inl s' => since s1 s' | inr (s', prev, V, Q) => s' = s /\ dback prev V Q end.
Lemma inner_keep fuel t cpar x d y : t <> b -> (d < n)%nat -> dok x -> (forall s' prev V Q, x = inr (s', prev, V, Q) -> In t V) ->
  ddp_inner ind forb fuel a b c t cpar sep x d = Ret y -> dok y /\ (forall s' prev V Q, y = inr (s', prev, V, Q) -> In t V).
Proof.
  intros Nt Hd HX HtV E. destruct x as [s'|(((s', prev), V), Q)]; cbn [ddp_inner] in E; [injection E as <-; split; [exact HX|discriminate]|].
  specialize (HtV _ _ _ _ eq_refl). destruct HX as [-> HB]. destruct (memb d V) eqn:MV; [injection E as <-; split; [split; auto|intros ? ? ? ? [= <- <- <- <-]; exact HtV]|].
  apply memb_not_In in MV. pose proof HB as (B1 & B2 & B3 & B4 & B5 & B6 & B7). destruct (prev t) as [p|] eqn:Ep; [|discriminate].
  assert (Nda : d <> a) by (intros ->; contradiction). assert (Ndb : d <> b) by (intros ->; contradiction).
  set (prev' := pset prev d t) in *.
  assert (OLD : forall v, v <> d -> prev' v = prev v) by (intros v N; unfold prev', pset; now rewrite (proj2 (Nat.eqb_neq v d))).
  assert (HB' : dback prev' V Q).
  { unfold dback. rewrite !OLD by congruence. do 6 (split; [assumption|]). intros v Hv. destruct (B7 v Hv) as [Hvn H]. split; [exact Hvn|]. destruct H as [->|[->|(q & Q1 & Q2 & Q3)]]; auto.
    right; right. exists q. rewrite OLD by (intros ->; contradiction). auto. }
  destruct (negb (def_coll (fst s) d t p)) eqn:EC; [injection E as <-; split; [split; auto|intros ? ? ? ? [= <- <- <- <-]; exact HtV]|]. cbn zeta in E.
  pose proof r4_K as K. pose proof K as (HM & _ & (HSo & _) & _). apply negb_false_iff in EC. destruct (B7 t HtV) as [Ht Hp].
  assert (Hpn : (p < n)%nat). { destruct Hp as [->|[->|(q & Q1 & Q2 & Q3)]]; [congruence|assert (p = b) by congruence; subst; exact Hb|]. assert (q = p) by congruence. now subst. }
  apply (coll_iff n _ HM) in EC; auto. destruct EC as [EC1 EC2].
  destruct Hp as [->|[->|(q & Q1 & Q2 & Q3)]]; [congruence| |].
  2:{ exfalso. assert (q = p) by congruence. subst q. apply (proj1 (HSo t p Ht Hpn) Q3). apply reach_one. exact (edge_of _ _ _ K Hpn Ht EC2). }
  assert (p = b) by congruence. subst p.
  assert (HBm : dback prev' (V ++ [d]) (Q ++ [d])).
  { destruct HB' as (C1 & C2 & C3 & C4 & C5 & C6 & C7). unfold dback. do 2 (split; [assumption|]). split; [apply in_or_app; now left|]. split; [apply in_or_app; now left|].
    split; [intros z Hz; apply in_app_or in Hz; apply in_or_app; destruct Hz as [Hz|Hz]; [left; auto|now right]|]. split; [intros Q0; apply in_app_or in Q0; destruct Q0 as [Q0|[Q0|[]]]; [contradiction|congruence]|].
    intros v Hv. apply in_app_or in Hv. destruct Hv as [Hv|[<-|[]]]; [auto|]. split; [exact Hd|]. right; right. exists a. split; [exact Ha|]. split; [unfold prev', pset; now rewrite Nat.eqb_refl|exact EC1]. }
  assert (MORE : forall z, (if memb d cpar then inr (s, prev', V ++ [d], Q ++ [d]) else inr (s, prev', V, Q)) = z -> dok z /\ (forall s' p0 V0 Q0, z = inr (s', p0, V0, Q0) -> In a V0)).
  { intros z <-. destruct (memb d cpar); (split; [split; auto|intros ? ? ? ? [= <- <- <- <-]; auto]). apply in_or_app. now left. }
  destruct (negb (is_adjacent_to (fst s) d c) && negb (Nat.eqb d c)) eqn:EG; [|injection E as E; now apply MORE].
  apply andb_true_iff in EG. destruct EG as [_ EG]. apply negb_true_iff, Nat.eqb_neq in EG.
  apply obind_inv in E. destruct E as ((r, s') & E1 & E2).
  pose proof (orientation_keep fuel d prev' (r, s') Hd EC1 Ndb EG) as OK. unfold prev' in OK at 1 2 3. fold prev' in OK.
  assert (P1 : prev' d = Some a) by (unfold prev', pset; now rewrite Nat.eqb_refl).
  specialize (OK P1). rewrite !(OLD a), !(OLD b) in OK by congruence. specialize (OK B1 B2 E1). cbn [snd fst] in *.
  destruct r; [injection E2 as <-; split; [exact OK|discriminate]|]. injection E2 as E2.
  assert (SS : s' = s).
  { unfold ddp_orientation in E1. cbn zeta in E1. destruct (is_adjacent_to (fst s) d c); [discriminate|]. destruct (prev' d); [|discriminate]. apply obind_inv in E1. destruct E1 as (pa & _ & E1).
    destruct (lremove1 b pa) as [p2|]; [|discriminate]. match type of E1 with match ?o with _ => _ end = _ => destruct o as [[]|] end.
    - apply obind_inv in E1. destruct E1 as (? & _ & E1). discriminate.
    - destruct (_ && _); [apply obind_inv in E1; destruct E1 as (? & _ & E1); discriminate|now injection E1].
    - now injection E1. }
  subst s'. now apply MORE.
Qed.
Lemma loop_keep cpar : forall fuel prev V Q s', dback prev V Q -> ddp_loop ind forb fuel a b c cpar sep s prev V Q = Ret s' -> since s1 s'.
Proof.
  induction fuel as [|f IH]; intros prev V Q s' HB E; [destruct Q; [injection E as <-; exact HS|discriminate]|]. destruct Q as [|t Q]; cbn [ddp_loop] in E; [injection E as <-; exact HS|].
  pose proof HB as (B1 & B2 & B3 & B4 & B5 & B6 & B7). assert (HtV : In t V) by (apply B5; now left).
  assert (Nt : t <> b) by (intros ->; apply B6; now left).
  apply obind_inv in E. destruct E as (x & E1 & E2).
  assert (HB' : dback prev V Q). { unfold dback. do 4 (split; [assumption|]). split; [intros z Hz; apply B5; now right|]. split; [intros Q0; apply B6; now right|assumption]. }
  pose proof r4_K as (HM & _). destruct (B7 t HtV) as [Ht _].
  assert (HX : dok x /\ (forall s' p0 V0 Q0, x = inr (s', p0, V0, Q0) -> In t V0)).
  { revert E1. apply (foldO_keep _ (fun x => dok x /\ (forall s' p0 V0 Q0, x = inr (s', p0, V0, Q0) -> In t V0))).
    - split; [split; auto|]. intros ? ? ? ? [= <- <- <- <-]. exact HtV.
    - intros z d z' Hd [Hz1 Hz2] Ez. apply (in_into n _ HM) in Hd; [|apply mkA|exact Ht]. destruct Hd as [Hd _]. exact (inner_keep (Datatypes.S f) t cpar z d z' Nt Hd Hz1 Hz2 Ez). }
  destruct HX as [HX _]. destruct x as [s2|(((s2, p2), V2), Q2)]; [injection E2 as <-; exact HX|]. destruct HX as [-> HX].
  exact (IH p2 V2 Q2 s' HX E2).
Qed.
End R4.
Lemma R4_keep fuel mpl s s' : keep g0 (fst s) -> ruleR4B ind forb fuel mpl sep s = Ret s' -> keep g0 (fst s').
Proof.
  intros K E. unfold ruleR4B in E. revert E. rewrite (mx_n _ _ (proj1 K)). apply (foldO_keep _ (fun s => keep g0 (fst s))); [exact K|]. clear s s' K.
  intros s1 b s2 Hb K. apply in_seq0 in Hb. pose proof K as (HM & _). unfold r4_node. cbn zeta.
  assert (HL : forall a, In a (get_nodes_out_of (fst s1) b ARROW) -> (a < n)%nat /\ arrow_at (fst s1) b a) by (intros a H; apply (in_out n _ HM) in H; [exact H|apply mkA|exact Hb]).
  assert (HC : forall c, In c (get_nodes_into (fst s1) b CIRCLE) -> (c < n)%nat) by (intros c H; apply (in_into n _ HM) in H; [tauto|apply mkC|exact Hb]).
  revert HL HC. generalize (get_nodes_out_of (fst s1) b ARROW) as la. generalize (get_nodes_into (fst s1) b CIRCLE) as lc. intros lc la HL HC E. refine (proj1 (_ : since s1 s2)). revert E.
  apply (foldO_keep _ (since s1)); [now apply since_refl|]. intros s3 a s4 Hin H3. destruct (HL a Hin) as [Ha A]. apply (foldO_keep _ (since s1)); [exact H3|].
  intros s5 c s6 Hcin H5 E. apply HC in Hcin. destruct (is_parent_of (fst s5) a c && epis (fst s5) b c ARROW) eqn:G; [|injection E as <-; exact H5].
  apply andb_true_iff in G. destruct G as [G1 G2]. pose proof H5 as [K5 F5]. pose proof K5 as (M5 & _). apply (epis_iff n _ M5) in G2; [|apply mkA|exact Hb|exact Hcin].
  assert (Aac : arrow_at (fst s5) a c). { unfold is_parent_of in G1. pose proof (mx_codes n _ M5 a c Ha Hcin). apply orb_true_iff in G1. rewrite andb_true_iff, !Z.eqb_eq in G1. unfold arrow_at. lia. }
  pose proof (F5 b a Hb Ha A) as Aba. unfold ddp_orient in E. destruct (1 >? _); [injection E as <-; exact H5|].
  pose proof (dneq b a (edge_of _ _ _ K5 Hb Ha Aba)) as Nba.
  refine (loop_keep a b c s1 s5 Ha Hb Hcin H5 Aba Aac G2 _ fuel _ _ _ s6 _ E). unfold dback, pset. rewrite Nat.eqb_refl, (proj2 (Nat.eqb_neq b a)) by congruence.
  do 2 (split; [reflexivity|]). split; [now left|]. split; [right; now left|]. split; [intros z [<-|[]]; now left|]. split; [intros [Q|[]]; congruence|].
  intros v [<-|[<-|[]]]; auto.
Qed.
End Suff.
