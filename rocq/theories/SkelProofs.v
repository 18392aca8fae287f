(** Lemmas about the skeleton search. *)
From Coq Require Import Permutation.
From Verif Require Import Base EdgeModel EdgeProofs GraphModel GraphSpec GraphProofs RankLib UtilsModel UtilsProofs
  DsepSpec DsepProofs MeekSpec MeekProofs PdagProofs CpdagModel CpdagProofs CpdagMain SkelModel.
Local Open Scope Z_scope.

(** * Combinations *)
Lemma combs_0 l : combs 0 l = [[]].
Proof. now destruct l. Qed.
Lemma combs_in k : forall l T, In T (combs k l) -> length T = k /\ incl T l /\ (NoDup l -> NoDup T).
Proof.
  induction k as [|k IHk]; intros l T H.
  - rewrite combs_0 in H. destruct H as [<-|[]]. split; [reflexivity|]. split; [intros x []|constructor].
  - induction l as [|a l IHl]; [destruct H|]. cbn [combs] in H. apply in_app_iff in H. destruct H as [H|H].
    + apply in_map_iff in H. destruct H as (T' & <- & H). destruct (IHk _ _ H) as (H1 & H2 & H3).
      split; [cbn; now rewrite H1|]. split.
      * intros x [<-|Hx]; [now left|right; auto].
      * intros Hn. inversion Hn as [|? ? N D]; subst. constructor; auto.
    + destruct (IHl H) as (H1 & H2 & H3). split; [exact H1|]. split.
      * intros x Hx. right. auto.
      * intros Hn. inversion Hn; auto.
Qed.
Lemma combs_filter f : forall l, In (filter f l) (combs (length (filter f l)) l).
Proof.
  induction l as [|a l IH]; [now left|]. cbn [filter]. destruct (f a).
  - cbn [length]. cbn [combs]. apply in_app_iff. left. now apply in_map.
  - destruct (length (filter f l)) as [|k] eqn:E.
    + cbn. left. symmetry. now apply length_zero_iff_nil.
    + cbn [combs]. apply in_app_iff. now right.
Qed.
Lemma combs_sub f k : forall l T, In T (combs k (filter f l)) -> In T (combs k l).
Proof.
  induction k as [|k IHk]; intros l T H; [rewrite combs_0 in *; exact H|].
  induction l as [|a l IHl]; [exact H|]. cbn [filter] in H. cbn [combs]. apply in_app_iff. destruct (f a).
  - cbn [combs] in H. apply in_app_iff in H. destruct H as [H|H]; [left|right; auto].
    apply in_map_iff in H. destruct H as (T' & <- & H). apply in_map. auto.
  - right. auto.
Qed.
Lemma combs_short k l : (length l < k)%nat -> combs k l = [].
Proof.
  revert k. induction l as [|a l IH]; intros k Hk; destruct k as [|k]; cbn in *; try lia; [reflexivity|].
  rewrite !IH by lia. reflexivity.
Qed.
Lemma NoDup_len_filter (l T : list nat) : NoDup l -> NoDup T -> incl T l -> Permutation T (filter (fun x => memb x T) l).
Proof.
  intros Hl HT Hi. apply NoDup_Permutation; [exact HT|now apply NoDup_filter|].
  intros x. rewrite filter_In, memb_In. split; [|tauto]. intros Hx. split; [now apply Hi|exact Hx].
Qed.
(** Every set of the right size is tried, in some order. *)
Lemma combs_perm k l T : NoDup l -> NoDup T -> incl T l -> length T = k -> exists T', In T' (combs k l) /\ Permutation T T'.
Proof.
  intros Hl HT Hi Hk. pose proof (NoDup_len_filter l T Hl HT Hi) as HP.
  exists (filter (fun x => memb x T) l). split; [|exact HP].
  rewrite <- Hk, (Permutation_length HP). apply combs_filter.
Qed.
Lemma filter_filter {A} (f h : A -> bool) l : filter f (filter h l) = filter (fun x => h x && f x) l.
Proof. induction l as [|a l IH]; [reflexivity|]. cbn. destruct (h a); cbn; [destruct (f a)|]; now rewrite IH. Qed.
Lemma filter_ext_in' {A} (f h : A -> bool) l : (forall x, In x l -> f x = h x) -> filter f l = filter h l.
Proof. apply filter_ext_in. Qed.

Lemma filter_shorter {A} (f : A -> bool) x : forall l, In x l -> f x = false -> (length (filter f l) < length l)%nat.
Proof.
  assert (W : forall l, (length (filter f l) <= length l)%nat) by (induction l as [|a l IH]; cbn; [lia|]; destruct (f a); cbn; lia).
  induction l as [|a l IH]; [intros []|]; intros [-> |H] E; cbn; [rewrite E; pose proof (W l); lia|].
  specialize (IH H E). destruct (f a); cbn; lia.
Qed.
(** * Graphs with undirected edges only *)
Definition ug (g : ggraph) : Prop :=
  (forall a, (a < gn g)%nat -> gm g a a = 0) /\
  (forall a b, (a < gn g)%nat -> (b < gn g)%nat -> (gm g a b = 0 /\ gm g b a = 0) \/ (gm g a b = -1 /\ gm g b a = -1)).
Lemma ug_joined_sym g a b : ug g -> joined g a b -> joined g b a.
Proof. intros [_ H] (Ha & Hb & N). split; [exact Hb|]. split; [exact Ha|]. destruct (H a b Ha Hb); lia. Qed.
Lemma ug_joined_neq g a b : ug g -> joined g a b -> a <> b.
Proof. intros [H _] (Ha & Hb & N) ->. now rewrite H in N. Qed.
Lemma joined_dec g a b : {joined g a b} + {~ joined g a b}.
Proof.
  unfold joined. destruct (lt_dec a (gn g)); [|right; tauto]. destruct (lt_dec b (gn g)); [|right; tauto].
  destruct (Z.eq_dec (gm g a b) 0); [right; tauto|left; auto].
Qed.
Lemma in_neighbors g i j : (i < gn g)%nat -> In j (neighbors g i) <-> joined g i j.
Proof. intros Hi. unfold neighbors, joined. rewrite filter_In, in_seq0, negb_true_iff, Z.eqb_neq. tauto. Qed.
Lemma neighbors_nodup g i : NoDup (neighbors g i).
Proof. apply NoDup_filter, seq_NoDup. Qed.

Definition same_pair (a b x y : nat) : bool := (Nat.eqb a x && Nat.eqb b y) || (Nat.eqb a y && Nat.eqb b x).
Lemma same_pair_iff a b x y : same_pair a b x y = true <-> (a = x /\ b = y) \/ (a = y /\ b = x).
Proof. unfold same_pair. rewrite orb_true_iff, !andb_true_iff, !Nat.eqb_eq. tauto. Qed.
Lemma same_pair_sym a b x y : same_pair a b x y = same_pair b a x y.
Proof. unfold same_pair. rewrite orb_comm. f_equal; apply andb_comm. Qed.

Lemma rie_gm g x y : ug g -> (x < gn g)%nat -> (y < gn g)%nat ->
  gn (remove_if_exists g x y) = gn g /\
  forall a b, gm (remove_if_exists g x y) a b = if same_pair a b x y then 0 else gm g a b.
Proof.
  intros [Hd Hu] Hx Hy. unfold remove_if_exists.
  destruct (Hu x y Hx Hy) as [[E1 E2]|[E1 E2]].
  - unfold get_edge. rewrite E1. cbn. split; [reflexivity|]. intros a b.
    destruct (same_pair a b x y) eqn:E; [|reflexivity]. apply same_pair_iff in E. destruct E as [[-> ->]|[-> ->]]; assumption.
  - rewrite (get_edge_codes g x y TAIL TAIL) by (auto; discriminate).
    assert (Nxy : x <> y) by (intros ->; rewrite Hd in E1; [lia|assumption]).
    set (e := Edge x y TAIL TAIL).
    assert (HP := remove_edge_pair g e Nxy). cbn in HP. rewrite E1, E2 in HP.
    change (remove_pair (-1) (-1) (-1) (-1)) with (0, 0) in HP. injection HP as P1 P2.
    split; [apply remove_edge_gn|]. intros a b.
    destruct (same_pair a b x y) eqn:E.
    + apply same_pair_iff in E. destruct E as [[-> ->]|[-> ->]]; assumption.
    + apply not_true_iff_false in E. rewrite same_pair_iff in E. apply remove_edge_frame; cbn; tauto.
Qed.
Lemma ug_shrink g g' (f : nat -> nat -> bool) : ug g -> gn g' = gn g -> (forall a b, f a b = f b a) ->
  (forall a b, gm g' a b = if f a b then 0 else gm g a b) -> ug g'.
Proof.
  intros [Hd Hu] Hn Hf Hg. split.
  - intros a Ha. rewrite Hn in Ha. rewrite Hg, Hd by exact Ha. now destruct (f a a).
  - intros a b Ha Hb. rewrite Hn in *. rewrite !Hg, (Hf b a). destruct (f a b); [auto|]. now apply Hu.
Qed.
Lemma rie_ug g x y : ug g -> (x < gn g)%nat -> (y < gn g)%nat -> ug (remove_if_exists g x y).
Proof.
  intros Hu Hx Hy. destruct (rie_gm g x y Hu Hx Hy) as [Hn Hg].
  apply (ug_shrink g _ (fun a b => same_pair a b x y)); auto. intros. apply same_pair_sym.
Qed.
Lemma rie2_gm g x y : ug g -> (x < gn g)%nat -> (y < gn g)%nat ->
  let g' := remove_if_exists (remove_if_exists g x y) y x in
  ug g' /\ gn g' = gn g /\ forall a b, gm g' a b = if same_pair a b x y then 0 else gm g a b.
Proof.
  intros Hu Hx Hy g'. destruct (rie_gm g x y Hu Hx Hy) as [Hn Hg]. pose proof (rie_ug g x y Hu Hx Hy) as Hu'.
  assert (Hx' : (x < gn (remove_if_exists g x y))%nat) by now rewrite Hn.
  assert (Hy' : (y < gn (remove_if_exists g x y))%nat) by now rewrite Hn.
  destruct (rie_gm _ y x Hu' Hy' Hx') as [Hn' Hg']. split; [now apply rie_ug|]. split; [unfold g'; congruence|].
  intros a b. unfold g'. rewrite Hg', Hg.
  assert (same_pair a b y x = same_pair a b x y) as -> by (unfold same_pair; apply orb_comm).
  now destruct (same_pair a b x y).
Qed.

Lemma complete_rows n : complete_graph n =
  cp_build n (map (fun e => (e, -1)) (flat_map (fun i => map (pair i) (seq (S i) (n - S i))) (seq 0 n))).
Proof.
  unfold complete_graph, cp_build. rewrite map_map. unfold cp_edge. cbn [fst snd]. change (-1 =? 1) with false. cbv iota.
  generalize (empty_graph n). induction (seq 0 n) as [|i l IH]; intros g; [reflexivity|].
  cbn [flat_map fold_left]. rewrite map_app, fold_left_app, map_map. cbn [fst snd]. rewrite IH. f_equal.
  clear. revert g. induction (seq (S i) (n - S i)) as [|j l IH]; intros g; [reflexivity|]. cbn [map fold_left]. apply IH.
Qed.
Lemma complete_spec n : gn (complete_graph n) = n /\ ug (complete_graph n) /\
  forall a b, joined (complete_graph n) a b <-> (a < n)%nat /\ (b < n)%nat /\ a <> b.
Proof.
  rewrite complete_rows. set (P := flat_map (fun i => map (pair i) (seq (S i) (n - S i))) (seq 0 n)).
  assert (HP : forall a b, In (a, b) P <-> (a < b < n)%nat).
  { intros a b. unfold P. rewrite in_flat_map. split.
    - intros (i & Hi & H). apply in_map_iff in H. destruct H as (j & E & Hj). injection E as <- <-. rewrite in_seq in Hj. lia.
    - intros H. exists a. split; [apply in_seq0; lia|]. apply in_map, in_seq. lia. }
  assert (Hfst : map fst (map (fun e : nat * nat => (e, -1)) P) = P) by (rewrite map_map; cbn; apply map_id).
  destruct (cp_build_spec n (map (fun e => (e, -1)) P)) as (C1 & C2 & _ & C4 & C5).
  - rewrite Hfst. unfold P. assert (Ds : NoDup (seq 0 n)) by apply seq_NoDup.
    clear HP Hfst. clear P. induction Ds as [|i l N _ IH]; [constructor|].
    cbn [flat_map]. apply NoDup_app_intro; [|exact IH|].
    + apply FinFun.Injective_map_NoDup; [intros a b E; now injection E|]. apply seq_NoDup.
    + intros [a b] H1 H2. apply in_map_iff in H1. destruct H1 as (j & E & _). injection E as <- <-.
      apply in_flat_map in H2. destruct H2 as (i' & Hi' & H2). apply in_map_iff in H2. destruct H2 as (j' & E & _).
      injection E as <- <-. contradiction.
  - rewrite Hfst. intros a b H. rewrite HP in *. lia.
  - set (C := cp_build n (map (fun e => (e, -1)) P)) in *. rewrite Hfst in C5.
    assert (Hval : forall a b, (a < n)%nat -> (b < n)%nat -> gm C a b = if Nat.eqb a b then 0 else -1).
    { intros a b Ha Hb. destruct (Nat.eqb_spec a b) as [->|N].
      - apply C5; rewrite HP; lia.
      - destruct (lt_dec a b).
        + apply (C4 a b (-1)); [|lia]. apply in_map_iff. exists (a, b). split; [reflexivity|]. apply HP. lia.
        + apply (C4 b a (-1)); [|lia]. apply in_map_iff. exists (b, a). split; [reflexivity|]. apply HP. lia. }
    split; [exact C1|]. split.
    + split.
      * intros a Ha. rewrite C1 in Ha. rewrite Hval, Nat.eqb_refl by assumption. reflexivity.
      * intros a b Ha Hb. rewrite C1 in *. rewrite !Hval, (Nat.eqb_sym b a) by assumption. destruct (Nat.eqb a b); auto.
    + intros a b. unfold joined. rewrite C1. split.
      * intros (Ha & Hb & N). rewrite Hval in N by assumption. destruct (Nat.eqb_spec a b); [congruence|auto].
      * intros (Ha & Hb & N). split; [exact Ha|]. split; [exact Hb|]. rewrite Hval by assumption.
        destruct (Nat.eqb_spec a b); [congruence|lia].
Qed.

(** * Updating the records *)
Lemma upd_f_same {A} (f : nat -> nat -> A) i j v : upd_f f i j v i j = v.
Proof. unfold upd_f. now rewrite !Nat.eqb_refl. Qed.
Lemma upd_f_other {A} (f : nat -> nat -> A) i j v a b : ~ (a = i /\ b = j) -> upd_f f i j v a b = f a b.
Proof. intros H. unfold upd_f. destruct (Nat.eqb_spec a i), (Nat.eqb_spec b j); cbn; try reflexivity. tauto. Qed.
Lemma append_both_xy s x y v : x <> y -> append_both s x y v x y = s x y ++ [v].
Proof. intros N. unfold append_both. rewrite upd_f_other by (intros [? ?]; lia). apply upd_f_same. Qed.
Lemma append_both_yx s x y v : x <> y -> append_both s x y v y x = s y x ++ [v].
Proof. intros N. unfold append_both. rewrite upd_f_same, upd_f_other by (intros [? ?]; lia). reflexivity. Qed.
Lemma append_both_other s x y v a b : same_pair a b x y = false -> append_both s x y v a b = s a b.
Proof.
  intros H. apply not_true_iff_false in H. rewrite same_pair_iff in H. unfold append_both.
  rewrite !upd_f_other by tauto. reflexivity.
Qed.
Lemma set_both_xy d x y v : set_both d x y v x y = Some v /\ set_both d x y v y x = Some v.
Proof.
  unfold set_both. split; [|apply upd_f_same]. destruct (Nat.eq_dec x y) as [->|N]; [apply upd_f_same|].
  rewrite upd_f_other by (intros [? ?]; lia). apply upd_f_same.
Qed.
Lemma set_both_other d x y v a b : same_pair a b x y = false -> set_both d x y v a b = d a b.
Proof.
  intros H. apply not_true_iff_false in H. rewrite same_pair_iff in H. unfold set_both. rewrite !upd_f_other by tauto. reflexivity.
Qed.


(** * One pass *)
Section Pass.
Variable ind : nat -> nat -> list nat -> bool.
Variable ban : nat -> nat -> bool.
Variable fasm : bool.
Variable n : nat.

(** A legitimate conditioning set for the pair. *)
Definition cset (a b : nat) (T : list nat) : Prop := NoDup T /\ forall z, In z T -> (z < n)%nat /\ z <> a /\ z <> b.
Lemma cset_sym a b T : cset a b T -> cset b a T.
Proof. intros [H1 H2]. split; [exact H1|]. intros z Hz. destruct (H2 z Hz) as (? & ? & ?). auto. Qed.
(** [T] is a reason for dropping a - b. *)
Definition reason (a b : nat) (T : list nat) : Prop :=
  (T = [] /\ (ban a b = true \/ ban b a = true)) \/ (cset a b T /\ (ind a b T = true \/ ind b a T = true)).
Lemma reason_sym a b T : reason a b T -> reason b a T.
Proof. intros [[H1 H2]|[H1 H2]]; [left; tauto|right]. split; [now apply cset_sym|tauto]. Qed.

Definition others (neigh : list nat) (y : nat) : list nat := filter (fun z => negb (Nat.eqb z y)) neigh.
Definition hits (depth x : nat) (neigh : list nat) (y : nat) : bool := existsb (ind x y) (combs depth (others neigh y)).
Lemma hits_reason depth x g y : ug g -> gn g = n -> (x < n)%nat -> hits depth x (neighbors g x) y = true ->
  exists T, cset x y T /\ ind x y T = true /\ length T = depth.
Proof.
  intros Hu Hn Hx H. unfold hits in H. apply existsb_exists in H. destruct H as (T & HT & Hi).
  exists T. destruct (combs_in _ _ _ HT) as (H1 & H2 & H3). split; [|auto]. split.
  - apply H3. apply NoDup_filter, neighbors_nodup.
  - intros z Hz. apply H2 in Hz. unfold others in Hz. rewrite filter_In, negb_true_iff, Nat.eqb_neq in Hz.
    destruct Hz as [Hz Nz]. apply in_neighbors in Hz; [|now rewrite Hn].
    pose proof (ug_joined_neq g x z Hu Hz). destruct Hz as (_ & Hz & _). rewrite Hn in Hz. auto.
Qed.

(** ** Immediate removal (stable = False) *)
Definition recorded (st : sk) (a b : nat) : Prop :=
  exists T, reason a b T /\
    (fasm = false -> (skS st a b = [T; []] /\ skS st b a = [T; []]) \/ ((ban a b = true \/ ban b a = true) /\ skS st a b = [[]] /\ skS st b a = [[]])) /\
    (fasm = true -> skD st a b = Some T /\ skD st b a = Some T).
Definition fresh (st : sk) (a b : nat) : Prop :=
  (fasm = false -> skS st a b = [] /\ skS st b a = []) /\ (skD st a b = None /\ skD st b a = None).
Definition NI (st : sk) : Prop :=
  gn (skG st) = n /\ ug (skG st) /\ skR st = [] /\
  (forall a b, (a < n)%nat -> (b < n)%nat -> a <> b ->
     if joined_dec (skG st) a b then fresh st a b else recorded st a b).

Lemma s_loop_now x y : forall Ss st seps, s_loop ind false fasm x y Ss st seps =
  match find (ind x y) Ss with Some T => (removed_now fasm st x y T, seps) | None => (st, seps) end.
Proof. induction Ss as [|T Ss IH]; intros st seps; cbn; [reflexivity|]. destruct (ind x y T); auto. Qed.

(** Removing x - y with a recorded reason keeps the invariant up to the trailing empty entry. *)
Lemma removed_now_other st x y T a b : ug (skG st) -> gn (skG st) = n -> (x < n)%nat -> (y < n)%nat ->
  same_pair a b x y = false ->
  let st' := removed_now fasm st x y T in
  gm (skG st') a b = gm (skG st) a b /\ skS st' a b = skS st a b /\ skD st' a b = skD st a b.
Proof.
  intros Hu Hn Hx Hy E st'. unfold st', removed_now. cbn [skG skS skD].
  assert (Hx' : (x < gn (skG st))%nat) by now rewrite Hn. assert (Hy' : (y < gn (skG st))%nat) by now rewrite Hn.
  destruct (rie2_gm (skG st) x y Hu Hx' Hy') as (_ & _ & Hg). rewrite Hg, E. rewrite append_both_other by exact E.
  split; [reflexivity|]. split; [reflexivity|]. destruct fasm; [now apply set_both_other|reflexivity].
Qed.

Definition cut_gm (g g' : ggraph) (x : nat) (cut : list nat) : Prop :=
  forall a b, gm g' a b = if (Nat.eqb a x && memb b cut) || (Nat.eqb b x && memb a cut) then 0 else gm g a b.

Lemma NI_frame st st' x y : NI st -> gn (skG st') = n -> ug (skG st') -> skR st' = [] -> (x < n)%nat -> (y < n)%nat -> x <> y ->
  (forall a b, same_pair a b x y = false -> gm (skG st') a b = gm (skG st) a b /\ skS st' a b = skS st a b /\ skD st' a b = skD st a b) ->
  ~ joined (skG st') x y -> recorded st' x y -> NI st'.
Proof.
  intros (I1 & I2 & I3 & I4) Hn Hu HR Hx Hy N Ho NJ Hrec. split; [exact Hn|]. split; [exact Hu|]. split; [exact HR|].
  intros a b Ha Hb Nab. destruct (same_pair a b x y) eqn:E.
  - apply same_pair_iff in E.
    assert (NJ' : ~ joined (skG st') a b).
    { destruct E as [[-> ->]|[-> ->]]; [exact NJ|]. intros HJ. apply NJ. now apply ug_joined_sym. }
    destruct (joined_dec (skG st') a b); [contradiction|].
    destruct E as [[-> ->]|[-> ->]]; [exact Hrec|].
    destruct Hrec as (T & R1 & R2 & R3). exists T. split; [now apply reason_sym|]. split.
    + intros Hf. destruct (R2 Hf) as [[? ?]|(? & ? & ?)]; [auto|right; tauto].
    + intros Hf. destruct (R3 Hf). auto.
  - assert (E' : same_pair b a x y = false) by (rewrite same_pair_sym; exact E).
    specialize (I4 a b Ha Hb Nab). destruct (Ho a b E) as (G1 & S1 & D1), (Ho b a E') as (G2 & S2 & D2).
    assert (HJ : joined (skG st') a b <-> joined (skG st) a b) by (unfold joined; rewrite Hn, I1, G1; reflexivity).
    destruct (joined_dec (skG st') a b) as [J|J], (joined_dec (skG st) a b) as [J'|J']; try tauto.
    + unfold fresh in *. now rewrite S1, S2, D1, D2.
    + unfold recorded in *. now rewrite S1, S2, D1, D2.
Qed.

Lemma y_loop_now depth x neigh : (x < n)%nat -> (forall z, In z neigh -> (z < n)%nat /\ z <> x) -> NoDup neigh ->
  forall ys st, NI st -> NoDup ys -> (forall y, In y ys -> joined (skG st) x y) ->
  let st' := y_loop ind ban false fasm depth x neigh ys st in
  NI st' /\ exists cut, cut_gm (skG st) (skG st') x cut /\ incl cut ys /\
    ((forall y, In y ys -> ban x y = false) -> forall y, In y ys -> hits depth x neigh y = true -> In y cut).
Proof.
  intros Hx Hneigh Hnd. induction ys as [|y ys IH]; intros st HI Hys Hj st'.
  - split; [exact HI|]. exists []. split; [|split; [intros z []|intros _ z []]].
    intros a b. cbn. now rewrite !andb_false_r.
  - pose proof (Hj y (or_introl eq_refl)) as HJ. pose proof HI as (I1 & I2 & I3 & I4).
    assert (Nxy : x <> y) by (eapply ug_joined_neq; eauto).
    assert (Hy : (y < n)%nat) by (destruct HJ as (_ & H & _); now rewrite I1 in H).
    assert (Hx' : (x < gn (skG st))%nat) by now rewrite I1. assert (Hy' : (y < gn (skG st))%nat) by now rewrite I1.
    inversion Hys as [|? ? Ny Dys]; subst.
    destruct (rie2_gm (skG st) x y I2 Hx' Hy') as (Hu2 & Hn2 & Hg2).
    pose proof (I4 x y Hx Hy Nxy) as Hfr. destruct (joined_dec (skG st) x y) as [_|]; [|contradiction].
    destruct Hfr as [Hf1 Hf2].
    assert (Hcut1 : cut_gm (skG st) (remove_if_exists (remove_if_exists (skG st) x y) y x) x [y]).
    { intros a b. rewrite Hg2. unfold same_pair. unfold memb. cbn [existsb]. rewrite !orb_false_r.
      destruct (Nat.eqb a x), (Nat.eqb b y), (Nat.eqb a y), (Nat.eqb b x); reflexivity. }
    assert (NJ2 : ~ joined (remove_if_exists (remove_if_exists (skG st) x y) y x) x y).
    { intros (_ & _ & N). rewrite Hg2 in N. assert (same_pair x y x y = true) as E by (apply same_pair_iff; auto). now rewrite E in N. }
    unfold st'. cbn [y_loop]. destruct (ban x y) eqn:EB; cbn [andb negb].
    + (* banned: remove and leave the loop *)
      split.
      * apply (NI_frame st _ x y HI); auto.
        -- cbn [removed_now skG]. congruence.
        -- intros a b E. now apply removed_now_other.
        -- exists []. split; [left; auto|]. unfold removed_now. cbn [skS skD]. split.
           ++ intros Hf. destruct (Hf1 Hf) as [S1 S2]. right. split; [auto|].
              rewrite append_both_xy, append_both_yx, S1, S2 by exact Nxy. auto.
           ++ intros ->. apply set_both_xy.
      * exists [y]. split; [exact Hcut1|]. split; [intros z [<-|[]]; now left|].
        intros Hb. specialize (Hb y (or_introl eq_refl)). congruence.
    + rewrite s_loop_now. destruct (find (ind x y) (combs depth (filter (fun z => negb (Nat.eqb z y)) neigh))) as [T|] eqn:EF.
      * (* separated by T *)
        apply find_some in EF. destruct EF as [HT Hi].
        assert (HR : cset x y T).
        { destruct (combs_in _ _ _ HT) as (_ & H2 & H3). split; [apply H3; now apply NoDup_filter|].
          intros z Hz. apply H2 in Hz. rewrite filter_In, negb_true_iff, Nat.eqb_neq in Hz. destruct Hz as [Hz ?].
          destruct (Hneigh z Hz). auto. }
        set (st2 := removed_now fasm st x y T).
        assert (Hge : get_edge (skG st2) x y = Ok None).
        { unfold get_edge, st2, removed_now. cbn [skG]. rewrite Hg2.
          assert (same_pair x y x y = true) as -> by (apply same_pair_iff; auto). reflexivity. }
        rewrite Hge. rewrite orb_true_r.
        set (st3 := mkSk (skG st2) (append_both (skS st2) x y []) (skR st2) (skD st2)).
        assert (HI3 : NI st3).
        { apply (NI_frame st _ x y HI); auto.
          - unfold st3, st2, removed_now. cbn [skG]. congruence.
          - intros a b E. destruct (removed_now_other st x y T a b I2 I1 Hx Hy E) as (K1 & K2 & K3).
            unfold st3. cbn [skG skS skD]. rewrite append_both_other by exact E. auto.
          - exists T. split; [right; auto|]. unfold st3, st2, removed_now. cbn [skS skD]. split.
            + intros Hf. destruct (Hf1 Hf) as [S1 S2]. left.
              rewrite !append_both_xy, !append_both_yx, S1, S2 by exact Nxy. auto.
            + intros ->. apply set_both_xy. }
        assert (Hj3 : forall z, In z ys -> joined (skG st3) x z).
        { intros z Hz. destruct (Hj z (or_intror Hz)) as (J1 & J2 & J3). unfold st3, st2, removed_now. cbn [skG].
          split; [now rewrite Hn2|]. split; [now rewrite Hn2|]. rewrite Hg2.
          destruct (same_pair x z x y) eqn:E; [|exact J3]. apply same_pair_iff in E. exfalso. destruct E as [[_ ->]|[-> _]]; auto. }
        destruct (IH st3 HI3 Dys Hj3) as (R1 & cut & R2 & R3 & R4).
        split; [exact R1|]. exists (y :: cut). split; [|split].
        -- intros a b. rewrite R2. unfold st3, st2, removed_now. cbn [skG]. rewrite Hcut1.
           unfold memb. cbn [existsb]. rewrite !orb_false_r. fold (memb b cut). fold (memb a cut).
           destruct (Nat.eqb a x), (Nat.eqb b x), (Nat.eqb b y), (Nat.eqb a y), (memb b cut), (memb a cut); reflexivity.
        -- intros z [<-|Hz]; [now left|right; auto].
        -- intros Hb z [<-|Hz] Hh; [now left|]. right. apply R4; auto. intros w Hw. apply Hb. now right.
      * assert (Hge : exists e, get_edge (skG st) x y = Ok (Some e)).
        { destruct I2 as [_ Hu]. destruct HJ as (_ & _ & N). destruct (Hu x y Hx' Hy') as [[? _]|[E1 E2]]; [congruence|].
          rewrite (get_edge_codes _ x y TAIL TAIL) by (auto; discriminate). eauto. }
        destruct Hge as [e Hge]. rewrite Hge. rewrite I3. cbn [memp existsb]. rewrite !orb_false_r.
        set (st3 := if fasm then _ else _).
        assert (HI3 : NI st3 /\ skG st3 = skG st).
        { unfold st3. destruct fasm eqn:Ef; [|auto]. split; [|reflexivity].
          split; [exact I1|]. split; [exact I2|]. split; [reflexivity|]. intros a b Ha Hb Nab. cbn [skG].
          specialize (I4 a b Ha Hb Nab). destruct (joined_dec (skG st) a b).
          - destruct I4 as [_ I4]. split; [rewrite Ef; discriminate|exact I4].
          - destruct I4 as (T & Q1 & _ & Q3). exists T. split; [exact Q1|]. split; [rewrite Ef; discriminate|exact Q3]. }
        destruct HI3 as [HI3 HG3].
        destruct (IH st3 HI3 Dys) as (R1 & cut & R2 & R3 & R4).
        { intros z Hz. rewrite HG3. apply Hj. now right. }
        split; [exact R1|]. exists cut. rewrite HG3 in R2. split; [exact R2|]. split.
        -- intros z Hz. right. auto.
        -- intros Hb z [<-|Hz] Hh.
           ++ exfalso. unfold hits, others in Hh. apply existsb_exists in Hh. destruct Hh as (T & HT & Hi).
              pose proof (find_none _ _ EF T HT). congruence.
           ++ apply R4; auto. intros w Hw. apply Hb. now right.
Qed.

(** ** Subgraphs *)
Definition sub_graph (g' g : ggraph) : Prop := gn g' = gn g /\ forall a b, joined g' a b -> joined g a b.
Lemma sub_refl g : sub_graph g g.
Proof. split; auto. Qed.
Lemma sub_trans g1 g2 g3 : sub_graph g1 g2 -> sub_graph g2 g3 -> sub_graph g1 g3.
Proof. intros [H1 H2] [H3 H4]. split; [congruence|auto]. Qed.
Lemma sub_neighbors g' g x : sub_graph g' g -> (x < gn g)%nat ->
  neighbors g' x = filter (fun j => negb (gm g' x j =? 0)) (neighbors g x).
Proof.
  intros [Hn Hs] Hx. unfold neighbors. rewrite filter_filter, Hn. apply filter_ext_in. intros j Hj. rewrite in_seq0 in Hj.
  destruct (gm g' x j =? 0) eqn:E; [now rewrite andb_false_r|]. rewrite andb_true_r. cbn [negb]. symmetry.
  apply negb_true_iff. apply Z.eqb_neq. apply Z.eqb_neq in E.
  assert (J : joined g' x j) by (unfold joined; rewrite Hn; auto). now apply Hs in J as (_ & _ & J).
Qed.
Lemma others_filter f l y : others (filter f l) y = filter f (others l y).
Proof. unfold others. rewrite !filter_filter. apply filter_ext. intros a. apply andb_comm. Qed.
Lemma hits_filter depth x l y f : hits depth x l y = false -> hits depth x (filter f l) y = false.
Proof.
  unfold hits. intros H. apply not_true_iff_false. intros H'. apply existsb_exists in H'. destruct H' as (T & HT & Hi).
  rewrite others_filter in HT. apply combs_sub in HT. apply not_true_iff_false in H. apply H. apply existsb_exists. eauto.
Qed.
Definition clear (k : nat) (g : ggraph) : Prop := forall x y, joined g x y -> hits k x (neighbors g x) y = false.
Lemma clear_sub k g' g : sub_graph g' g -> clear k g -> clear k g'.
Proof.
  intros Hs Hc x y J. pose proof Hs as [Hn Hj].
  assert (Hx : (x < gn g)%nat) by (destruct J as (H & _); now rewrite Hn in H).
  rewrite (sub_neighbors g' g x Hs Hx). apply hits_filter. apply Hc. now apply Hj.
Qed.
Lemma others_len l y : In y l -> (length (others l y) < length l)%nat.
Proof.
  unfold others. intros H. apply filter_shorter with (x := y); [exact H|]. now rewrite Nat.eqb_refl.
Qed.
Lemma hits_len depth x g y : joined g x y -> hits depth x (neighbors g x) y = true -> Nat.ltb (length (neighbors g x)) (depth - 1) = false.
Proof.
  intros J H. apply Nat.ltb_ge. unfold hits in H. apply existsb_exists in H. destruct H as (T & HT & _).
  destruct (lt_dec (length (others (neighbors g x) y)) depth) as [L|L]; [rewrite combs_short in HT by exact L; destruct HT|].
  assert (Hin : In y (neighbors g x)) by (apply in_neighbors; [apply J|exact J]).
  pose proof (others_len _ _ Hin). lia.
Qed.

Lemma x_fold_now depth : forall xs st, NI st -> (forall x, In x xs -> (x < n)%nat) ->
  let st' := fold_left (x_step ind ban false fasm depth) xs st in
  NI st' /\ sub_graph (skG st') (skG st) /\
  ((forall a b, ban a b = false) -> forall x y, In x xs -> joined (skG st') x y -> hits depth x (neighbors (skG st') x) y = false).
Proof.
  induction xs as [|x xs IH]; intros st HI Hxs; cbn [fold_left].
  - split; [exact HI|]. split; [apply sub_refl|]. intros _ x y [].
  - assert (Hx : (x < n)%nat) by (apply Hxs; now left). pose proof HI as (I1 & I2 & I3 & I4).
    set (st1 := x_step ind ban false fasm depth st x).
    assert (H1 : NI st1 /\ sub_graph (skG st1) (skG st) /\
      ((forall a b, ban a b = false) -> forall y, joined (skG st1) x y -> hits depth x (neighbors (skG st1) x) y = false)).
    { unfold st1, x_step. destruct (Nat.ltb (length (neighbors (skG st) x)) (depth - 1)) eqn:EL.
      - split; [exact HI|]. split; [apply sub_refl|]. intros _ y J. apply not_true_iff_false. intros Hh.
        apply hits_len in Hh; [|exact J]. congruence.
      - set (neigh := neighbors (skG st) x).
        assert (Hng : forall z, In z neigh -> joined (skG st) x z) by (intros z Hz; apply in_neighbors in Hz; [exact Hz|now rewrite I1]).
        destruct (y_loop_now depth x neigh Hx) with (ys := neigh) (st := st) as (R1 & cut & R2 & R3 & R4); auto.
        + intros z Hz. apply Hng in Hz. pose proof (ug_joined_neq _ _ _ I2 Hz). destruct Hz as (_ & Hz & _). rewrite I1 in Hz. auto.
        + apply neighbors_nodup.
        + apply neighbors_nodup.
        + set (st' := y_loop ind ban false fasm depth x neigh neigh st) in *. split; [exact R1|].
          assert (Hs : sub_graph (skG st') (skG st)).
          { split; [destruct R1 as (E & _); congruence|]. intros a b (Ja & Jb & Jn). destruct R1 as (E & _). rewrite E in *.
            split; [now rewrite I1|]. split; [now rewrite I1|]. intros E0. apply Jn. rewrite R2, E0. now destruct (_ || _). }
          split; [exact Hs|]. intros Hb y J. apply not_true_iff_false. intros Hh.
          assert (Hh0 : hits depth x neigh y = true).
          { apply not_false_iff_true. intros E. apply (hits_filter _ _ _ _ (fun j => negb (gm (skG st') x j =? 0))) in E.
            unfold neigh in E. rewrite <- sub_neighbors in E; [congruence|exact Hs|now rewrite I1]. }
          assert (Hy : In y neigh) by (apply in_neighbors; [now rewrite I1|now apply Hs]).
          specialize (R4 (fun y _ => Hb x y) y Hy Hh0). destruct J as (_ & _ & J). apply J. rewrite R2.
          apply memb_In in R4. rewrite Nat.eqb_refl, R4. reflexivity. }
    destruct H1 as (H1 & H2 & H3). destruct (IH st1 H1) as (R1 & R2 & R3); [intros z Hz; apply Hxs; now right|].
    split; [exact R1|]. split; [eapply sub_trans; eauto|]. intros Hb z y [<-|Hz] J; [|now apply R3].
    assert (Hx1 : (x < gn (skG st1))%nat) by (destruct H1 as (E & _); now rewrite E).
    rewrite (sub_neighbors _ _ x R2 Hx1). apply hits_filter. apply H3; [exact Hb|]. now apply R2.
Qed.
Lemma pass_now depth st : NI st ->
  let st' := sk_pass ind ban false fasm depth st in
  NI st' /\ sub_graph (skG st') (skG st) /\ ((forall a b, ban a b = false) -> clear depth (skG st')).
Proof.
  intros HI. pose proof HI as (I1 & I2 & I3 & I4). unfold sk_pass.
  assert (HI0 : NI (mkSk (skG st) (skS st) [] (skD st))) by (split; [exact I1|]; split; [exact I2|]; split; [reflexivity|]; exact I4).
  rewrite I1. destruct (x_fold_now depth (seq 0 n) _ HI0) as (R1 & R2 & R3); [intros x Hx; now apply in_seq0|].
  set (st1 := fold_left _ _ _) in *. pose proof R1 as (J1 & _ & J3 & _). rewrite J3. cbn [fold_left].
  split; [exact R1|]. split; [exact R2|]. intros Hb x y J. apply R3; auto. apply in_seq0. destruct J as (J & _). now rewrite J1 in J.
Qed.

(** ** Deferred removal (stable = True) *)
Definition hitp (depth : nat) (g : ggraph) (x y : nat) : bool :=
  negb (Nat.ltb (length (neighbors g x)) (depth - 1)) && (ban x y || hits depth x (neighbors g x) y).
Definition pairs (l : list (nat * nat)) (a b : nat) : bool := existsb (fun p => same_pair a b (fst p) (snd p)) l.
Lemma pairs_app l1 l2 a b : pairs (l1 ++ l2) a b = pairs l1 a b || pairs l2 a b.
Proof. unfold pairs. apply existsb_app. Qed.
Lemma s_loop_stable x y : forall Ss st seps, let r := s_loop ind true fasm x y Ss st seps in
  skG (fst r) = skG st /\ skD (fst r) = skD st /\ skS (fst r) = skS st /\
  (exists R, skR (fst r) = skR st ++ R /\ (forall p, In p R <-> existsb (ind x y) Ss = true /\ (p = (x, y) \/ p = (y, x)))) /\
  snd r = fold_left add_all (filter (ind x y) Ss) seps.
Proof.
  induction Ss as [|T Ss IH]; intros st seps; cbn [s_loop existsb filter].
  - cbn. repeat split. exists []. split; [now rewrite app_nil_r|]. intros p. cbn. intuition discriminate.
  - destruct (ind x y T) eqn:E.
    + destruct (IH (to_remove st x y) (add_all seps T)) as (R1 & R2 & R3 & (R & R4 & R5) & R6).
      split; [exact R1|]. split; [exact R2|]. split; [exact R3|]. split.
      * exists ([(x, y); (y, x)] ++ R). split; [rewrite R4; unfold to_remove; cbn [skR]; now rewrite app_assoc|].
        intros p. rewrite in_app_iff, R5. cbn [orb In]. intuition auto.
      * cbn [fold_left]. exact R6.
    + cbn [orb]. apply IH.
Qed.
Lemma y_loop_stable depth x neigh : forall ys st,
  let st' := y_loop ind ban true fasm depth x neigh ys st in
  skG st' = skG st /\ skD st' = skD st /\
  exists R, skR st' = skR st ++ R /\
    (forall p, In p R <-> exists y, In y ys /\ (ban x y || hits depth x neigh y = true) /\ (p = (x, y) \/ p = (y, x))).
Proof.
  induction ys as [|y ys IH]; intros st; cbn [y_loop].
  - split; [reflexivity|]. split; [reflexivity|]. exists []. split; [now rewrite app_nil_r|]. intros p. split; [intros []|intros (y & [] & _)].
  - rewrite andb_false_r. set (st1 := if ban x y then to_remove st x y else st).
    pose proof (s_loop_stable x y (combs depth (filter (fun z => negb (Nat.eqb z y)) neigh)) st1 []) as HS.
    destruct (s_loop _ _ _ _ _ _ _ _) as [st2 seps]. cbn [fst snd] in HS. destruct HS as (S1 & S2 & S3 & (R & S4 & S5) & S6).
    set (st3 := if fasm || memp x y (skR st2) || _ then _ else _).
    assert (H3 : skG st3 = skG st2 /\ skD st3 = skD st2 /\ skR st3 = skR st2) by (unfold st3; destruct (_ || _); auto).
    destruct H3 as (E1 & E2 & E3). destruct (IH st3) as (Q1 & Q2 & R' & Q3 & Q4).
    assert (H1 : skG st1 = skG st /\ skD st1 = skD st) by (unfold st1; destruct (ban x y); auto). destruct H1 as [F1 F2].
    split; [congruence|]. split; [congruence|].
    exists ((if ban x y then [(x, y); (y, x)] else []) ++ R ++ R'). split.
    + rewrite Q3, E3, S4. unfold st1. destruct (ban x y); cbn [to_remove skR]; now rewrite <- !app_assoc.
    + intros p. rewrite !in_app_iff, S5, Q4. fold (others neigh y). change (existsb (ind x y) (combs depth (others neigh y))) with (hits depth x neigh y).
      split.
      * intros [H|[[H1 H2]|(z & Hz & H1 & H2)]].
        -- exists y. destruct (ban x y) eqn:EB; [|destruct H]. split; [now left|]. split; [reflexivity|]. destruct H as [H|[H|[]]]; auto.
        -- exists y. split; [now left|]. rewrite H1, orb_true_r. auto.
        -- exists z. split; [now right|]. auto.
      * intros (z & [<-|Hz] & H1 & H2).
        -- destruct (ban x y); cbn [orb] in H1; [left; cbn; intuition auto|]. right. left. auto.
        -- right. right. eauto.
Qed.
Lemma x_fold_stable depth : forall xs st,
  let st' := fold_left (x_step ind ban true fasm depth) xs st in
  skG st' = skG st /\ skD st' = skD st /\
  exists R, skR st' = skR st ++ R /\
    (forall p, In p R <-> exists x y, In x xs /\ In y (neighbors (skG st) x) /\ hitp depth (skG st) x y = true /\ (p = (x, y) \/ p = (y, x))).
Proof.
  induction xs as [|x xs IH]; intros st; cbn [fold_left].
  - split; [reflexivity|]. split; [reflexivity|]. exists []. split; [now rewrite app_nil_r|]. intros p. split; [intros []|intros (x & y & [] & _)].
  - set (st1 := x_step ind ban true fasm depth st x).
    assert (H1 : skG st1 = skG st /\ skD st1 = skD st /\ exists R, skR st1 = skR st ++ R /\
       (forall p, In p R <-> exists y, In y (neighbors (skG st) x) /\ hitp depth (skG st) x y = true /\ (p = (x, y) \/ p = (y, x)))).
    { unfold st1, x_step, hitp. destruct (Nat.ltb (length (neighbors (skG st) x)) (depth - 1)) eqn:EL; cbn [negb andb].
      - split; [reflexivity|]. split; [reflexivity|]. exists []. split; [now rewrite app_nil_r|]. intros p. split; [intros []|intros (y & _ & E & _); discriminate].
      - apply y_loop_stable. }
    destruct H1 as (E1 & E2 & R1 & E3 & E4). destruct (IH st1) as (Q1 & Q2 & R2 & Q3 & Q4).
    split; [congruence|]. split; [congruence|]. exists (R1 ++ R2). split; [rewrite Q3, E3; now rewrite <- app_assoc|].
    intros p. rewrite in_app_iff, E4, Q4, E1. split.
    + intros [(y & H1 & H2 & H3)|(z & y & H1 & H2 & H3)]; [exists x, y|exists z, y]; cbn; auto.
    + intros (z & y & [<-|Hz] & H); [left; eauto|right; eauto].
Qed.
Lemma remove_all_gm : forall R st, ug (skG st) -> gn (skG st) = n -> (forall p, In p R -> (fst p < n)%nat /\ (snd p < n)%nat) ->
  let st' := fold_left (remove_step fasm) R st in
  ug (skG st') /\ gn (skG st') = n /\ skS st' = skS st /\ skR st' = skR st /\
  forall a b, gm (skG st') a b = if pairs R a b then 0 else gm (skG st) a b.
Proof.
  induction R as [|[x y] R IH]; intros st Hu Hn HR; cbn [fold_left].
  - cbn. auto.
  - destruct (HR (x, y) (or_introl eq_refl)) as [Hx Hy]. cbn [fst snd] in Hx, Hy. rewrite <- Hn in Hx, Hy.
    destruct (rie_gm (skG st) x y Hu Hx Hy) as [Gn Gm]. pose proof (rie_ug (skG st) x y Hu Hx Hy) as Hu'.
    set (st1 := remove_step fasm st (x, y)).
    assert (H1 : skG st1 = remove_if_exists (skG st) x y /\ skS st1 = skS st /\ skR st1 = skR st).
    { unfold st1, remove_step. destruct fasm; [destruct (skS st x y)|]; auto. }
    destruct H1 as (E1 & E2 & E3). destruct (IH st1) as (Q1 & Q2 & Q3 & Q4 & Q5).
    + now rewrite E1.
    + rewrite E1. congruence.
    + intros p Hp. apply HR. now right.
    + split; [exact Q1|]. split; [exact Q2|]. split; [congruence|]. split; [congruence|].
      intros a b. rewrite Q5, E1, Gm. unfold pairs. cbn [existsb fst snd]. destruct (same_pair a b x y); [now destruct (existsb _ R)|reflexivity].
Qed.
Lemma pass_stable depth st : ug (skG st) -> gn (skG st) = n ->
  let st' := sk_pass ind ban true fasm depth st in
  ug (skG st') /\ gn (skG st') = n /\
  forall a b, joined (skG st') a b <-> joined (skG st) a b /\ hitp depth (skG st) a b = false /\ hitp depth (skG st) b a = false.
Proof.
  intros Hu Hn. unfold sk_pass. rewrite Hn.
  destruct (x_fold_stable depth (seq 0 n) (mkSk (skG st) (skS st) [] (skD st))) as (E1 & E2 & R & E3 & E4).
  cbn [skG skD skR app] in E1, E2, E3, E4. set (st1 := fold_left (x_step _ _ _ _ _) _ _) in *. rewrite E3.
  destruct (remove_all_gm R st1) as (Q1 & Q2 & _ & _ & Q5).
  - now rewrite E1.
  - now rewrite E1.
  - intros p Hp. apply E4 in Hp. destruct Hp as (x & y & Hx & Hy & _ & HP). apply in_seq0 in Hx.
    apply in_neighbors in Hy; [|now rewrite Hn]. destruct Hy as (_ & Hy & _). rewrite Hn in Hy. destruct HP as [-> | ->]; auto.
  - split; [exact Q1|]. split; [exact Q2|]. intros a b. unfold joined at 1. rewrite Q2, Q5, E1.
    assert (Key : forall a b, joined (skG st) a b -> pairs R a b = hitp depth (skG st) a b || hitp depth (skG st) b a).
    { intros u v J. pose proof (ug_joined_sym _ _ _ Hu J) as J'. apply eq_true_iff_eq. unfold pairs. rewrite existsb_exists, orb_true_iff. split.
      - intros (p & Hp & Es). apply E4 in Hp. destruct Hp as (x & y & _ & _ & Hh & Hp). apply same_pair_iff in Es.
        destruct Hp as [-> | ->]; cbn [fst snd] in Es; destruct Es as [[-> ->]|[-> ->]]; auto.
      - intros [Hh|Hh]; [exists (u, v)|exists (v, u)]; (split; [apply E4|apply same_pair_iff; auto]).
        + exists u, v. pose proof J as (Ju & _). split; [apply in_seq0; now rewrite <- Hn|]. split; [now apply in_neighbors|auto].
        + exists v, u. pose proof J' as (Ju & _). split; [apply in_seq0; now rewrite <- Hn|]. split; [now apply in_neighbors|auto]. }
    split.
    + intros (Ha & Hb & N). assert (J : joined (skG st) a b).
      { unfold joined. rewrite Hn. split; [exact Ha|]. split; [exact Hb|]. intros E. apply N. rewrite E. now destruct (pairs R a b). }
      split; [exact J|]. rewrite (Key a b J) in N. destruct (hitp depth (skG st) a b), (hitp depth (skG st) b a); cbn in N; try congruence. auto.
    + intros (J & H1 & H2). pose proof J as (Ja & Jb & Jn). rewrite Hn in *. split; [exact Ja|]. split; [exact Jb|].
      rewrite (Key a b J), H1, H2. exact Jn.
Qed.
Lemma pass_stable_sub depth st : ug (skG st) -> gn (skG st) = n -> sub_graph (skG (sk_pass ind ban true fasm depth st)) (skG st).
Proof. intros Hu Hn. destruct (pass_stable depth st Hu Hn) as (_ & Q2 & Q3). split; [congruence|]. intros a b J. now apply Q3 in J as [? _]. Qed.
Lemma pass_stable_clear depth st : ug (skG st) -> gn (skG st) = n -> clear depth (skG (sk_pass ind ban true fasm depth st)).
Proof.
  intros Hu Hn x y J. pose proof (pass_stable_sub depth st Hu Hn) as Hs. destruct (pass_stable depth st Hu Hn) as (_ & Q2 & Q3).
  pose proof (proj1 (Q3 x y) J) as (J0 & H1 & _).
  assert (Hx : (x < gn (skG st))%nat) by apply J0.
  rewrite (sub_neighbors _ _ x Hs Hx). apply hits_filter. apply not_true_iff_false. intros Hh.
  unfold hitp in H1. rewrite Hh, orb_true_r, andb_true_r in H1. rewrite (hits_len _ _ _ _ J0 Hh) in H1. discriminate.
Qed.

(** ** The loop *)
Lemma max_degree_le g m : (max_degree g <= m)%nat <-> forall i, (i < gn g)%nat -> (length (neighbors g i) <= m)%nat.
Proof.
  unfold max_degree.
  assert (H : forall l, (fold_right Nat.max 0 l <= m)%nat <-> forall k, In k l -> (k <= m)%nat).
  { induction l as [|k l IH]; cbn; [split; [intros _ k []|lia]|]. rewrite Nat.max_lub_iff, IH. split.
    - intros [H1 H2] j [<-|Hj]; auto.
    - intros H. split; auto. }
  rewrite H. split.
  - intros K i Hi. apply K, in_map_iff. exists i. split; [reflexivity|now apply in_seq0].
  - intros K k Hk. apply in_map_iff in Hk. destruct Hk as (i & <- & Hi). apply K. now apply in_seq0.
Qed.
Lemma degree_lt g i : ug g -> (i < gn g)%nat -> (length (neighbors g i) < gn g)%nat.
Proof.
  intros [Hd _] Hi. unfold neighbors. rewrite <- (seq_length (gn g) 0) at 2. apply filter_shorter with (x := i); [now apply in_seq0|].
  now rewrite Hd.
Qed.
Section Loop.
Variable stable : bool.
Variable P : nat -> sk -> Prop.
Hypothesis Pstep : forall k st, P k st -> P (S k) (sk_pass ind ban stable fasm k st).
Hypothesis Pug : forall k st, P k st -> ug (skG st) /\ gn (skG st) = n.
Lemma sk_loop_inv limit : forall fuel k st st', P k st -> sk_loop ind ban stable fasm fuel limit k st = Some st' ->
  exists k', P k' st' /\ (k <= k')%nat /\
    ((max_degree (skG st') <= k')%nat \/ exists m, limit = Some m /\ (m < k')%nat).
Proof.
  induction fuel as [|fuel IH]; intros k st st' HP H; cbn [sk_loop] in H;
    destruct (Nat.ltb k (max_degree (skG st)) && _) eqn:E; try discriminate.
  2: { destruct (IH _ _ _ (Pstep _ _ HP) H) as (k' & K1 & K2 & K3). exists k'. split; [exact K1|]. split; [lia|exact K3]. }
  all: injection H as <-; exists k; split; [exact HP|]; split; [lia|];
    apply andb_false_iff in E; destruct E as [E|E];
    [left; now apply Nat.ltb_ge in E|right; destruct limit as [m|]; [|discriminate]; exists m; split; [reflexivity|now apply Nat.leb_gt in E]].
Qed.
Lemma sk_loop_ends limit : forall fuel k st, P k st -> (n <= k + fuel)%nat -> exists st', sk_loop ind ban stable fasm fuel limit k st = Some st'.
Proof.
  induction fuel as [|fuel IH]; intros k st HP Hf; cbn [sk_loop]; destruct (Nat.ltb k (max_degree (skG st)) && _) eqn:E; eauto.
  - exfalso. apply andb_true_iff in E. destruct E as [E _]. apply Nat.ltb_lt in E. destruct (Pug _ _ HP) as [Hu Hn].
    assert (max_degree (skG st) <= k)%nat; [|lia]. apply max_degree_le. intros i Hi. pose proof (degree_lt _ i Hu Hi). lia.
  - apply (IH (S k) _ (Pstep _ _ HP)). lia.
Qed.
End Loop.
End Pass.
