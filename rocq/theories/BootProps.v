(** Properties of find_all_paths and of BootstrapResult. *)
From Verif Require Import Base UtilsModel GraphSpec GraphProofs BootModel BootSpec BootProofs.
From Coq Require Import Permutation Sorted.
Local Open Scope Z_scope.

(** ** C124: all directed paths *)
Lemma strong_rank n B thr : acyclic (strong n B thr) -> exists r : nat -> nat, forall a b, strong n B thr a b -> (r a < r b)%nat.
Proof.
  intros HA. set (E := fun a b => Nat.ltb a n && Nat.ltb b n && (thr <? Z.abs (B b a))).
  assert (EE : forall a b, E a b = true <-> strong n B thr a b) by (intros a b; unfold E, strong; rewrite !andb_true_iff, !Nat.ltb_lt, Z.ltb_lt; tauto).
  destruct (relation_rank n E) as (r & Hr).
  - intros a b H. apply EE in H. destruct H as (H1 & H2 & _). auto.
  - intros a (b & H1 & H2). apply (HA a). exists b. split; [now apply EE|]. eapply reach_mono; [|exact H2]. intros x y H. now apply EE.
  - exists r. intros a b H. now apply Hr, EE.
Qed.
Lemma rank_max (r : nat -> nat) n : exists M, forall x, (x < n)%nat -> (r x < M)%nat.
Proof. induction n as [|n (M & H)]; [exists 0%nat; lia|]. exists (Nat.max M (S (r n))). intros x Hx. destruct (Nat.eq_dec x n) as [->|]; [lia|]. specialize (H x ltac:(lia)). lia. Qed.
Lemma path_ext (R1 R2 : nat -> nat -> Prop) : (forall a b, R1 a b -> R2 a b) -> forall a b p, path_from R1 a b p -> path_from R2 a b p.
Proof. intros H a b p P. induction P as [|a b c p H1 _ IH]; [constructor|]. apply path_step with b; auto. Qed.
Lemma path_strong n B thr a b p : (a < n)%nat -> path_from (strong n B thr) a b p <-> path_from (fun a b => In b (if Nat.ltb a n then to_indices n B thr a else [])) a b p.
Proof.
  intros _. split; apply path_ext; intros x y H.
  - pose proof H as (Hx & _). rewrite (proj2 (Nat.ltb_lt x n) Hx). now apply in_to_indices.
  - destruct (Nat.ltb_spec x n) as [Hx|]; [now apply in_to_indices in H|destruct H].
Qed.
Theorem C124_find_all_paths : forall n B from to thr, (from < n)%nat -> (to < n)%nat -> from <> to -> acyclic (strong n B thr) ->
  exists fuel ps, (forall f, (fuel <= f)%nat -> find_all_paths f n B from to thr = Ret (ps, map (product_along B) ps)) /\
    NoDup ps /\ forall p, In p ps <-> path_from (strong n B thr) from to p.
Proof.
  intros n B from to thr Hf Ht N HA. destruct (strong_rank n B thr HA) as (r & Hr). destruct (rank_max r n) as (M & HM).
  set (ch := to_indices n B thr).
  destruct (dfs_dag n (fun a => if Nat.ltb a n then ch a else []) from to r) with (M := M) (e := (M - r from)%nat) (rem := ch from) (c := from) (below := @nil (nat * list nat)) (acc := @nil (list nat)) as (k & ps & E & ND & HS); auto.
  - intros x y H. destruct (Nat.ltb_spec x n) as [Hx|]; [|destruct H]. apply in_to_indices in H; [|exact Hx]. split; [now apply Hr|]. now destruct H as (_ & H & _).
  - intros x. destruct (Nat.ltb x n); [|constructor]. apply NoDup_filter, seq_NoDup.
  - intros y H. now rewrite (proj2 (Nat.ltb_lt from n) Hf).
  - apply NoDup_filter, seq_NoDup.
  - intros x [].
  - constructor.
  - now left.
  - assert (EC : forall f stack acc, (forall x l y, In (x, l) stack -> In y l -> (y < n)%nat) -> dfs f n ch from to stack acc = dfs f n (fun a => if Nat.ltb a n then ch a else []) from to stack acc).
    { assert (Bc : forall x y, In y (ch x) -> (y < n)%nat) by (intros x y H; apply filter_In in H; now rewrite <- in_seq0).
      induction f as [|f IH]; intros stack acc HB; [reflexivity|]. cbn [dfs]. destruct stack as [|[c rem] below]; [reflexivity|]. destruct (Nat.ltb n (length ((c, rem) :: below))); [reflexivity|].
      assert (HB' : forall x l y, In (x, l) below -> In y l -> (y < n)%nat) by (intros x l y H; apply (HB x l y); now right).
      destruct (Nat.eqb c to); [now apply IH|]. destruct rem as [|x rem]; [now apply IH|].
      assert (Hx : (x < n)%nat) by (apply (HB c (x :: rem) x); [now left|now left]). rewrite (proj2 (Nat.ltb_lt x n) Hx). apply IH.
      assert (HB2 : forall x0 l y, In (x0, l) ((c, rem) :: below) -> In y l -> (y < n)%nat).
      { intros x0 l y [Q|Q] Hy; [injection Q as <- <-; apply (HB c (x :: rem) y); [now left|now right]|now apply (HB' x0 l y)]. }
      intros x0 l y [Q|Q] Hy; [|now apply (HB2 x0 l y)]. injection Q as <- <-. destruct (Nat.eqb x from); [|now apply (Bc x)].
      assert (IL : In (last ((c, rem) :: below) (0%nat, [])) ((c, rem) :: below)) by (destruct (@exists_last _ ((c, rem) :: below)) as (l' & z & ->); [discriminate|]; rewrite last_last; apply in_or_app; right; now left).
      apply (HB2 (fst (last ((c, rem) :: below) (0%nat, []))) (snd (last ((c, rem) :: below) (0%nat, []))) y); [rewrite <- surjective_pairing; exact IL|exact Hy]. }
    assert (HP : forall p, In p ps <-> path_from (strong n B thr) from to p).
    { intros p. rewrite HS, (path_strong n B thr from to p Hf). split.
      - intros [[Q _]|(_ & y & q & Hy & P & ->)]; [contradiction|]. apply path_step with y; [|exact P]. now rewrite (proj2 (Nat.ltb_lt from n) Hf).
      - intros P. right. split; [exact N|]. inversion P as [|? b ? q H1 H2]; subst; [contradiction|]. rewrite (proj2 (Nat.ltb_lt from n) Hf) in H1. exists b, q. auto. }
    exists (k + 1)%nat, ps. split; [|split; [exact ND|exact HP]]. intros f Hfu. unfold find_all_paths. fold ch. rewrite EC.
    + replace f with (k + (f - k))%nat by lia. rewrite E. destruct (f - k)%nat as [|f'] eqn:Ef; [lia|]. cbn [dfs]. cbn [map rev app]. rewrite map_id. rewrite effects_some; [reflexivity|].
      intros p Hp. apply HP in Hp. inversion Hp as [|? b ? q H1 H2]; subst; [contradiction|]. destruct H2 as [b|b c d q H2 H3]; eauto.
    + intros x l y [Q|[]] Hy. injection Q as <- <-. apply filter_In in Hy. now rewrite <- in_seq0.
Qed.
(** The search ends on every matrix, cyclic or not: it returns or raises. *)
Theorem C124_terminates : forall n B from to thr, exists fuel o, o <> Running /\ forall f, (fuel <= f)%nat -> find_all_paths f n B from to thr = o.
Proof.
  intros n B from to thr. unfold find_all_paths. set (ch := to_indices n B thr).
  destruct (dfs_ends n ch from to (S n) (ch from) from [] []) as [(k & ps & H)|(k & H)]; [cbn; lia| |].
  - exists (k + 1)%nat, (match effects B ps with Some es => Ret (ps, es) | None => Failed end). split; [destruct (effects B ps); discriminate|]. intros f Hf.
    replace f with (k + (f - k))%nat by lia. rewrite H. destruct (f - k)%nat eqn:E; [lia|]. reflexivity.
  - exists k, Failed. split; [discriminate|]. intros f Hf. replace f with (k + (f - k))%nat by lia. now rewrite H.
Qed.

(** ** C125: where find_all_paths fails *)
(** From a variable to itself it raises instead of returning the trivial path or none. *)
Theorem C125_same_variable_refuted : forall fuel n B v thr, (v < n)%nat -> (2 <= fuel)%nat -> find_all_paths fuel n B v v thr = Failed.
Proof.
  intros fuel n B v thr Hv Hf. destruct fuel as [|[|f]]; try lia. unfold find_all_paths. cbn [dfs length]. rewrite (proj2 (Nat.ltb_ge n 1)) by lia. rewrite Nat.eqb_refl. reflexivity.
Qed.
(** A matrix with the cycle 0 --> 1 --> 0: no exception, and a "path" that visits 0 twice. *)
Definition cyc_B : mat := fun i j => match i, j with 1%nat, 0%nat => 1 | 2%nat, 0%nat => 1 | 0%nat, 1%nat => 1 | _, _ => 0 end.
Theorem C125_cycle_refuted : exists n B from to ps es, ~ acyclic (strong n B 0) /\ find_all_paths 100 n B from to 0 = Ret (ps, es) /\ In [0; 1; 0; 2]%nat ps.
Proof.
  exists 4%nat, cyc_B, 0%nat, 2%nat. eexists. eexists. split; [|split; [reflexivity|now left]]. intros H. apply (H 0%nat). exists 1%nat. split; [repeat split; cbn; lia|].
  apply reach_step with 0%nat; [repeat split; cbn; lia|apply reach_refl].
Qed.

(** ** C126: counts and probabilities *)
Definition level (m : option Z) : Z := match m with None => 0 | Some z => z end.
Definition rejected (x : option Z) : Prop := exists z, x = Some z /\ z <= 0.
Lemma threshold_cases m : (threshold m = None /\ rejected m) \/ (threshold m = Some (level m) /\ ~ rejected m).
Proof.
  destruct m as [z|]; cbn; [|right; split; [reflexivity|intros (z & K & _); discriminate]]. destruct (Z.ltb_spec 0 z) as [L|L].
  - right. split; [reflexivity|]. intros (w & K & Q). injection K as <-. lia.
  - left. split; [reflexivity|]. exists z. auto.
Qed.
Lemma top_cases t : (check_top t = None /\ rejected t) \/ (check_top t = Some (option_map Z.to_nat t) /\ ~ rejected t).
Proof.
  destruct t as [z|]; cbn; [|right; split; [reflexivity|intros (z & K & _); discriminate]]. destruct (Z.ltb_spec 0 z) as [L|L].
  - right. split; [reflexivity|]. intros (w & K & Q). injection K as <-. lia.
  - left. split; [reflexivity|]. exists z. auto.
Qed.
Lemma ranking_ext {A} (f g : A -> nat) top l : (forall k, f k = g k) -> ranking f top l -> ranking g top l.
Proof.
  intros E (H1 & H2 & H3 & H4 & H5). split; [exact H1|]. split; [intros k c H; rewrite <- E; now apply H2|]. split; [exact H3|]. split; [|exact H5].
  intros k Hk. rewrite <- E in *. now apply H4.
Qed.
(** A direction (to, from, sign), and the number of samples that have it. *)
Definition has_direction (n : nat) (thr : Z) (split : bool) (d : nat * nat * Z) (B : mat) : bool :=
  let '(i, j, s) := d in Nat.ltb i n && Nat.ltb j n && (thr <? Z.abs (B i j)) && (s =? if split then Z.sgn (B i j) else 0).
Lemma in_dir_keys n thr split B d : In d (dir_keys n thr split B) <-> has_direction n thr split d B = true.
Proof.
  destruct d as [[i j] s]. unfold dir_keys, has_direction. rewrite in_flat_map, !andb_true_iff, !Nat.ltb_lt, Z.eqb_eq. split.
  - intros (a & Ha & K). apply in_flat_map in K. destruct K as (b & Hb & K). unfold over in K. destruct (thr <? Z.abs (B a b)) eqn:Q; [|destruct K]. destruct K as [K|[]]. injection K as <- <- <-. rewrite !in_seq0 in *. auto.
  - intros [[[Hi Hj] Q] ->]. exists i. rewrite in_seq0. split; [exact Hi|]. apply in_flat_map. exists j. rewrite in_seq0. split; [exact Hj|]. unfold over. rewrite Q. now left.
Qed.
Lemma NoDup_flat_map {A B} (f : A -> list B) l : NoDup l -> (forall a, In a l -> NoDup (f a)) -> (forall a b x, In a l -> In b l -> In x (f a) -> In x (f b) -> a = b) -> NoDup (flat_map f l).
Proof.
  intros ND. induction ND as [|a l N ND IH]; intros H1 H2; [constructor|]. cbn.
  assert (IHl : NoDup (flat_map f l)) by (apply IH; [intros b Hb; apply H1; now right|intros b c x Hb Hc; apply H2; now right]).
  assert (DJ : forall x, In x (f a) -> ~ In x (flat_map f l)).
  { intros x Hx K. apply in_flat_map in K. destruct K as (b & Hb & K). apply N. rewrite (H2 a b x); auto; [now left|now right]. }
  specialize (H1 a (or_introl eq_refl)). clear - H1 IHl DJ. induction H1 as [|y m M1 M2 IHm]; cbn; [exact IHl|]. constructor; [rewrite in_app_iff; intros [I|I]; [auto|apply (DJ y); [now left|exact I]]|]. apply IHm. intros x Hx. apply DJ. now right.
Qed.
Lemma dir_keys_NoDup n thr split B : NoDup (dir_keys n thr split B).
Proof.
  apply NoDup_flat_map; [apply seq_NoDup| |].
  - intros i _. apply NoDup_flat_map; [apply seq_NoDup| |].
    + intros j _. destruct (over thr B i j); repeat constructor. auto.
    + intros a b x _ _ H1 H2. destruct (over thr B i a); [|destruct H1]. destruct (over thr B i b); [|destruct H2]. destruct H1 as [<-|[]], H2 as [Q|[]]. now injection Q.
  - intros a b x _ _ H1 H2. apply in_flat_map in H1, H2. destruct H1 as (j & _ & H1), H2 as (j' & _ & H2). destruct (over thr B a j); [|destruct H1]. destruct (over thr B b j'); [|destruct H2]. destruct H1 as [<-|[]], H2 as [Q|[]]. now injection Q.
Qed.
(** Every direction found in a sample is listed once with the number of samples that have it, most frequent first; a bound keeps the most
    frequent ones; thresholds and bounds that are not positive are rejected. *)
Theorem C126_direction_counts : forall argsort, sorts argsort -> forall n samples top m split,
  (causal_direction_counts argsort n samples top m split = None <-> rejected top \/ rejected m) /\
  forall l, causal_direction_counts argsort n samples top m split = Some l ->
    ranking (fun d => holds_in (has_direction n (level m) split d) samples) (option_map Z.to_nat top) l.
Proof.
  intros argsort HS n samples top m split. unfold causal_direction_counts.
  destruct (top_cases top) as [[-> R1]|[-> R1]]; [split; [tauto|discriminate]|]. destruct (threshold_cases m) as [[-> R2]|[-> R2]]; [split; [tauto|discriminate]|].
  split; [split; [discriminate|tauto]|]. intros l E. injection E as <-. eapply ranking_ext; [|apply tally_ranking, HS]. intros d. cbn beta.
  rewrite count_flat by apply dir_keys_NoDup. apply holds_ext. intros B _. pose proof (in_dir_keys n (level m) split B d) as K. destruct (in_dec dir_dec d (dir_keys n (level m) split B)) as [I|I].
  - symmetry. now apply K.
  - destruct (has_direction n (level m) split d B); [exfalso; apply I, K; reflexivity|reflexivity].
Qed.
(** The graphs of the samples. *)
Definition mark (thr : Z) (split : bool) (B : mat) (i j : nat) : Z := if thr <? Z.abs (B i j) then (if split then Z.sgn (B i j) else 1) else 0.
Theorem C126_graph_counts : forall argsort, sorts argsort -> forall n samples top m split,
  (dag_counts argsort n samples top m split = None <-> rejected top \/ rejected m) /\
  forall l, dag_counts argsort n samples top m split = Some l -> exists key : mat -> list Z,
    (forall B B', key B = key B' <-> forall i j, (i < n)%nat -> (j < n)%nat -> mark (level m) split B i j = mark (level m) split B' i j) /\
    ranking (fun k => holds_in (fun B => if zlist_dec k (key B) then true else false) samples) (option_map Z.to_nat top) l.
Proof.
  intros argsort HS n samples top m split. unfold dag_counts.
  destruct (top_cases top) as [[-> R1]|[-> R1]]; [split; [tauto|discriminate]|]. destruct (threshold_cases m) as [[-> R2]|[-> R2]]; [split; [tauto|discriminate]|].
  split; [split; [discriminate|tauto]|]. intros l E. injection E as <-. exists (dag_key n (level m) split). split.
  - intros B B'. unfold dag_key. set (row := fun (B : mat) i => map (fun j => if over (level m) B i j then if split then Z.sgn (B i j) else 1 else 0) (seq 0 n)).
    assert (G : forall l, flat_map (row B) l = flat_map (row B') l <-> forall i j, In i l -> (j < n)%nat -> mark (level m) split B i j = mark (level m) split B' i j).
    { induction l as [|i l IH]; [split; [intros _ i j []|reflexivity]|]. cbn [flat_map]. split.
      - intros Q. assert (Q1 : row B i = row B' i /\ flat_map (row B) l = flat_map (row B') l).
        { assert (LL : length (row B i) = length (row B' i)) by (unfold row; now rewrite !map_length). revert LL Q. generalize (row B i) (row B' i). intros x. induction x as [|a x IHx]; intros [|b y] LL Q; try discriminate; [auto|]. cbn in Q. injection Q as -> Q.
          destruct (IHx y) as [-> ->]; auto. }
        destruct Q1 as [Q1 Q2]. intros a j [<-|Ha] Hj; [|now apply (proj1 IH Q2)]. unfold row in Q1. apply (f_equal (fun x => nth j x 0)) in Q1.
        assert (NM : forall f : nat -> Z, nth j (map f (seq 0 n)) 0 = f j) by (intros f; rewrite (nth_indep _ 0 (f 0%nat)) by (now rewrite map_length, seq_length); rewrite map_nth, seq_nth by exact Hj; reflexivity).
        rewrite !NM in Q1. exact Q1.
      - intros H. f_equal; [|apply IH; intros a j Ha; apply H; now right]. unfold row. apply map_ext_in. intros j Hj. apply in_seq0 in Hj. now apply (H i j (or_introl eq_refl)). }
    etransitivity; [exact (G (seq 0 n))|]. split; intros H i j Hi; apply H; [now apply in_seq0|now apply in_seq0 in Hi].
  - eapply ranking_ext; [|apply tally_ranking, HS]. intros k. cbn beta. unfold holds_in. clear. induction samples as [|B s IH]; [reflexivity|]. cbn [map count_occ filter]. rewrite IH.
    destruct (zlist_dec (dag_key n (level m) split B) k) as [E|N], (zlist_dec k (dag_key n (level m) split B)) as [Q|Q]; try reflexivity; exfalso; [apply Q; now symmetry|apply N; now symmetry].
Qed.
(** The probability of an arrow is the fraction of the samples that have it. *)
Theorem C126_probabilities : forall samples m,
  (probabilities samples m = None <-> rejected m) /\
  forall p, probabilities samples m = Some p -> forall i j, p i j = (Z.of_nat (holds_in (fun B => level m <? Z.abs (B i j)) samples), Z.of_nat (length samples)).
Proof.
  intros samples m. unfold probabilities. destruct (threshold_cases m) as [[-> R2]|[-> R2]]; [split; [tauto|discriminate]|]. split; [split; [discriminate|tauto]|].
  intros p E i j. injection E as <-. f_equal. assert (G : forall l s, fold_left (fun s B => s + (if over (level m) B i j then 1 else 0)) l s = s + Z.of_nat (holds_in (fun B => level m <? Z.abs (B i j)) l)).
  { induction l as [|B l IH]; intros s; cbn [fold_left]; [unfold holds_in; cbn; lia|]. rewrite IH. unfold holds_in, over. cbn [filter]. destruct (level m <? Z.abs (B i j)); cbn [length]; lia. }
  rewrite G. lia.
Qed.

(** ** C127: paths *)
Fixpoint pathb (n : nat) (B : mat) (a to : nat) (p : list nat) : bool :=
  match p with
  | [] => false
  | [x] => Nat.eqb x a && Nat.eqb x to
  | x :: (y :: _) as q => Nat.eqb x a && (Nat.ltb x n && Nat.ltb y n && (0 <? Z.abs (B y x))) && pathb n B y to q
  end.
Lemma pathb_iff n B to p : forall a, pathb n B a to p = true <-> path_from (strong n B 0) a to p.
Proof.
  induction p as [|x p IH]; intros a.
  - split; [discriminate|]. intros H. inversion H.
  - destruct p as [|y p].
    + cbn. rewrite andb_true_iff, !Nat.eqb_eq. split; [intros [-> ->]; constructor|]. intros H. inversion H as [|? ? ? ? ? H2]; subst; [auto|]. inversion H2.
    + cbn [pathb]. change (match p with [] => Nat.eqb y y && Nat.eqb y to | y0 :: _ => Nat.eqb y y && (Nat.ltb y n && Nat.ltb y0 n && (0 <? Z.abs (B y0 y))) && pathb n B y0 to p end) with (pathb n B y to (y :: p)).
      rewrite !andb_true_iff, Nat.eqb_eq, !Nat.ltb_lt, Z.ltb_lt, IH. split.
      * intros [[-> [[H1 H2] H3]] P]. apply path_step with y; [repeat split; auto|exact P].
      * intros H. inversion H as [|? b ? ? H1 H2]; subst. assert (b = y) by (inversion H2; reflexivity). subst b. destruct H1 as (? & ? & ?). auto.
Qed.
(** get_paths lists every directed path of non-zero coefficients found in a sample, once, with the number of samples that have it (the
    probability is this number over the number of samples), most frequent first. *)
Theorem C127_get_paths : forall argsort, sorts argsort -> forall n samples from to min, (from < n)%nat -> (to < n)%nat -> from <> to -> (forall B, In B samples -> acyclic (strong n B 0)) ->
  exists fuel l isp, (forall f, (fuel <= f)%nat -> get_paths f argsort n samples from to min = Ret l) /\
    (forall B p, isp B p = true <-> path_from (strong n B 0) from to p) /\ ranking (fun p => holds_in (fun B => isp B p) samples) None l.
Proof.
  intros argsort HS n samples from to min Hf Ht N HA.
  assert (G : exists fuel ps, (forall f, (fuel <= f)%nat -> collect_paths f n from to samples = Ret ps) /\ forall p, count_occ nlist_dec ps p = holds_in (fun B => pathb n B from to p) samples).
  { induction samples as [|B s IH]; [exists 0%nat, []; auto|]. destruct IH as (f1 & q & E1 & C1); [intros B' H; apply HA; now right|].
    destruct (C124_find_all_paths n B from to 0 Hf Ht N (HA B (or_introl eq_refl))) as (f2 & ps & E2 & ND & HP). exists (Nat.max f1 f2), (ps ++ q). split.
    - intros f Hfu. cbn [collect_paths]. rewrite E2 by lia. rewrite E1 by lia. reflexivity.
    - intros p. rewrite count_occ_app, C1. unfold holds_in. cbn [filter]. specialize (HP p). rewrite <- pathb_iff in HP. destruct (pathb n B from to p) eqn:Q.
      + pose proof (proj1 (NoDup_count_occ nlist_dec ps) ND p). pose proof (proj1 (count_occ_In nlist_dec ps p) (proj2 HP eq_refl)). cbn [length]. lia.
      + assert (NI : ~ In p ps) by (intros I; apply HP in I; discriminate). apply (count_occ_not_In nlist_dec) in NI. lia. }
  destruct G as (fuel & ps & E & C). exists fuel, (tally nlist_dec argsort ps None), (fun B p => pathb n B from to p). split; [intros f Hfu; unfold get_paths; now rewrite E|]. split; [intros B p; apply pathb_iff|].
  eapply ranking_ext; [|apply tally_ranking, HS]. exact C.
Qed.
(** ** C128: the threshold of get_paths *)
(** min_causal_effect is not passed on: a path whose only coefficient is 1 is reported although the threshold is 5. *)
Definition one_B : mat := fun i j => match i, j with 1%nat, 0%nat => 1 | _, _ => 0 end.
Theorem C128_paths_ignore_threshold_refuted : forall argsort, sorts argsort -> exists n samples from to min l, get_paths 100 argsort n samples from to min = Ret l /\
  In ([from; to], 1%nat) l /\ (forall B, In B samples -> Z.abs (B to from) < min).
Proof.
  intros argsort HS. exists 2%nat, [one_B], 0%nat, 1%nat, 5. unfold get_paths. cbn [collect_paths].
  replace (find_all_paths 100 2 one_B 0 1 0) with (Ret ([[0; 1]%nat], [1])) by reflexivity. cbn [app]. eexists. split; [reflexivity|]. split; [|intros B [<-|[]]; cbn; lia].
  pose proof (tally_ranking nlist_dec argsort HS [[0; 1]%nat] None) as (_ & H2 & _ & H4 & _). set (l := tally nlist_dec argsort [[0; 1]%nat] None) in *.
  destruct (in_dec nlist_dec [0; 1]%nat (map fst l)) as [I|I].
  - apply in_map_iff in I. destruct I as ([k c] & Q & I). cbn in Q. subst k. destruct (H2 _ _ I) as [-> _]. exact I.
  - destruct (H4 [0; 1]%nat) as [(t & Q & _) _]; [cbn; lia|exact I|discriminate].
Qed.

(** ** Concrete cases *)
Definition diamond : mat := fun i j => match i, j with 1%nat, 0%nat => 2 | 2%nat, 0%nat => 3 | 3%nat, 1%nat => 5 | 3%nat, 2%nat => -7 | _, _ => 0 end.
Example C124_ex : acyclic (strong 4 diamond 0) /\ find_all_paths 100 4 diamond 0 3 0 = Ret ([[0; 1; 3]; [0; 2; 3]]%nat, [10; -21]) /\ find_all_paths 100 4 diamond 0 3 2 = Ret ([[0; 2; 3]]%nat, [-21]).
Proof.
  split; [|split; reflexivity]. assert (K : forall a b, strong 4 diamond 0 a b -> (a < b)%nat).
  { intros a b (Ha & Hb & H). destruct a as [|[|[|[|a]]]], b as [|[|[|[|b]]]]; cbn in H; lia. }
  intros a (b & H1 & H2). apply K in H1. assert (L : forall x y, reach (strong 4 diamond 0) x y -> (x <= y)%nat) by (induction 1 as [|x y z Q _ IH]; [lia|apply K in Q; lia]). apply L in H2. lia.
Qed.
(** An insertion sort meets [sorts] on every list (so the hypothesis is satisfiable). *)
Fixpoint ins (l : list Z) (q : nat) (s : list nat) : list nat := match s with [] => [q] | x :: r => if nth q l 0 <=? nth x l 0 then q :: s else x :: ins l q r end.
Definition isort (l : list Z) : list nat := fold_right (ins l) [] (seq 0 (length l)).
Lemma isort_sorts : sorts isort.
Proof.
  intros l. unfold isort. generalize (seq 0 (length l)) as s. induction s as [|q s [IH1 IH2]]; [split; [constructor|constructor]|]. cbn [fold_right].
  assert (P : forall q s, Permutation (ins l q s) (q :: s)).
  { clear. intros q s. induction s as [|x s IH]; cbn; [reflexivity|]. destruct (nth q l 0 <=? nth x l 0); [reflexivity|]. rewrite IH. apply perm_swap. }
  split; [rewrite P; now constructor|]. revert IH2. generalize (fold_right (ins l) [] s) as t. clear - P. intros t H. induction H as [|x t H1 IH H2]; [repeat constructor|]. cbn. destruct (Z.leb_spec (nth q l 0) (nth x l 0)) as [L|L].
  - constructor; [constructor; auto|]. constructor; [exact L|]. rewrite Forall_forall in *. intros y Hy. specialize (H2 y Hy). lia.
  - constructor; [exact IH|]. apply Forall_forall. intros y Hy. apply (Permutation_in _ (P q t)) in Hy. destruct Hy as [<-|Hy]; [lia|]. rewrite Forall_forall in H2. auto.
Qed.
Example C126_ex : causal_direction_counts isort 4 [diamond; one_B; diamond] (Some 2) (Some 1) true = Some [((1, 0)%nat, 1, 2%nat); ((2, 0)%nat, 1, 2%nat)] /\
  causal_direction_counts isort 4 [diamond; one_B; diamond] (Some 1) None false = Some [((1, 0)%nat, 0, 3%nat)].
Proof. split; vm_compute; reflexivity. Qed.
Print Assumptions C124_find_all_paths.
Print Assumptions C126_graph_counts.
Print Assumptions C127_get_paths.
Print Assumptions C128_paths_ignore_threshold_refuted.
