(** A verified test of d-connection, used to exhibit independence oracles of concrete DAGs. *)
From Verif Require Import Base EdgeModel GraphModel GraphSpec GraphProofs UtilsModel UtilsProofs DsepSpec DsepProofs DsepTheory MeekSpec MeekProofs CheckLib SkelSpec.

(** ** Reachability in a finite relation *)
Section FinReach.
Variable N : nat.
Variable R : nat -> nat -> bool.
Definition fstep (u v : nat) : Prop := u < N /\ v < N /\ R u v = true.
Definition fgrow (l : list nat) : list nat := filter (fun v => memb v l || existsb (fun u => R u v) l) (seq 0 N).
Fixpoint fiter (k : nat) (l : list nat) : list nat := match k with O => l | S k' => fiter k' (fgrow l) end.
Definition freach (l : list nat) : list nat := fiter (S N) l.
Lemma in_fgrow l v : In v (fgrow l) <-> v < N /\ (In v l \/ exists u, In u l /\ R u v = true).
Proof.
  unfold fgrow. rewrite filter_In, in_seq0, orb_true_iff, memb_In, existsb_exists. reflexivity.
Qed.
Lemma fiter_sound k : forall l, (forall u, In u l -> u < N) -> forall v, In v (fiter k l) -> v < N /\ exists u, In u l /\ reach fstep u v.
Proof.
  induction k as [|k IH]; intros l HL v; cbn [fiter]; [intros H; split; [auto|]; exists v; split; [exact H|constructor]|].
  intros H. destruct (IH (fgrow l) (fun u Hu => proj1 (proj1 (in_fgrow l u) Hu)) v H) as (Hv & u & Hu & HR). split; [exact Hv|].
  apply in_fgrow in Hu. destruct Hu as (Hu & [Hu'|(w & Hw & E)]); [eauto|]. exists w. split; [exact Hw|].
  apply reach_trans with u; [|exact HR]. apply reach_one. split; auto.
Qed.
Definition fclosed (l : list nat) : Prop := forall u v, In u l -> fstep u v -> In v l.
Lemma fgrow_incl l : (forall u, In u l -> u < N) -> incl l (fgrow l).
Proof. intros H v Hv. apply in_fgrow. auto. Qed.
Lemma fgrow_bound l u : In u (fgrow l) -> u < N.
Proof. intros H. apply in_fgrow in H. tauto. Qed.
Lemma fgrow_fix l : fclosed l -> (forall u, In u l -> u < N) -> forall v, In v (fgrow l) <-> In v l.
Proof.
  intros HC HB v. rewrite in_fgrow. split; [|auto]. intros (Hv & [H|(u & Hu & E)]); [exact H|]. apply (HC u v Hu). split; auto.
Qed.
Lemma fclosed_grow l : fclosed l -> (forall u, In u l -> u < N) -> fclosed (fgrow l).
Proof. intros HC HB u v Hu Hs. apply (fgrow_fix l HC HB) in Hu. apply (fgrow_fix l HC HB). eapply HC; eauto. Qed.
Lemma fclosed_iter k : forall l, fclosed l -> (forall u, In u l -> u < N) -> fclosed (fiter k l).
Proof. induction k as [|k IH]; intros l HC HB; cbn [fiter]; [exact HC|]. apply IH; [now apply fclosed_grow|apply fgrow_bound]. Qed.
Definition fcount (l : list nat) : nat := length (filter (fun v => memb v l) (seq 0 N)).
Lemma fclosed_dec l : fclosed l \/ exists u v, In u l /\ fstep u v /\ ~ In v l.
Proof.
  destruct (existsb (fun u => existsb (fun v => Nat.ltb u N && R u v && negb (memb v l)) (seq 0 N)) l) eqn:E.
  - right. apply existsb_exists in E. destruct E as (u & Hu & E). apply existsb_exists in E. destruct E as (v & Hv & E).
    rewrite !andb_true_iff, negb_true_iff, Nat.ltb_lt in E. destruct E as [[E1 E2] E3]. exists u, v. split; [exact Hu|]. apply in_seq0 in Hv.
    split; [split; auto|]. now apply memb_not_In.
  - left. intros u v Hu (H1 & H2 & H3). destruct (memb v l) eqn:EM; [now apply memb_In|]. exfalso.
    apply not_true_iff_false in E. apply E. apply existsb_exists. exists u. split; [exact Hu|]. apply existsb_exists. exists v. split; [now apply in_seq0|].
    rewrite H3, EM. apply Nat.ltb_lt in H1. now rewrite H1.
Qed.
Lemma fiter_closed k : forall l, (forall u, In u l -> u < N) -> fclosed (fiter k l) \/ k + fcount l <= fcount (fiter k l).
Proof.
  induction k as [|k IH]; intros l HB; cbn [fiter]; [right; lia|]. destruct (fclosed_dec l) as [HC|(u & v & Hu & Hs & Nv)].
  - left. apply fclosed_iter; [now apply fclosed_grow|apply fgrow_bound].
  - destruct (IH (fgrow l) (fgrow_bound l)) as [H|H]; [auto|]. right.
    assert (fcount l < fcount (fgrow l)); [|lia]. unfold fcount. apply filter_lt with (x := v).
    + intros x _ Hx. apply memb_In in Hx. apply memb_In. now apply fgrow_incl.
    + apply in_seq0. apply Hs.
    + now apply memb_not_In.
    + apply memb_In. apply in_fgrow. split; [apply Hs|]. right. exists u. split; [exact Hu|apply Hs].
Qed.
Lemma fiter_incl k : forall l, (forall u, In u l -> u < N) -> incl l (fiter k l).
Proof. induction k as [|k IH]; intros l HB; cbn [fiter]; [apply incl_refl|]. eapply incl_tran; [now apply fgrow_incl|]. apply IH. apply fgrow_bound. Qed.
Lemma freach_spec l v : (forall u, In u l -> u < N) -> In v (freach l) <-> exists u, In u l /\ reach fstep u v.
Proof.
  intros HB. split; [intros H; now apply fiter_sound in H|]. intros (u & Hu & HR).
  assert (HC : fclosed (freach l)).
  { destruct (fiter_closed (S N) l HB) as [H|H]; [exact H|]. exfalso. unfold fcount in H. pose proof (filter_len (fun v => memb v (fiter (S N) l)) (seq 0 N)) as K. rewrite seq_length in K. lia. }
  apply (fiter_incl (S N) l HB) in Hu. fold (freach l) in Hu. revert Hu. induction HR as [|a b c Hab _ IH]; intros Hu; [exact Hu|]. apply IH. eapply HC; eauto.
Qed.
End FinReach.

(** ** d-connection *)
Section Dconn.
Variable D : ggraph.
Hypothesis HD : dag D.
Variable Z : list nat.
Lemma dedgeb_spec a b : a < gn D -> b < gn D -> dedgeb D a b = true <-> dedge D a b.
Proof. intros Ha Hb. unfold dedgeb, dedge. rewrite orb_true_iff, !andb_true_iff, !Z.eqb_eq. tauto. Qed.
(** The nodes with a descendant in Z. *)
Definition anc_list (n : nat) : list nat := freach n (fun u v => dedgeb D v u) (filter (fun v => Nat.ltb v n) Z).
(** States (b, b was entered by an arrow). *)
Definition stc (b : nat) (d : bool) : nat := 2 * b + (if d then 1 else 0).
Definition st_n (s : nat) : nat := Nat.div2 s.
Definition st_d (s : nat) : bool := Nat.odd s.
Lemma stc_n b d : st_n (stc b d) = b.
Proof. unfold st_n, stc. destruct d; [rewrite Nat.add_1_r; apply Nat.div2_succ_double|rewrite Nat.add_0_r; apply Nat.div2_double]. Qed.
Lemma stc_d b d : st_d (stc b d) = d.
Proof. unfold st_d, stc. rewrite Nat.add_comm, Nat.odd_add_mul_2. now destruct d. Qed.
Lemma stc_of s : stc (st_n s) (st_d s) = s.
Proof. unfold stc, st_n, st_d. pose proof (Nat.div2_odd s) as E. destruct (Nat.odd s); cbn [Nat.b2n] in E; lia. Qed.
Definition bstep (an : list nat) (s t : nat) : bool :=
  let b := st_n s in let c := st_n t in
  (dedgeb D b c || dedgeb D c b) && Bool.eqb (st_d t) (dedgeb D b c) &&
  (if st_d s && dedgeb D c b then memb b an else negb (memb b Z)).
Definition dconn (x y : nat) : bool :=
  let an := anc_list (gn D) in
  let r := freach (2 * gn D) (bstep an) (map (fun c => stc c (dedgeb D x c)) (filter (fun c => dedgeb D x c || dedgeb D c x) (seq 0 (gn D)))) in
  memb (stc y true) r || memb (stc y false) r.
Lemma stc_bound b d : stc b d < 2 * gn D <-> b < gn D.
Proof. unfold stc. destruct d; lia. Qed.
Lemma anc_spec v : v < gn D -> In v (anc_list (gn D)) <-> exists z, In z Z /\ reach (dedge D) v z.
Proof.
  intros Hv. unfold anc_list. rewrite freach_spec by (intros u Hu; apply filter_In in Hu; apply Nat.ltb_lt; tauto). split.
  - intros (u & Hu & HR). apply filter_In in Hu. exists u. split; [apply Hu|]. clear Hu Hv. induction HR as [|a b c (H1 & H2 & H3) _ IH]; [constructor|].
    apply reach_trans with b; [exact IH|]. apply reach_one. now apply dedgeb_spec in H3.
  - intros (z & Hz & HR). exists z. assert (Hb : z < gn D).
    { clear Hz. induction HR as [|a b c Hab _ IH]; [exact Hv|]. apply IH. apply Hab. }
    split; [apply filter_In; split; [exact Hz|now apply Nat.ltb_lt]|]. clear Hz Hv. revert Hb. induction HR as [|a b c Hab _ IH]; intros Hb; [constructor|].
    apply reach_trans with b; [auto|]. apply reach_one. split; [apply Hab|]. split; [apply Hab|]. apply dedgeb_spec; [apply Hab|apply Hab|exact Hab].
Qed.
Lemma bstep_spec s t : s < 2 * gn D -> t < 2 * gn D -> bstep (anc_list (gn D)) s t = true <->
  adjacent D (st_n s) (st_n t) /\ (st_d t = true <-> dedge D (st_n s) (st_n t)) /\
  ((st_d s = true /\ dedge D (st_n t) (st_n s) /\ exists z, In z Z /\ reach (dedge D) (st_n s) z) \/
   (~ (st_d s = true /\ dedge D (st_n t) (st_n s)) /\ ~ In (st_n s) Z)).
Proof.
  intros Hs Ht. rewrite <- (stc_of s), stc_bound in Hs. rewrite <- (stc_of t), stc_bound in Ht. unfold bstep. cbn zeta.
  rewrite !andb_true_iff, orb_true_iff, (dedgeb_spec _ _ Hs Ht), (dedgeb_spec _ _ Ht Hs), eqb_true_iff.
  pose proof (dedgeb_spec _ _ Hs Ht) as E1. pose proof (dedgeb_spec _ _ Ht Hs) as E2. unfold adjacent. rewrite and_assoc. apply and_iff_compat_l.
  split.
  - intros [H1 H2]. split; [now rewrite H1|]. destruct (st_d s) eqn:Es; cbn [andb] in H2.
    + destruct (dedgeb D (st_n t) (st_n s)) eqn:Ed.
      * left. split; [reflexivity|]. split; [now apply E2|]. apply anc_spec; [exact Hs|]. now apply memb_In.
      * right. split; [intros [_ K]; apply E2 in K; discriminate|]. apply negb_true_iff in H2. now apply memb_not_In.
    + right. split; [intros [K _]; discriminate|]. apply negb_true_iff in H2. now apply memb_not_In.
  - intros [H1 H2]. split; [rewrite <- E1 in H1; destruct (st_d t), (dedgeb D (st_n s) (st_n t)); intuition congruence|].
    destruct H2 as [(H2 & H3 & H4)|(H2 & H3)].
    + rewrite H2. apply E2 in H3. rewrite H3. cbn [andb]. apply memb_In. now apply anc_spec.
    + destruct (st_d s && dedgeb D (st_n t) (st_n s)) eqn:EA; [exfalso; apply H2; apply andb_true_iff in EA; destruct EA as [-> EA]; split; [reflexivity|now apply E2]|].
      apply negb_true_iff. now apply memb_not_In.
Qed.
Variables x y : nat.
Hypothesis Hx : x < gn D.
Definition starts : list nat := map (fun c => stc c (dedgeb D x c)) (filter (fun c => dedgeb D x c || dedgeb D c x) (seq 0 (gn D))).
Lemma in_starts s : In s starts <-> s < 2 * gn D /\ adjacent D x (st_n s) /\ (st_d s = true <-> dedge D x (st_n s)).
Proof.
  unfold starts. rewrite in_map_iff. split.
  - intros (c & <- & Hc). apply filter_In in Hc. destruct Hc as [Hc E]. apply in_seq0 in Hc. rewrite stc_n, stc_d, stc_bound. split; [exact Hc|].
    apply orb_true_iff in E. rewrite !dedgeb_spec in E by assumption. split; [exact E|]. now apply dedgeb_spec.
  - intros (Hs & HA & Hd). assert (Hb : st_n s < gn D) by (rewrite <- (stc_bound _ (st_d s)), stc_of; exact Hs).
    exists (st_n s). split.
    + rewrite <- (stc_of s) at 3. f_equal. rewrite <- dedgeb_spec in Hd by assumption. destruct (st_d s), (dedgeb D x (st_n s)); intuition congruence.
    + apply filter_In. split; [now apply in_seq0|]. apply orb_true_iff. rewrite !dedgeb_spec by assumption. exact HA.
Qed.
Notation bst := (fstep (2 * gn D) (bstep (anc_list (gn D)))).
Lemma reach_walk s : In s starts -> forall t, reach bst s t ->
  exists q a, active D Z (q ++ [a; st_n t]) /\ (exists m, q ++ [a] = x :: m) /\ (st_d t = true <-> dedge D a (st_n t)).
Proof.
  intros Hs t HR. apply in_starts in Hs. destruct Hs as (Hs & HA & Hd).
  assert (G : exists q a, active D Z (q ++ [a; st_n s]) /\ (exists m, q ++ [a] = x :: m) /\ (st_d s = true <-> dedge D a (st_n s))).
  { exists [], x. split; [|split; [exists []; reflexivity|exact Hd]]. cbn [app]. apply active_cons2. split; [exact HA|]. split; [apply active_one|easy]. }
  clear Hs HA Hd. induction HR as [|s b t Hsb HR IH]; [exact G|]. apply IH. clear IH HR. destruct G as (q & a & G1 & (m & G2) & G3).
  destruct Hsb as (H1 & H2 & H3). apply bstep_spec in H3; auto. destruct H3 as (A & Hd & O).
  exists (q ++ [a]), (st_n s). split.
  - change (q ++ [a; st_n s]) with (q ++ [a] ++ [st_n s]) in G1. rewrite app_assoc in G1. apply active_join; [exact G1| |].
    + apply active_cons2. split; [exact A|]. split; [apply active_one|easy].
    + intros l' a' c r' El Er. apply app_inj_tail in El. destruct El as [_ <-]. injection Er as <- <-. unfold opens. rewrite <- G3. tauto.
  - split; [|exact Hd]. exists (m ++ [st_n s]). now rewrite G2.
Qed.
Lemma walk_reach : forall p a c, active D Z (a :: c :: p ++ [y]) -> forall s, s < 2 * gn D -> st_n s = c -> (st_d s = true <-> dedge D a c) ->
  exists t, reach bst s t /\ st_n t = y.
Proof.
  induction p as [|w p IH]; intros a c HA s Hs Es Hd; cbn [app] in HA; apply active_cons2 in HA; destruct HA as (A1 & A2 & O).
  - pose proof A2 as HA. apply active_cons2 in A2. destruct A2 as (A2 & _ & _). specialize (O y [] eq_refl). assert (Hy : y < gn D) by (destruct A2 as [K|K]; apply K).
    exists (stc y (dedgeb D c y)). split; [|apply stc_n]. apply reach_one. assert (Ht : stc y (dedgeb D c y) < 2 * gn D) by now apply stc_bound. split; [exact Hs|]. split; [exact Ht|].
    assert (Hc : c < gn D) by (destruct A2 as [K|K]; apply K). apply bstep_spec; auto. rewrite stc_n, stc_d, Es, Hd. split; [exact A2|]. split; [now apply dedgeb_spec|].
    unfold opens in O. tauto.
  - pose proof A2 as HA. apply active_cons2 in A2. destruct A2 as (A2 & _ & _). specialize (O w (p ++ [y]) eq_refl). assert (Hw : w < gn D) by (destruct A2 as [K|K]; apply K).
    assert (Hc : c < gn D) by (destruct A2 as [K|K]; apply K). assert (Ht : stc w (dedgeb D c w) < 2 * gn D) by now apply stc_bound.
    destruct (IH c w HA (stc w (dedgeb D c w)) Ht (stc_n _ _)) as (t & HR & E); [rewrite stc_d; now apply dedgeb_spec|].
    exists t. split; [|exact E]. apply reach_trans with (stc w (dedgeb D c w)); [|exact HR]. apply reach_one. split; [exact Hs|]. split; [exact Ht|].
    apply bstep_spec; auto. rewrite stc_n, stc_d, Es, Hd. split; [exact A2|]. split; [now apply dedgeb_spec|]. unfold opens in O. tauto.
Qed.
Lemma dconn_spec : x <> y -> dconn x y = true <-> dconnected D x y Z.
Proof.
  intros Nxy. unfold dconn. cbn zeta. fold starts.
  assert (SB : forall u, In u starts -> u < 2 * gn D) by (intros u Hu; apply in_starts in Hu; tauto).
  rewrite orb_true_iff, !memb_In, !(freach_spec _ _ _ _ SB). split.
  - assert (G : forall t, st_n t = y -> (exists u, In u starts /\ reach bst u t) -> dconnected D x y Z).
    { intros t Et (u & Hu & HR). destruct (reach_walk u Hu t HR) as (q & a & HA & (m & E) & _). rewrite Et in HA.
      change (q ++ [a; y]) with (q ++ [a] ++ [y]) in HA. rewrite app_assoc, E in HA. apply (walk_to_path D Z (dag_asym D HD) (length m) m x y); auto. }
    intros [H|H]; [apply (G (stc y true))|apply (G (stc y false))]; auto using stc_n.
  - intros (m & _ & HA). assert (G : exists u t, In u starts /\ reach bst u t /\ st_n t = y).
    { destruct m as [|c m].
      - cbn [app] in HA. apply active_cons2 in HA. destruct HA as (A & _). assert (Hy : y < gn D) by (destruct A as [K|K]; apply K).
        exists (stc y (dedgeb D x y)), (stc y (dedgeb D x y)). split; [|split; [constructor|apply stc_n]]. apply in_starts. rewrite stc_n, stc_d, stc_bound.
        split; [exact Hy|]. split; [exact A|]. now apply dedgeb_spec.
      - cbn [app] in HA. pose proof HA as HA2. apply active_cons2 in HA. destruct HA as (A & _). assert (Hc : c < gn D) by (destruct A as [K|K]; apply K).
        destruct (walk_reach m x c HA2 (stc c (dedgeb D x c))) as (t & HR & E); [now apply stc_bound|apply stc_n|rewrite stc_d; now apply dedgeb_spec|].
        exists (stc c (dedgeb D x c)), t. split; [|auto]. apply in_starts. rewrite stc_n, stc_d, stc_bound. split; [exact Hc|]. split; [exact A|]. now apply dedgeb_spec. }
    destruct G as (u & t & Hu & HR & E). rewrite <- (stc_of t), E in HR. destruct (st_d t); eauto.
Qed.
End Dconn.
(** The test that answers d-separation in D. *)
Definition dsep_test (D : ggraph) (x y : nat) (T : list nat) : bool := negb (dconn D T x y).
Lemma dsep_test_spec D x y T : dag D -> x < gn D -> x <> y -> dsep_test D x y T = true <-> ~ dconnected D x y T.
Proof. intros HD Hx N. unfold dsep_test. rewrite negb_true_iff, <- not_true_iff_false. apply not_iff_compat. now apply dconn_spec. Qed.
