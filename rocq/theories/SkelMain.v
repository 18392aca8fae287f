(** What the skeleton search computes. *)
From Coq Require Import Permutation.
From Verif Require Import Base EdgeModel EdgeProofs GraphModel GraphSpec GraphProofs RankLib UtilsModel UtilsProofs
  DsepSpec DsepProofs MeekSpec MeekProofs SkelModel SkelSpec SkelProofs.
Local Open Scope Z_scope.

Section Main.
Variable ind : nat -> nat -> list nat -> bool.
Variable ban : nat -> nat -> bool.
Variable fasm : bool.
Variable n : nat.

Lemma init_NI : NI ind ban fasm n (sk_init n).
Proof.
  destruct (complete_spec n) as (C1 & C2 & C3). split; [exact C1|]. split; [exact C2|]. split; [reflexivity|].
  intros a b Ha Hb N. cbn [sk_init skG]. destruct (joined_dec (complete_graph n) a b) as [J|J].
  - split; [intros _; split; reflexivity|split; reflexivity].
  - exfalso. apply J. apply C3. auto.
Qed.
Lemma ug_undirected g : ug g -> all_undirected g.
Proof.
  intros Hu a b J. split; [eapply ug_joined_neq; eauto|]. destruct Hu as [_ Hu]. destruct J as (Ja & Jb & J).
  destruct (Hu a b Ja Jb) as [[? _]|[? ?]]; [congruence|]. split; auto.
Qed.
(** No set of size k drawn from the neighbours separates. *)
Lemma clear_all k g : order_free n ind -> gn g = n -> ug g -> clear ind k g ->
  forall x y T, joined g x y -> NoDup T -> (forall z, In z T -> joined g x z /\ z <> y) -> length T = k -> ind x y T = false.
Proof.
  intros Ho Hn Hu Hc x y T J HT Hin Hl.
  assert (Hx : (x < gn g)%nat) by apply J.
  destruct (combs_perm k (others (neighbors g x) y) T) as (T' & H1 & H2); auto.
  - apply NoDup_filter, neighbors_nodup.
  - intros z Hz. destruct (Hin z Hz) as [Jz Nz]. unfold others. apply filter_In. split; [now apply in_neighbors|].
    apply negb_true_iff, Nat.eqb_neq, Nz.
  - assert (Hy : (y < gn g)%nat) by apply J. rewrite Hn in Hx, Hy. rewrite (Ho x y T T' Hx Hy); auto.
    2: { eapply ug_joined_neq; eauto. }
    2: { split; [exact HT|]. intros z Hz. destruct (Hin z Hz) as [Jz Nz]. pose proof (ug_joined_neq _ _ _ Hu Jz).
         destruct Jz as (_ & Jz & _). rewrite Hn in Jz. auto. }
    specialize (Hc x y J). unfold hits in Hc. apply not_true_iff_false. intros E.
    apply not_true_iff_false in Hc. apply Hc. apply existsb_exists. eauto.
Qed.
Lemma clear_exit k g : order_free n ind -> gn g = n -> ug g -> (forall j, (j < k)%nat -> clear ind j g) ->
  forall x y T, joined g x y -> NoDup T -> (forall z, In z T -> joined g x z /\ z <> y) ->
  (length T < k \/ max_degree g <= k)%nat -> ind x y T = false.
Proof.
  intros Ho Hn Hu Hc x y T J HT Hin Hk.
  assert (Hx : (x < gn g)%nat) by apply J.
  assert (HL : (length T < length (neighbors g x))%nat).
  { assert (Hy : In y (neighbors g x)) by now apply in_neighbors. pose proof (others_len _ _ Hy) as L.
    assert (length T <= length (others (neighbors g x) y))%nat; [|lia]. apply NoDup_incl_length; [exact HT|].
    intros z Hz. destruct (Hin z Hz) as [Jz Nz]. unfold others. apply filter_In. split; [now apply in_neighbors|].
    apply negb_true_iff, Nat.eqb_neq, Nz. }
  eapply (clear_all (length T)); eauto. apply Hc. destruct Hk as [Hk|Hk]; [exact Hk|].
  pose proof (proj1 (max_degree_le g k) Hk x Hx). lia.
Qed.

(** Invariant of both modes. *)
Definition PI (stable : bool) (k : nat) (st : sk) : Prop :=
  ug (skG st) /\ gn (skG st) = n /\
  (stable = false -> NI ind ban fasm n st) /\
  (stable = true \/ (forall a b, ban a b = false) -> forall j, (j < k)%nat -> clear ind j (skG st)) /\
  (forall a b, (a < n)%nat -> (b < n)%nat -> a <> b -> ~ joined (skG st) a b -> exists T, reason ind ban n a b T) /\
  (stable = true -> (0 < k)%nat -> forall a b, joined (skG st) a b -> ban a b = false /\ ban b a = false).
Lemma PI_init stable : PI stable 0 (sk_init n).
Proof.
  pose proof init_NI as HI. pose proof HI as (I1 & I2 & I3 & I4). split; [exact I2|]. split; [exact I1|]. split; [auto|].
  split; [intros _ j Hj; lia|]. split; [|intros _ H; lia].
  intros a b Ha Hb N NJ. exfalso. apply NJ. cbn [sk_init skG]. apply (proj2 (proj2 (complete_spec n))). auto.
Qed.
Lemma PI_step stable k st : PI stable k st -> PI stable (S k) (sk_pass ind ban stable fasm k st).
Proof.
  intros (Hu & Hn & H1 & H2 & H3 & H4). destruct stable.
  - destruct (pass_stable ind ban fasm n k st Hu Hn) as (Q1 & Q2 & Q3).
    pose proof (pass_stable_sub ind ban fasm n k st Hu Hn) as Hs.
    set (st' := sk_pass ind ban true fasm k st) in *.
    split; [exact Q1|]. split; [exact Q2|]. split; [discriminate|]. split; [|split].
    + intros Hc j Hj. destruct (Nat.eq_dec j k) as [-> |N]; [now apply (pass_stable_clear ind ban fasm n)|].
      eapply clear_sub; [exact Hs|]. apply H2; [exact Hc|lia].
    + intros a b Ha Hb N NJ. destruct (joined_dec (skG st) a b) as [J|J]; [|now apply H3].
      pose proof (ug_joined_sym _ _ _ Hu J) as J'.
      assert (Hh : hitp ind ban k (skG st) a b = true \/ hitp ind ban k (skG st) b a = true).
      { destruct (hitp ind ban k (skG st) a b) eqn:E1; [auto|]. destruct (hitp ind ban k (skG st) b a) eqn:E2; [auto|].
        exfalso. apply NJ. apply Q3. auto. }
      destruct Hh as [Hh|Hh]; unfold hitp in Hh; apply andb_true_iff in Hh; destruct Hh as [_ Hh]; apply orb_true_iff in Hh.
      * destruct Hh as [Hh|Hh]; [exists []; left; auto|]. apply (hits_reason ind n) in Hh; auto.
        destruct Hh as (T & K1 & K2 & _). exists T. right. auto.
      * destruct Hh as [Hh|Hh]; [exists []; left; auto|]. apply (hits_reason ind n) in Hh; auto.
        destruct Hh as (T & K1 & K2 & _). exists T. right. split; [now apply cset_sym|auto].
    + intros _ _ a b J. destruct k as [|k]; [|apply (H4 eq_refl); [lia|now apply Hs]].
      apply Q3 in J. destruct J as (_ & B1 & B2). unfold hitp in B1, B2. cbn in B1, B2.
      apply orb_false_iff in B1, B2. tauto.
  - specialize (H1 eq_refl). destruct (pass_now ind ban fasm n k st H1) as (R1 & R2 & R3).
    set (st' := sk_pass ind ban false fasm k st) in *. pose proof R1 as (E1 & E2 & E3 & E4).
    split; [exact E2|]. split; [exact E1|]. split; [auto|]. split; [|split; [|discriminate]].
    + intros [Hc|Hc] j Hj; [discriminate|]. destruct (Nat.eq_dec j k) as [-> |N]; [now apply R3|].
      eapply clear_sub; [exact R2|]. apply H2; [auto|lia].
    + intros a b Ha Hb N NJ. specialize (E4 a b Ha Hb N). destruct (joined_dec (skG st') a b); [contradiction|].
      destruct E4 as (T & E4 & _). eauto.
Qed.
Theorem search_correct stable limit fuel : (n <= fuel)%nat ->
  exists st k, sk_search ind ban stable fasm fuel limit n = Some st /\ PI stable k st /\
    ((max_degree (skG st) <= k)%nat \/ exists m, limit = Some m /\ (m < k)%nat).
Proof.
  intros Hf. unfold sk_search.
  assert (HP : forall k st, PI stable k st -> ug (skG st) /\ gn (skG st) = n) by (intros k st (? & ? & _); auto).
  assert (Hf' : (n <= 0 + fuel)%nat) by lia.
  destruct (sk_loop_ends ind ban fasm n stable (PI stable) (PI_step stable) HP limit fuel 0 (sk_init n) (PI_init stable) Hf') as [st E].
  destruct (sk_loop_inv ind ban fasm stable (PI stable) (PI_step stable) limit fuel 0 (sk_init n) st (PI_init stable) E) as (k & K1 & _ & K3).
  exists st, k. auto.
Qed.
End Main.

(** * d-separation by the parents *)
Section Dsep.
Variable D : ggraph.
Hypothesis HD : dag D.
Lemma adjacent_never_separated x y T : adjacent D x y -> x <> y -> dconnected D x y T.
Proof.
  intros H N. exists []. cbn [app]. split.
  - constructor; [intros [E|[]]; congruence|]. constructor; [intros []|constructor].
  - apply active_cons2. split; [exact H|]. split; [apply active_one|]. intros c p E. discriminate.
Qed.
Lemma goes_down x : forall T, (forall z, In z T -> dedge D z x) -> forall p a b y, active D T (a :: b :: p) -> dedge D a b -> reach1 (dedge D) x b ->
  (exists l, b :: p = l ++ [y]) -> reach (dedge D) x y.
Proof.
  intros T HT. induction p as [|c p IH]; intros a b y HA Hab Hr [l E].
  - destruct l as [|u l]; [|destruct l; discriminate]. injection E as <-. destruct Hr as (c & H1 & H2). econstructor; eauto.
  - apply active_cons2 in HA. destruct HA as (_ & HA & Ho). specialize (Ho c p eq_refl).
    assert (Hbc : dedge D b c).
    { pose proof HA as HA'. apply active_cons2 in HA'. destruct HA' as ([H|H] & _); [exact H|exfalso].
      destruct Ho as [(_ & _ & z & Hz & Hr')|[N _]]; [|tauto].
      destruct HD as (_ & Hac & _). apply (Hac x). destruct Hr as (d & R1 & R2). exists d. split; [exact R1|].
      eapply reach_trans; [exact R2|]. eapply reach_trans; [exact Hr'|]. apply reach_one. now apply HT. }
    apply (IH b c y); auto.
    + destruct Hr as (d & R1 & R2). exists d. split; [exact R1|]. eapply reach_trans; [exact R2|]. now apply reach_one.
    + destruct l as [|u l]; [injection E as <- E; discriminate|]. injection E as _ E. eauto.
Qed.
Lemma parents_separate x y T : x <> y -> ~ adjacent D x y -> ~ reach (dedge D) x y ->
  (forall z, In z T <-> dedge D z x) -> ~ dconnected D x y T.
Proof.
  intros N Na Nr HT (m & ND & HA). destruct m as [|a m].
  - apply active_cons2 in HA. tauto.
  - cbn [app] in HA. pose proof HA as HA0. apply active_cons2 in HA. destruct HA as (Hxa & HA & Ho).
    destruct Hxa as [H|H].
    + apply Nr. apply (goes_down x T (fun z Hz => proj1 (HT z) Hz) (m ++ [y]) x a y); auto.
      * exists a. split; [exact H|constructor].
      * exists (a :: m). reflexivity.
    + destruct (m ++ [y]) as [|c r] eqn:E; [destruct m; discriminate|]. specialize (Ho c r eq_refl).
      pose proof (dag_asym D HD _ _ H) as As. destruct Ho as [(K & _)|[_ K]]; [contradiction|]. apply K. now apply HT.
Qed.
Definition parent_list (x : nat) : list nat := filter (fun z => if dedge_dec D z x then true else false) (seq 0 (gn D)).
Lemma in_parent_list x z : In z (parent_list x) <-> dedge D z x.
Proof.
  unfold parent_list. rewrite filter_In, in_seq0. destruct (dedge_dec D z x) as [H|H]; [|intuition discriminate].
  split; [auto|]. intros _. split; [apply (dedge_bound _ _ _ H)|reflexivity].
Qed.
Lemma dag_joined a b : joined D a b <-> adjacent D a b.
Proof. rewrite (adjacent_spec D HD). reflexivity. Qed.
End Dsep.

(** The general statements. *)
Section General.
Variable ind : nat -> nat -> list nat -> bool.
Variable ban : nat -> nat -> bool.
Variable fasm stable : bool.
Variable n fuel : nat.
Variable limit : option nat.
Variable st : sk.
Hypothesis Hfuel : (n <= fuel)%nat.
Hypothesis Hrun : sk_search ind ban stable fasm fuel limit n = Some st.

Lemma run_inv : exists k, PI ind ban fasm n stable k st /\ ((max_degree (skG st) <= k)%nat \/ exists m, limit = Some m /\ (m < k)%nat).
Proof. destruct (search_correct ind ban fasm n stable limit fuel Hfuel) as (st' & k & E & H). rewrite Hrun in E. injection E as <-. eauto. Qed.
Lemma run_shape : gn (skG st) = n /\ all_undirected (skG st).
Proof. destruct run_inv as (k & (Hu & Hn & _) & _). split; [exact Hn|now apply ug_undirected]. Qed.
Lemma run_sym a b : joined (skG st) a b -> joined (skG st) b a.
Proof. destruct run_inv as (k & (Hu & Hn & _) & _). now apply ug_joined_sym. Qed.
Lemma run_removed a b : (a < n)%nat -> (b < n)%nat -> a <> b -> ~ joined (skG st) a b ->
  ban a b = true \/ ban b a = true \/ exists T, conditioning n a b T /\ (ind a b T = true \/ ind b a T = true).
Proof.
  intros Ha Hb N NJ. destruct run_inv as (k & (_ & _ & _ & _ & H & _) & _). destruct (H a b Ha Hb N NJ) as (T & [[_ K]|[K1 K2]]); [tauto|].
  right. right. exists T. split; [exact K1|exact K2].
Qed.
Lemma run_survives x y T : stable = true \/ (forall a b, ban a b = false) -> order_free n ind ->
  joined (skG st) x y -> NoDup T -> (forall z, In z T -> joined (skG st) x z /\ z <> y) ->
  (forall m, limit = Some m -> (length T <= m)%nat) -> ind x y T = false.
Proof.
  intros Hm Ho J HT Hin Hl. destruct run_inv as (k & (Hu & Hn & _ & Hc & _) & Hk).
  apply (clear_exit ind n k (skG st) Ho Hn Hu (Hc Hm) x y T J HT Hin).
  destruct Hk as [Hk|(m & Hm' & Hk)]; [auto|]. specialize (Hl m Hm'). left. lia.
Qed.
Lemma run_banned a b : stable = true -> ban a b = true -> ban b a = true -> ~ joined (skG st) a b.
Proof.
  intros Hs B1 B2 J. destruct run_inv as (k & (Hu & Hn & _ & _ & _ & H) & Hk).
  assert (0 < k)%nat.
  { destruct Hk as [Hk|(m & _ & Hk)]; [|lia]. destruct k as [|k]; [|lia]. exfalso.
    assert (Ha : (a < gn (skG st))%nat) by apply J.
    pose proof (proj1 (max_degree_le _ _) Hk a Ha) as L. apply in_neighbors in J; [|exact Ha].
    destruct (neighbors (skG st) a); [destruct J|cbn in L; lia]. }
  destruct (H Hs H0 a b J). congruence.
Qed.
Lemma run_recorded : stable = false -> NI ind ban fasm n st.
Proof. intros Hs. destruct run_inv as (k & (_ & _ & H & _) & _). auto. Qed.
End General.

(** With an oracle the search finds the adjacencies. *)
Lemma active_incl D Z Z' p : (forall z, In z Z <-> In z Z') -> active D Z p -> active D Z' p.
Proof.
  intros H [H1 H2]. split; [exact H1|]. intros l a b c r E. destruct (H2 l a b c r E) as [(K1 & K2 & z & K3 & K4)|[K1 K2]].
  - left. split; [exact K1|]. split; [exact K2|]. exists z. split; [now apply H|exact K4].
  - right. split; [exact K1|]. intros K. apply K2. now apply H.
Qed.
Lemma dconnected_incl D x y Z Z' : (forall z, In z Z <-> In z Z') -> dconnected D x y Z -> dconnected D x y Z'.
Proof. intros H (m & K1 & K2). exists m. split; [exact K1|]. eapply active_incl; eauto. Qed.
Lemma conditioning_perm n x y T T' : Permutation T T' -> conditioning n x y T -> conditioning n x y T'.
Proof.
  intros HP [H1 H2]. split; [eapply Permutation_NoDup; eauto|]. intros z Hz. apply H2.
  eapply Permutation_in; [apply Permutation_sym|]; eauto.
Qed.
Lemma oracle_order_free n D ind : oracle n D ind -> order_free n ind.
Proof.
  intros (Dn & HD & Hor) x y T T' Hx Hy N HC HP. apply eq_true_iff_eq. rewrite !Hor; auto; [|eapply conditioning_perm; eauto].
  assert (Hin : forall z, In z T <-> In z T').
  { intros z. split; apply Permutation_in; [exact HP|now apply Permutation_sym]. }
  split; intros K C; apply K; (eapply dconnected_incl; [|exact C]); intros z; [symmetry|]; apply Hin.
Qed.
Theorem oracle_adjacencies n D ind stable fasm fuel : oracle n D ind -> (n <= fuel)%nat ->
  exists st, sk_search ind no_ban stable fasm fuel None n = Some st /\ gn (skG st) = n /\ all_undirected (skG st) /\
    forall a b, joined (skG st) a b <-> joined D a b.
Proof.
  intros HO Hf. pose proof (oracle_order_free n D ind HO) as Hof. destruct HO as (Dn & HD & Hor).
  destruct (search_correct ind no_ban fasm n stable None fuel Hf) as (st & _ & E & _). exists st. split; [exact E|].
  destruct (run_shape ind no_ban fasm stable n fuel None st Hf E) as [Hn Hall]. split; [exact Hn|]. split; [exact Hall|].
  assert (Keep : forall a b, joined D a b -> joined (skG st) a b).
  { intros a b J. destruct (joined_dec (skG st) a b) as [J'|J']; [exact J'|exfalso].
    pose proof J as (Ha & Hb & _). rewrite Dn in Ha, Hb. apply dag_joined in J; [|exact HD].
    pose proof (adjacent_neq D HD _ _ J) as N.
    destruct (run_removed ind no_ban fasm stable n fuel None st Hf E a b Ha Hb N J') as [K|[K|(T & K1 & K2)]]; try discriminate.
    destruct K2 as [K2|K2].
    - apply Hor in K2; auto. apply K2. now apply adjacent_never_separated.
    - assert (K1' : conditioning n b a T) by (destruct K1 as [Z1 Z2]; split; [exact Z1|]; intros z Hz; destruct (Z2 z Hz) as (? & ? & ?); auto).
      apply Hor in K2; auto. apply K2. apply adjacent_never_separated; [|auto]. destruct J; [right|left]; auto. }
  assert (Drop : forall a b, joined (skG st) a b -> ~ reach (dedge D) a b -> joined D a b).
  { intros a b J Nr. destruct (joined_dec D a b) as [J'|J']; [exact J'|exfalso].
    destruct (Hall a b J) as [N _]. pose proof J as (Ha & Hb & _). rewrite Hn in Ha, Hb.
    assert (Hcs : conditioning n a b (parent_list D a)).
    { split; [apply NoDup_filter, seq_NoDup|]. intros z Hz. apply in_parent_list in Hz.
      split; [rewrite <- Dn; apply (dedge_bound _ _ _ Hz)|]. assert (Aj : adjacent D z a) by now left. split.
      - apply (adjacent_neq D HD _ _ Aj).
      - intros ->. apply J'. apply dag_joined; [exact HD|]. now right. }
    assert (F : ind a b (parent_list D a) = false).
    { apply (run_survives ind no_ban fasm stable n fuel None st Hf E); auto.
      - exact (proj1 Hcs).
      - intros z Hz. split; [|apply (proj2 Hcs z Hz)]. apply Keep. apply dag_joined; [exact HD|]. right. now apply in_parent_list in Hz.
      - discriminate. }
    assert (ind a b (parent_list D a) = true); [|congruence]. apply Hor; auto.
    apply parents_separate; auto.
    - intros H. apply J'. now apply dag_joined.
    - intros z. apply in_parent_list. }
  intros a b. split; [|apply Keep]. intros J.
  destruct (joined_dec D a b) as [J'|J']; [exact J'|exfalso].
  apply J'. apply Drop; [exact J|]. intros R1.
  assert (Nba : ~ reach (dedge D) b a).
  { intros R2. destruct (Hall a b J) as [N _]. destruct HD as (_ & Hac & _). apply (Hac a).
    inversion R1 as [|? c ? H1 H2]; subst; [congruence|]. exists c. split; [exact H1|]. eapply reach_trans; eauto. }
  apply J'. apply dag_joined; [exact HD|]. assert (joined D b a) as H.
  { apply Drop; [|exact Nba]. now apply (run_sym ind no_ban fasm stable n fuel None st Hf E). }
  apply dag_joined in H; [|exact HD]. destruct H; [right|left]; assumption.
Qed.
