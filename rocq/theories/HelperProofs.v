(** Lemmas for Helper.py: the finders and dag2pattern. *)
From Verif Require Import Base EdgeModel GraphModel GraphSpec GraphProofs DsepSpec UtilsModel UtilsProofs KnowledgeProps MeekModel MeekSpec MeekProofs PCSpec CpdagSpec MeekFull
  SkelModel SkelProofs FinderProps HelperModel HelperSpec.
Local Open Scope Z_scope.

Lemma in_hwhere n A v i j : In (i, j) (hwhere n A v) <-> (i < n)%nat /\ (j < n)%nat /\ A i j = v.
Proof. unfold hwhere. rewrite filter_In, in_cells. cbn [fst snd]. rewrite Z.eqb_eq. tauto. Qed.
Lemma hwhere_nodup n A v : NoDup (hwhere n A v).
Proof. apply NoDup_filter, cells_nodup. Qed.
Lemma in_hundirected n A i j : In (i, j) (hfind_undirected n A) <-> (i < n)%nat /\ (j < n)%nat /\ A i j = 0 /\ A j i = 0.
Proof. unfold hfind_undirected, find_tail. rewrite filter_In, in_hwhere. cbn [fst snd]. rewrite Z.eqb_eq. tauto. Qed.
Lemma in_hdirected n A i j : In (i, j) (hfind_directed n A) <-> (i < n)%nat /\ (j < n)%nat /\ A i j = 1 /\ A j i = 0.
Proof. unfold hfind_directed, find_circ_arrow. rewrite filter_In, in_hwhere. cbn [fst snd]. rewrite Z.eqb_eq. tauto. Qed.
Lemma in_hbidirected n A i j : In (i, j) (hfind_bidirected n A) <-> (i < n)%nat /\ (j < n)%nat /\ A i j = 1 /\ A j i = 1.
Proof. unfold hfind_bidirected, find_circ_arrow. rewrite filter_In, in_hwhere. cbn [fst snd]. rewrite Z.eqb_eq. tauto. Qed.
Lemma in_hadj n A i j : In (i, j) (hfind_adj n A) <-> linked n A i j.
Proof. unfold hfind_adj, find_tail, find_circ_arrow, linked. rewrite in_app_iff, !in_hwhere. tauto. Qed.
Lemma hadj_nodup n A : NoDup (hfind_adj n A).
Proof. apply NoDup_join; [apply hwhere_nodup|apply hwhere_nodup|]. intros [i j]. unfold find_tail, find_circ_arrow. rewrite !in_hwhere. lia. Qed.

Lemma in_hut n A i j k : In (i, j, k) (hfind_ut n A) <-> linked n A i j /\ linked n A j k /\ i <> k /\ A i k = -1.
Proof.
  unfold hfind_ut. rewrite in_map_iff. split.
  - intros (((a & b) & (c & d)) & [= <- <- <-] & H). apply filter_In in H. cbn [fst snd] in H. destruct H as [Hp H].
    rewrite !andb_true_iff, negb_true_iff, Nat.eqb_eq, Nat.eqb_neq, Z.eqb_eq in H. destruct H as [[<- N] E].
    apply in_perms2 in Hp. rewrite !in_hadj in Hp. tauto.
  - intros (H1 & H2 & N & E). exists ((i, j), (j, k)). split; [reflexivity|]. apply filter_In. cbn [fst snd]. split.
    + apply perms2_in; [now apply in_hadj|now apply in_hadj|]. intros [= -> ->]. congruence.
    + rewrite !andb_true_iff, negb_true_iff, Nat.eqb_eq, Nat.eqb_neq, Z.eqb_eq. auto.
Qed.
Lemma in_htri n A i j k : In (i, j, k) (hfind_tri n A) <-> linked n A i j /\ linked n A j k /\ i <> k /\ linked n A i k.
Proof.
  unfold hfind_tri, pmem2. rewrite in_map_iff. split.
  - intros (((a & b) & (c & d)) & [= <- <- <-] & H). apply filter_In in H. cbn [fst snd] in H. destruct H as [Hp H].
    rewrite !andb_true_iff, negb_true_iff, Nat.eqb_eq, Nat.eqb_neq, pmem_In, in_hadj in H. destruct H as [[<- N] E].
    apply in_perms2 in Hp. rewrite !in_hadj in Hp. tauto.
  - intros (H1 & H2 & N & E). exists ((i, j), (j, k)). split; [reflexivity|]. apply filter_In. cbn [fst snd]. split.
    + apply perms2_in; [now apply in_hadj|now apply in_hadj|]. intros [= -> ->]. congruence.
    + rewrite !andb_true_iff, negb_true_iff, Nat.eqb_eq, Nat.eqb_neq, pmem_In, in_hadj. auto.
Qed.
Lemma in_hkite n A i j k l : In (i, j, k, l) (hfind_kites n A) <->
  In (i, j, l) (hfind_tri n A) /\ In (i, k, l) (hfind_tri n A) /\ (j < k)%nat /\ A j k = -1.
Proof.
  unfold hfind_kites. rewrite in_map_iff. split.
  - intros ((((a & b) & c) & ((d & e) & f)) & [= <- <- <- <-] & H). apply filter_In in H. unfold t1, t2, t3 in *. cbn [fst snd] in *. destruct H as [Hp H].
    rewrite !andb_true_iff, !Nat.eqb_eq, Nat.ltb_lt, Z.eqb_eq in H. destruct H as [[[<- <-] L] E]. apply in_perms2 in Hp. tauto.
  - intros (H1 & H2 & L & E). exists ((i, j, l), (i, k, l)). split; [reflexivity|]. apply filter_In. unfold t1, t2, t3. cbn [fst snd]. split.
    + apply perms2_in; auto. intros [= ->]. lia.
    + rewrite !andb_true_iff, !Nat.eqb_eq, Nat.ltb_lt, Z.eqb_eq. auto.
Qed.
Lemma in_uc n A i j k : In (i, j, k) (find_uc n A) <->
  In (i, j) (hfind_directed n A) /\ In (k, j) (hfind_directed n A) /\ (i < k)%nat /\ A i k = -1.
Proof.
  unfold find_uc. rewrite in_map_iff. split.
  - intros (((a & b) & (c & d)) & [= <- <- <-] & H). apply filter_In in H. cbn [fst snd] in H. destruct H as [Hp H].
    rewrite !andb_true_iff, Nat.eqb_eq, Nat.ltb_lt, Z.eqb_eq in H. destruct H as [[<- L] E]. apply in_perms2 in Hp. tauto.
  - intros (H1 & H2 & L & E). exists ((i, j), (k, j)). split; [reflexivity|]. apply filter_In. cbn [fst snd]. split.
    + apply perms2_in; auto. intros [= ->]. lia.
    + rewrite !andb_true_iff, Nat.eqb_eq, Nat.ltb_lt, Z.eqb_eq. auto.
Qed.
Lemma uc_nodup n A : NoDup (find_uc n A).
Proof.
  unfold find_uc. apply NoDup_map_on; [apply NoDup_filter, perms2_nodup, NoDup_filter, hwhere_nodup|].
  intros [[a b] [c d]] [[a' b'] [c' d']] H H' [= <- <- <-]. apply filter_In in H, H'. cbn [fst snd] in *.
  destruct H as [_ H], H' as [_ H']. rewrite !andb_true_iff, !Nat.eqb_eq in H, H'. destruct H as [[-> _] _], H' as [[-> _] _]. reflexivity.
Qed.
Lemma hut_nodup n A : NoDup (hfind_ut n A).
Proof.
  unfold hfind_ut. apply NoDup_map_on; [apply NoDup_filter, perms2_nodup, hadj_nodup|].
  intros [[a b] [c d]] [[a' b'] [c' d']] H H' [= <- <- <-]. apply filter_In in H, H'. cbn [fst snd] in *.
  destruct H as [_ H], H' as [_ H']. rewrite !andb_true_iff, !Nat.eqb_eq in H, H'. destruct H as [[-> _] _], H' as [[-> _] _]. reflexivity.
Qed.
Lemma htri_nodup n A : NoDup (hfind_tri n A).
Proof.
  unfold hfind_tri. apply NoDup_map_on; [apply NoDup_filter, perms2_nodup, hadj_nodup|].
  intros [[a b] [c d]] [[a' b'] [c' d']] H H' [= <- <- <-]. apply filter_In in H, H'. cbn [fst snd] in *.
  destruct H as [_ H], H' as [_ H']. rewrite !andb_true_iff, !Nat.eqb_eq in H, H'. destruct H as [[-> _] _], H' as [[-> _] _]. reflexivity.
Qed.
Lemma hkite_nodup n A : NoDup (hfind_kites n A).
Proof.
  unfold hfind_kites. apply NoDup_map_on; [apply NoDup_filter, perms2_nodup, htri_nodup|].
  intros [[[a b] c] [[d e] f]] [[[a' b'] c'] [[d' e'] f']] H H' [= E1 E2 E3 E4]. apply filter_In in H, H'. unfold t1, t2, t3 in *. cbn [fst snd] in *.
  destruct H as [_ H], H' as [_ H']. rewrite !andb_true_iff, !Nat.eqb_eq in H, H'. destruct H as [[[H1 H2] _] _], H' as [[[H1' H2'] _] _]. congruence.
Qed.

(** ** Drawings *)
Section Draw.
Variable n : nat.
Lemma draws_directed A g i j : draws n A g -> (i < n)%nat -> (j < n)%nat -> his_directed A i j = true <-> directed g i j.
Proof.
  intros [Hn H] Hi Hj. unfold his_directed, directed. rewrite andb_true_iff, !Z.eqb_eq, Hn.
  pose proof (H i j Hi Hj) as (K1 & _). pose proof (H j i Hj Hi) as (_ & K2 & _). rewrite K1, K2. tauto.
Qed.
Lemma draws_undirected A g i j : draws n A g -> (i < n)%nat -> (j < n)%nat -> his_undirected A i j = true <-> undirected g i j.
Proof.
  intros [Hn H] Hi Hj. unfold his_undirected, undirected. rewrite andb_true_iff, !Z.eqb_eq, Hn.
  pose proof (H i j Hi Hj) as (_ & K1 & _). pose proof (H j i Hj Hi) as (_ & K2 & _). rewrite K1, K2. tauto.
Qed.
Lemma draws_dirg P g a b : draws n P g -> wf g -> undirected g a b -> draws n (upd P a b 1) (dirg g a b).
Proof.
  intros [Hn H] Hw Hu. pose proof (undirected_neq _ _ _ Hw Hu) as Hne. destruct Hu as (Ha & Hb & E1 & E2). split; [exact Hn|].
  intros i j Hi Hj. pose proof (H i j Hi Hj) as HH. unfold upd.
  destruct (Nat.eqb_spec i a) as [-> |Ni]; [destruct (Nat.eqb_spec j b) as [-> |Nj]|]; cbn [andb].
  - rewrite dirg_ba by exact Hne. intuition lia.
  - rewrite dirg_other by tauto. exact HH.
  - destruct (Nat.eq_dec i b) as [-> |Nb]; [destruct (Nat.eq_dec j a) as [-> |Na]|].
    + rewrite dirg_ab. rewrite E1 in HH. exact HH.
    + rewrite dirg_other by tauto. exact HH.
    + rewrite dirg_other by tauto. exact HH.
Qed.
End Draw.

(** ** The rule loop *)
Lemma midway_step D g a b : dag D -> wf g -> midway D g -> calls_for g a b -> undirected g a b /\ midway D (dirg g a b).
Proof.
  intros HD Hw HM Hc.
  assert (Hu : undirected g a b) by (destruct Hc; assumption). split; [exact Hu|].
  pose proof HM as (Hn & Hj & Hp & Hv & Hs).
  assert (HJ : forall x y, joined (dirg g a b) x y <-> joined g x y).
  { intros x y. pose proof (undirected_neq _ _ _ Hw Hu) as Hne. pose proof Hu as (Ha & Hb & E1 & E2). unfold joined. cbn [gn dirg].
    destruct (Nat.eq_dec x a) as [-> |Nx]; [destruct (Nat.eq_dec y b) as [-> |Ny]|].
    - rewrite dirg_ab. intuition lia.
    - rewrite dirg_other by tauto. tauto.
    - destruct (Nat.eq_dec x b) as [-> |Nb]; [destruct (Nat.eq_dec y a) as [-> |Na]|]; [|rewrite dirg_other by tauto; tauto|rewrite dirg_other by tauto; tauto].
      rewrite dirg_ba by exact Hne. intuition lia. }
  split; [exact Hn|]. split; [intros; now rewrite HJ|]. split; [|split].
  - intros x y J. apply HJ in J. destruct (Hp x y J) as [K|[K|K]].
    + left. apply dirg_directed; auto.
    + right; left. apply dirg_directed; auto.
    + destruct (Nat.eq_dec x a) as [-> |Nx], (Nat.eq_dec y b) as [-> |Ny].
      * left. apply dirg_directed; auto.
      * right; right. apply dirg_undirected; auto. split; [exact K|]. split; intros [A1 A2]; subst; tauto.
      * destruct (Nat.eq_dec x b) as [-> |Nb].
        -- exfalso. apply (undirected_neq _ _ _ Hw K). reflexivity.
        -- right; right. apply dirg_undirected; auto. split; [exact K|]. split; intros [A1 A2]; tauto.
      * destruct (Nat.eq_dec x b) as [-> |Nb]; [destruct (Nat.eq_dec y a) as [-> |Na]|].
        -- right; left. apply dirg_directed; auto.
        -- right; right. apply dirg_undirected; auto. split; [exact K|]. split; intros [A1 A2]; tauto.
        -- right; right. apply dirg_undirected; auto. split; [exact K|]. split; intros [A1 A2]; tauto.
  - intros x y z H. apply dirg_directed; auto. right. eauto.
  - intros x y Hxy D' HE. apply dirg_directed in Hxy; auto. destruct Hxy as [[-> ->]|K]; [|now apply Hs].
    apply (calls_sound g g D' a b); auto using orients_refl.
    apply (midc_extension (equivalent D) D); auto.
Qed.

Lemma midway_closed D g : dag D -> midway D g -> wf g -> (forall a b, ~ calls_for g a b) -> completed D g.
Proof.
  intros HD HM Hw Hclosed. pose proof HM as (Hn & HjD & Hpd & Hv & Hsound).
  assert (HsD : forall a b, directed g a b -> directed D a b) by (intros; apply (Hsound a b); auto using equivalent_refl).
  assert (Hund : forall a b, directed D a b -> directed g a b \/ undirected g a b).
  { intros a b Hab. destruct (Hpd a b) as [K|[K|K]]; auto.
    - apply HjD. exact (proj1 (directed_joined _ _ _ Hab)).
    - exfalso. apply HsD in K. exact (directed_asym D HD _ _ Hab K). }
  assert (HR : rule_closed D (directed g)).
  { repeat apply conj.
    - intros a b. unfold directed.
      destruct (lt_dec a (gn g)), (lt_dec b (gn g)), (Z.eq_dec (gm g a b) (-1)), (Z.eq_dec (gm g b a) 1); tauto.
    - exact HsD.
    - intros a b c H. eauto.
    - intros v u y K1 K2 N NJ. destruct (Hund u y K2) as [|U]; [assumption|exfalso].
      apply (Hclosed u y). apply (calls1 g v); auto. destruct (Z.eq_dec (gm g v y) 0); [assumption|].
      exfalso. apply NJ, HjD. split; [apply K1|]. split; [apply U|assumption].
    - intros a j b K1 K2 K3. destruct (Hund a b K3) as [|U]; [assumption|exfalso]. apply (Hclosed a b). now apply (calls2 g a j).
    - intros a j k b J1 J2 N1 N2 N3 N4 K1 K2 K3 N NJ. destruct (Hund a b K3) as [|U]; [assumption|exfalso].
      apply (Hclosed a b). apply HjD in J1, J2.
      assert (U1 : undirected g a j) by (destruct (Hpd _ _ J1) as [?|[?|?]]; [contradiction|contradiction|assumption]).
      assert (U2 : undirected g a k) by (destruct (Hpd _ _ J2) as [?|[?|?]]; [contradiction|contradiction|assumption]).
      apply (calls3 g a j k b); auto. destruct (Z.eq_dec (gm g j k) 0); [assumption|].
      exfalso. apply NJ, HjD. split; [apply K1|]. split; [apply K2|assumption]. }
  destruct (closed_contains D HD) as (C & HC & Hclo). specialize (Hclo _ HR). rename Hclo into HCg.
  destruct HC as (Cn & Cw & Cj & Cp & Cd & Cu).
  split; [congruence|]. split; [exact Hw|]. split; [exact HjD|]. split; [exact Hpd|]. split.
  - intros a b. split.
    + intros K. split; [apply HjD; exact (proj1 (directed_joined _ _ _ K))|]. now apply Hsound.
    + intros K. apply HCg, Cd. exact K.
  - intros a b. split.
    + intros K. pose proof (undirected_joined _ _ _ K) as [J _]. apply HjD in J. split; [exact J|].
      assert (U : undirected C a b).
      { apply Cj in J. destruct (Cp a b J) as [F|[F|F]]; [| |exact F]; apply HCg in F; destruct F as (_ & _ & F1 & F2), K as (_ & _ & G1 & G2); lia. }
      now apply Cu in U.
    + intros (J & (D1 & X1 & Y1) & (D2 & X2 & Y2)). apply HjD in J. destruct (Hpd a b J) as [K|[K|K]]; [| |exact K]; exfalso.
      * apply (directed_asym D2 ltac:(apply X2) a b); auto.
      * apply (directed_asym D1 ltac:(apply X1) a b); auto.
Qed.

(** A loop whose body either does nothing or sets the flag. *)
Lemma fold_flag {T} (r : mat * bool -> T -> mat * bool) : (forall s t, r s t = s \/ snd (r s t) = true) ->
  forall l s, snd (fold_left r l s) = false -> snd s = false /\ fold_left r l s = s /\ forall t, In t l -> r s t = s.
Proof.
  intros Hr. induction l as [|t l IH]; intros s E; [split; [exact E|]; split; [reflexivity|intros t []]|].
  cbn [fold_left] in *. destruct (IH _ E) as (E1 & E2 & E3). destruct (Hr s t) as [K|K]; [|congruence].
  rewrite K in *. split; [exact E1|]. split; [exact E2|]. intros u [<- |Hu]; auto.
Qed.

Section Loop.
Variable (n : nat) (D : ggraph).
Hypothesis HD : dag D.
Definition hinv (P0 : mat) (m : nat) (s : mat * bool) : Prop :=
  exists g, draws n (fst s) g /\ wf g /\ midway D g /\ (ucount g <= m)%nat /\
    (snd s = true -> (ucount g < m)%nat) /\ (snd s = false -> fst s = P0).
(** A rule that only fires when the rules call for it. *)
Definition good_rule {T} (r : mat * bool -> T -> mat * bool) (t : T) : Prop :=
  forall s g, draws n (fst s) g -> wf g -> midway D g -> r s t = s \/ exists a b, calls_for g a b /\ r s t = (upd (fst s) a b 1, true).
Lemma hinv_fold {T} (r : mat * bool -> T -> mat * bool) P0 m l s :
  (forall t, In t l -> good_rule r t) -> hinv P0 m s -> hinv P0 m (fold_left r l s).
Proof.
  revert s. induction l as [|t l IH]; intros s Hl HI; [exact HI|]. cbn [fold_left]. apply IH; [intros; apply Hl; now right|].
  destruct HI as (g & H1 & H2 & H3 & H4 & H5 & H6). destruct (Hl t (or_introl eq_refl) s g H1 H2 H3) as [-> |(a & b & Hc & ->)].
  - exists g. auto 10.
  - destruct (midway_step D g a b HD H2 H3 Hc) as [Hu HM]. exists (dirg g a b). cbn [fst snd].
    pose proof (ucount_dirg g a b H2 Hu). split; [now apply draws_dirg|]. split; [now apply dirg_wf|]. split; [exact HM|].
    split; [lia|]. split; [lia|discriminate].
Qed.
Variables (UT Tri : list triple) (Kites : list (nat * nat * nat * nat)).
Hypothesis HUT : forall i j k, In (i, j, k) UT <-> joined D i j /\ joined D j k /\ i <> k /\ ~ joined D i k.
Hypothesis HTri : forall i j k, In (i, j, k) Tri <-> joined D i j /\ joined D j k /\ i <> k /\ joined D i k.
Hypothesis HKite : forall i j k l, In (i, j, k, l) Kites <-> In (i, j, l) Tri /\ In (i, k, l) Tri /\ (j < k)%nat /\ ~ joined D j k.

Lemma not_joined_zero g i k : midway D g -> (i < gn D)%nat -> (k < gn D)%nat -> ~ joined D i k -> gm g i k = 0.
Proof.
  intros (Hn & Hj & _) Hi Hk N. destruct (Z.eq_dec (gm g i k) 0); [assumption|]. exfalso. apply N, Hj. unfold joined. rewrite Hn. auto.
Qed.
Lemma good1 t : In t UT -> good_rule hrule1 t.
Proof.
  destruct t as [[i j] k]. intros Ht s g Hd Hw HM. apply HUT in Ht. destruct Ht as ((Hi & Hj & _) & (_ & Hk & _) & N & NJ).
  pose proof (proj1 HM) as Hn. assert (En : gn D = n) by (rewrite <- Hn; apply Hd). unfold hrule1.
  destruct (his_directed (fst s) i j && his_undirected (fst s) j k) eqn:E; [|now left]. right.
  apply andb_true_iff in E. destruct E as [E1 E2]. rewrite En in *.
  apply (draws_directed n _ g) in E1; auto. apply (draws_undirected n _ g) in E2; auto.
  exists j, k. split; [|reflexivity]. apply (calls1 g i); auto. apply not_joined_zero; rewrite ?En; auto.
Qed.
Lemma good2 t : In t Tri -> good_rule hrule2 t.
Proof.
  destruct t as [[i j] k]. intros Ht s g Hd Hw HM. apply HTri in Ht. destruct Ht as ((Hi & Hj & _) & (_ & Hk & _) & N & _).
  pose proof (proj1 HM) as Hn. assert (En : gn D = n) by (rewrite <- Hn; apply Hd). unfold hrule2.
  destruct (his_directed (fst s) i j && his_directed (fst s) j k && his_undirected (fst s) i k) eqn:E; [|now left]. right.
  rewrite !andb_true_iff in E. destruct E as [[E1 E2] E3]. rewrite En in *.
  apply (draws_directed n _ g) in E1; auto. apply (draws_directed n _ g) in E2; auto. apply (draws_undirected n _ g) in E3; auto.
  exists i, k. split; [|reflexivity]. now apply (calls2 g i j).
Qed.
Lemma good3 t : In t Kites -> good_rule hrule3 t.
Proof.
  destruct t as [[[i j] k] l]. intros Ht s g Hd Hw HM. apply HKite in Ht. destruct Ht as (T1 & T2 & L & NJ). apply HTri in T1, T2.
  destruct T1 as ((Hi & Hj & _) & (_ & Hl & _) & _). destruct T2 as ((_ & Hk & _) & _).
  pose proof (proj1 HM) as Hn. assert (En : gn D = n) by (rewrite <- Hn; apply Hd). unfold hrule3.
  match goal with |- (if ?c then _ else _) = _ \/ _ => destruct c eqn:E; [|now left] end. right.
  rewrite !andb_true_iff in E. destruct E as [[[[E1 E2] E3] E4] E5]. rewrite En in *.
  apply (draws_undirected n _ g) in E1; auto. apply (draws_undirected n _ g) in E2; auto. apply (draws_undirected n _ g) in E5; auto.
  apply (draws_directed n _ g) in E3; auto. apply (draws_directed n _ g) in E4; auto.
  exists i, l. split; [|reflexivity]. apply (calls3 g i j k l); auto; [lia|]. apply not_joined_zero; rewrite ?En; auto.
Qed.
Lemma round_inv P g : draws n P g -> wf g -> midway D g -> hinv P (ucount g) (hround UT Tri Kites P).
Proof.
  intros Hd Hw HM. unfold hround. apply hinv_fold; [exact good3|]. apply hinv_fold; [exact good2|]. apply hinv_fold; [exact good1|].
  exists g. cbn [fst snd]. split; [exact Hd|]. split; [exact Hw|]. split; [exact HM|]. split; [lia|]. split; [discriminate|reflexivity].
Qed.
Lemma rule1_alt s t : hrule1 s t = s \/ snd (hrule1 s t) = true.
Proof. destruct t as [[i j] k]. unfold hrule1. destruct (_ && _); auto. Qed.
Lemma rule2_alt s t : hrule2 s t = s \/ snd (hrule2 s t) = true.
Proof. destruct t as [[i j] k]. unfold hrule2. destruct (_ && _); auto. Qed.
Lemma rule3_alt s t : hrule3 s t = s \/ snd (hrule3 s t) = true.
Proof. destruct t as [[[i j] k] l]. unfold hrule3. match goal with |- (if ?c then _ else _) = _ \/ _ => destruct c; auto end. Qed.
Lemma round_closed P g : draws n P g -> wf g -> midway D g -> snd (hround UT Tri Kites P) = false ->
  fst (hround UT Tri Kites P) = P /\ forall a b, ~ calls_for g a b.
Proof.
  intros Hd Hw HM E. unfold hround in *.
  destruct (fold_flag hrule3 rule3_alt _ _ E) as (E3 & F3 & K3). rewrite F3.
  destruct (fold_flag hrule2 rule2_alt _ _ E3) as (E2 & F2 & K2). rewrite F2 in *.
  destruct (fold_flag hrule1 rule1_alt _ _ E2) as (E1 & F1 & K1). rewrite F1 in *. split; [reflexivity|].
  pose proof HM as (Hn & HJ & Hp & _). assert (En : gn g = n) by apply Hd.
  intros a b Hc. destruct Hc as [i a b H1 H2 H3 H4|a j b H1 H2 H3|a j k b H1 H2 H3 H4 H5 H6 H7].
  - specialize (K1 (i, a, b)). unfold hrule1 in K1. cbn [fst] in K1.
    rewrite (proj2 (draws_directed n P g i a Hd ltac:(rewrite <- En; apply H1) ltac:(rewrite <- En; apply H1)) H1) in K1.
    rewrite (proj2 (draws_undirected n P g a b Hd ltac:(rewrite <- En; apply H2) ltac:(rewrite <- En; apply H2)) H2) in K1.
    cbn [andb] in K1. assert (HI : In (i, a, b) UT).
    { apply HUT. rewrite <- !HJ. split; [exact (proj1 (directed_joined _ _ _ H1))|]. split; [exact (proj1 (undirected_joined _ _ _ H2))|].
      split; [exact H4|]. intros (_ & _ & K). contradiction. }
    apply K1 in HI. discriminate.
  - specialize (K2 (a, j, b)). unfold hrule2 in K2. cbn [fst] in K2.
    rewrite (proj2 (draws_directed n P g a j Hd ltac:(rewrite <- En; apply H1) ltac:(rewrite <- En; apply H1)) H1) in K2.
    rewrite (proj2 (draws_directed n P g j b Hd ltac:(rewrite <- En; apply H2) ltac:(rewrite <- En; apply H2)) H2) in K2.
    rewrite (proj2 (draws_undirected n P g a b Hd ltac:(rewrite <- En; apply H3) ltac:(rewrite <- En; apply H3)) H3) in K2.
    cbn [andb] in K2. assert (HI : In (a, j, b) Tri).
    { apply HTri. rewrite <- !HJ. split; [exact (proj1 (directed_joined _ _ _ H1))|]. split; [exact (proj1 (directed_joined _ _ _ H2))|].
      split; [exact (undirected_neq _ _ _ Hw H3)|]. exact (proj1 (undirected_joined _ _ _ H3)). }
    apply K2 in HI. discriminate.
  - assert (HT : forall x, undirected g a x -> directed g x b -> In (a, x, b) Tri).
    { intros x G1 G2. apply HTri. rewrite <- !HJ. split; [exact (proj1 (undirected_joined _ _ _ G1))|]. split; [exact (proj1 (directed_joined _ _ _ G2))|].
      split; [exact (undirected_neq _ _ _ Hw H5)|]. exact (proj1 (undirected_joined _ _ _ H5)). }
    assert (HK : forall x y, undirected g a x -> undirected g a y -> directed g x b -> directed g y b -> (x < y)%nat -> gm g x y = 0 -> False).
    { intros x y G1 G2 G3 G4 L Z0. specialize (K3 (a, x, y, b)). unfold hrule3 in K3. cbn [fst] in K3.
      rewrite (proj2 (draws_undirected n P g a x Hd ltac:(rewrite <- En; apply G1) ltac:(rewrite <- En; apply G1)) G1) in K3.
      rewrite (proj2 (draws_undirected n P g a y Hd ltac:(rewrite <- En; apply G2) ltac:(rewrite <- En; apply G2)) G2) in K3.
      rewrite (proj2 (draws_directed n P g x b Hd ltac:(rewrite <- En; apply G3) ltac:(rewrite <- En; apply G3)) G3) in K3.
      rewrite (proj2 (draws_directed n P g y b Hd ltac:(rewrite <- En; apply G4) ltac:(rewrite <- En; apply G4)) G4) in K3.
      rewrite (proj2 (draws_undirected n P g a b Hd ltac:(rewrite <- En; apply H5) ltac:(rewrite <- En; apply H5)) H5) in K3.
      cbn [andb] in K3. assert (HI : In (a, x, y, b) Kites).
      { apply HKite. split; [now apply HT|]. split; [now apply HT|]. split; [exact L|]. rewrite <- HJ. intros (_ & _ & K). contradiction. }
      apply K3 in HI. discriminate. }
    destruct (Nat.lt_total j k) as [L|[L|L]]; [apply (HK j k); auto|contradiction|apply (HK k j); auto].
    assert (NJ : ~ joined D j k) by (rewrite <- HJ; intros (_ & _ & K); contradiction).
    destruct (Z.eq_dec (gm g k j) 0) as [Z0|Z0]; [exact Z0|]. exfalso. apply NJ. apply HJ. apply (joined_sym g k j Hw).
    split; [apply H4|]. split; [apply H3|exact Z0].
Qed.
Lemma hloop_completes fuel : forall P g, draws n P g -> wf g -> midway D g -> (ucount g < fuel)%nat ->
  exists P' C, (forall f, (ucount g < f)%nat -> hloop f UT Tri Kites P = Some P') /\ draws n P' C /\ completed D C.
Proof.
  induction fuel as [|fuel IH]; intros P g Hd Hw HM Hf; [lia|].
  destruct (hround UT Tri Kites P) as [P' lp] eqn:E. pose proof (round_inv P g Hd Hw HM) as (g' & H1 & H2 & H3 & H4 & H5 & H6). rewrite E in H1, H5, H6. cbn [fst snd] in *.
  destruct lp.
  - specialize (H5 eq_refl). destruct (IH P' g' H1 H2 H3 ltac:(lia)) as (Q & C & K1 & K2 & K3). exists Q, C. split; [|auto].
    intros f Hf'. destruct f as [|f]; [lia|]. cbn [hloop]. rewrite E. apply K1. lia.
  - pose proof (round_closed P g Hd Hw HM) as HC. rewrite E in HC. cbn [fst snd] in HC. destruct (HC eq_refl) as [-> Hcl]. exists P, g. split; [|split; [exact Hd|now apply midway_closed]].
    intros f Hf'. destruct f as [|f]; [lia|]. cbn [hloop]. now rewrite E.
Qed.
End Loop.

(** ** The first half of dag2pattern *)
Lemma put_colliders_spec UC : forall P i j, put_colliders UC P i j = 1 \/ put_colliders UC P i j = P i j.
Proof.
  induction UC as [|[[a b] c] UC IH]; intros P i j; [now right|]. cbn [put_colliders fold_left]. destruct (IH (upd (upd P a b 1) c b 1) i j) as [E|E]; [left; exact E|].
  change (fold_left _ UC ?P) with (put_colliders UC P). rewrite E. unfold upd. destruct (_ && _); [now left|]. destruct (_ && _); auto.
Qed.
Lemma put_colliders_one UC : forall P i j, put_colliders UC P i j = 1 <-> P i j = 1 \/ exists k, In (i, j, k) UC \/ In (k, j, i) UC.
Proof.
  induction UC as [|[[a b] c] UC IH]; intros P i j; [cbn; firstorder|]. cbn [put_colliders fold_left].
  change (fold_left _ UC ?P) with (put_colliders UC P). rewrite IH. unfold upd. split.
  - intros [H|(k & H)]; [|right; exists k; cbn [In]; tauto].
    destruct (Nat.eqb i c && Nat.eqb j b) eqn:E1.
    { apply andb_true_iff in E1. rewrite !Nat.eqb_eq in E1. destruct E1 as [-> ->]. right. exists a. right. now left. }
    destruct (Nat.eqb i a && Nat.eqb j b) eqn:E2; [|now left].
    apply andb_true_iff in E2. rewrite !Nat.eqb_eq in E2. destruct E2 as [-> ->]. right. exists c. left. now left.
  - intros [H|(k & H)].
    + left. destruct (_ && _); [reflexivity|]. destruct (_ && _); [reflexivity|exact H].
    + cbn [In] in H. destruct H as [[[= -> -> ->]|H]|[[= -> -> ->]|H]].
      * left. rewrite !Nat.eqb_refl. cbn [andb]. destruct (Nat.eqb i k); reflexivity.
      * right. eauto.
      * left. rewrite !Nat.eqb_refl. reflexivity.
      * right. eauto.
Qed.

Section Start.
Variable (n : nat) (A : mat) (D : ggraph).
Hypothesis (HA : draws n A D) (HD : dag D).
Definition start : mat := put_colliders (find_uc n A) (no_heads A).
Lemma uc_collider i j k : In (i, j, k) (find_uc n A) <-> (i < k)%nat /\ ucollider D i j k.
Proof.
  destruct HA as [Hn H]. rewrite in_uc, !in_hdirected. unfold ucollider. rewrite Hn. split.
  - intros ((Hi & Hj & E1 & E2) & (Hk & _ & E3 & E4) & L & E5). split; [exact L|].
    pose proof (H i j Hi Hj) as (A1 & _). pose proof (H j i Hj Hi) as (_ & A2 & _). pose proof (H k j Hk Hj) as (A3 & _). pose proof (H j k Hj Hk) as (_ & A4 & _).
    apply A1 in E1. apply A2 in E2. apply A3 in E3. apply A4 in E4.
    assert (E6 : gm D k i = 0) by (apply (H i k Hi Hk); [lia|exact E5]).
    assert (E7 : gm D i k = 0).
    { destruct (Z.eq_dec (gm D i k) 0); [assumption|]. exfalso. destruct (proj2 (proj2 HD) i k) as [[]|[]]; rewrite ?Hn; auto; lia. }
    repeat split; auto; lia.
  - intros (L & Hi & Hj & Hk & N & E1 & E2 & E3 & E4 & E5).
    pose proof (H i j Hi Hj) as (A1 & _). pose proof (H j i Hj Hi) as (_ & A2 & _). pose proof (H k j Hk Hj) as (A3 & _). pose proof (H j k Hj Hk) as (_ & A4 & _).
    rewrite A1, A2, A3, A4.
    assert (G1 : gm D i j = -1). { destruct (proj2 (proj2 HD) i j) as [[]|[]]; rewrite ?Hn; auto; lia. }
    assert (G2 : gm D k j = -1). { destruct (proj2 (proj2 HD) k j) as [[]|[]]; rewrite ?Hn; auto; lia. }
    assert (G3 : A i k = -1).
    { apply (H i k Hi Hk); [lia|]. destruct (Z.eq_dec (gm D k i) 0); [assumption|]. exfalso. destruct (proj2 (proj2 HD) k i) as [[]|[]]; rewrite ?Hn; auto; lia. }
    auto 10.
Qed.
Lemma ucollider_sym a b c : ucollider D a b c -> ucollider D c b a.
Proof.
  intros (H1 & H2 & H3 & H4 & H5 & H6 & H7 & H8 & H9). repeat split; auto.
  destruct (Z.eq_dec (gm D c a) 0); [assumption|]. exfalso. destruct (proj2 (proj2 HD) c a) as [[]|[]]; auto; lia.
Qed.
Lemma start_one i j : (i < n)%nat -> (j < n)%nat -> start i j = 1 <-> exists k, ucollider D i j k.
Proof.
  intros Hi Hj. unfold start. rewrite put_colliders_one. unfold no_heads. split.
  - intros [H|(k & [H|H])].
    + destruct (Z.eqb_spec (A i j) 1); [discriminate|congruence].
    + apply uc_collider in H. exists k. apply H.
    + apply uc_collider in H. exists k. apply ucollider_sym, H.
  - intros (k & H). right. exists k. rewrite !uc_collider. pose proof H as (_ & _ & _ & N & _). pose proof (ucollider_sym _ _ _ H).
    destruct (Nat.lt_total i k) as [L|[L|L]]; [left; auto|contradiction|right; auto].
Qed.
Lemma start_other i j : start i j <> 1 -> start i j = no_heads A i j.
Proof. intros N. destruct (put_colliders_spec (find_uc n A) (no_heads A) i j) as [E|E]; [contradiction|exact E]. Qed.
(** The graph drawn. *)
Definition drawn : ggraph := mkG n (fun i j => if start j i =? 1 then 1 else if start j i =? 0 then -1 else 0) (fun _ _ => 0).
Lemma A_values i j : (i < n)%nat -> (j < n)%nat -> i <> j -> A i j = -1 \/ A i j = 0 \/ A i j = 1.
Proof.
  intros Hi Hj N. destruct HA as [Hn H]. destruct (H i j Hi Hj) as (K1 & K2 & K3). specialize (K3 N).
  destruct (Z.eq_dec (gm D j i) 0) as [E|E]; [tauto|]. destruct (proj2 (proj2 HD) j i) as [[]|[]]; rewrite ?Hn; auto; tauto.
Qed.
Lemma start_values i j : (i < n)%nat -> (j < n)%nat -> i <> j -> start i j = -1 \/ start i j = 0 \/ start i j = 1.
Proof.
  intros Hi Hj N. destruct (Z.eq_dec (start i j) 1) as [E|E]; [tauto|]. rewrite (start_other _ _ E). unfold no_heads.
  destruct (Z.eqb_spec (A i j) 1); [tauto|]. destruct (A_values i j Hi Hj N) as [K|[K|K]]; tauto.
Qed.
Lemma drawn_draws : draws n start drawn.
Proof.
  split; [reflexivity|]. intros i j Hi Hj. cbn [gm drawn]. split; [|split].
  - destruct (Z.eqb_spec (start i j) 1); [tauto|]. destruct (Z.eqb_spec (start i j) 0); lia.
  - destruct (Z.eqb_spec (start i j) 1); [lia|]. destruct (Z.eqb_spec (start i j) 0); lia.
  - intros N. pose proof (start_values i j Hi Hj N). destruct (Z.eqb_spec (start i j) 1); [lia|]. destruct (Z.eqb_spec (start i j) 0); lia.
Qed.
(** An entry of the start matrix is -1, when off the diagonal, exactly for nonadjacent nodes. *)
Lemma drawn_joined a b : joined drawn a b <-> joined D a b.
Proof.
  pose proof HA as [Hn H]. unfold joined. rewrite Hn. cbn [gn drawn]. split; intros (Ha & Hb & K); (split; [exact Ha|]; split; [exact Hb|]).
  - cbn [gm drawn] in K. intros E. apply K. pose proof (H b a Hb Ha) as (K1 & K2 & K3).
    assert (N1 : start b a <> 1).
    { intros F. apply start_one in F; auto. destruct F as (k & _ & _ & _ & _ & F & _). lia. }
    rewrite (start_other _ _ N1) in *. unfold no_heads in *.
    destruct (Z.eqb_spec (A b a) 1) as [F|F]; [apply K1 in F; lia|]. destruct (Z.eqb_spec (A b a) 1) as [F'|F']; [lia|].
    destruct (Z.eqb_spec (A b a) 0) as [G|G]; [apply K2 in G; lia|reflexivity].
  - cbn [gm drawn]. pose proof (H b a Hb Ha) as (K1 & K2 & K3).
    destruct (Z.eqb_spec (start b a) 1) as [F|F]; [lia|]. rewrite (start_other _ _ F). unfold no_heads.
    destruct (Z.eqb_spec (A b a) 1) as [G|G]; [cbn; lia|]. destruct (Z.eqb_spec (A b a) 0) as [G2|G2]; [lia|]. exfalso.
    destruct (proj2 (proj2 HD) a b) as [[]|[]]; rewrite ?Hn; auto; tauto.
Qed.
Lemma drawn_directed a b : directed drawn a b <-> exists c, ucollider D a b c.
Proof.
  pose proof HA as [Hn H]. unfold directed. cbn [gn gm drawn]. split.
  - intros (Ha & Hb & E1 & E2). apply start_one; auto.
    destruct (Z.eqb_spec (start a b) 1); [assumption|]. destruct (Z.eqb_spec (start a b) 0); lia.
  - intros (c & Hc). pose proof Hc as (Ha & Hb & _). rewrite Hn in Ha, Hb. split; [exact Ha|]. split; [exact Hb|].
    rewrite (proj2 (start_one a b Ha Hb)) by eauto. split; [|reflexivity].
    destruct (ucollider_directed D HD a b c Hc) as [(_ & _ & E1 & E2) _].
    assert (N : start b a <> 1).
    { intros F. apply start_one in F; auto. destruct F as (d & F). destruct (ucollider_directed D HD b a d F) as [(_ & _ & G1 & G2) _]. lia. }
    rewrite (start_other _ _ N). unfold no_heads. pose proof (H b a Hb Ha) as (K1 & K2 & K3). apply K2 in E1. rewrite E1. reflexivity.
Qed.
Lemma drawn_pd : partially_directed drawn.
Proof.
  intros a b J. pose proof J as (Ha & Hb & N). pose proof HA as [Hn H]. cbn [gn drawn] in Ha, Hb. cbn [gm drawn] in N.
  pose proof (proj1 (drawn_joined a b) J) as (_ & _ & N0).
  assert (Hdir : (A a b = 1 /\ A b a = 0) \/ (A a b = 0 /\ A b a = 1)).
  { pose proof (H a b Ha Hb) as (K1 & K2 & _). pose proof (H b a Hb Ha) as (K3 & K4 & _).
    destruct (proj2 (proj2 HD) a b) as [[G1 G2]|[G1 G2]]; rewrite ?Hn; auto; tauto. }
  destruct (Z.eq_dec (start a b) 1) as [E|E].
  - left. apply drawn_directed, start_one; auto.
  - destruct (Z.eq_dec (start b a) 1) as [F|F].
    + right; left. apply drawn_directed, start_one; auto.
    + right; right. split; [exact Ha|]. split; [exact Hb|]. cbn [gm drawn]. rewrite (start_other _ _ E), (start_other _ _ F). unfold no_heads.
      destruct Hdir as [[-> ->]|[-> ->]]; auto.
Qed.
Lemma drawn_wf : wf drawn.
Proof.
  pose proof HA as [Hn H]. split.
  - intros i Hi. cbn [gn drawn] in Hi. destruct (Z.eq_dec (gm drawn i i) 0) as [E|E]; [exact E|].
    exfalso. assert (J : joined D i i) by (apply drawn_joined; repeat split; auto). destruct J as (K1 & _ & K). apply K. now apply HD.
  - intros i j Hi Hj. cbn [gn drawn] in Hi, Hj. destruct (Z.eq_dec (gm drawn i j) 0) as [E|E].
    + assert (E2 : gm drawn j i = 0).
      { destruct (Z.eq_dec (gm drawn j i) 0) as [|N]; [assumption|]. exfalso.
        assert (J : joined D j i) by (apply drawn_joined; repeat split; auto). apply (joined_sym D) in J; [|apply HD].
        apply drawn_joined in J. destruct J as (_ & _ & J). contradiction. }
      rewrite E, E2. unfold legal_pair, legal_pairs. cbn. tauto.
    + destruct (drawn_pd i j) as [(_ & _ & K1 & K2)|[(_ & _ & K1 & K2)|(_ & _ & K1 & K2)]]; [repeat split; auto|..]; rewrite K1, K2; unfold legal_pair, legal_pairs; cbn; tauto.
Qed.
Lemma start_pattern : pattern D drawn.
Proof. split; [symmetry; apply HA|]. split; [exact drawn_joined|]. split; [exact drawn_directed|exact drawn_pd]. Qed.
Lemma linked_joined x y : linked n start x y <-> joined D x y.
Proof.
  pose proof drawn_draws as [_ H]. split.
  - intros (Hx & Hy & K). apply (joined_sym D); [apply HD|]. apply drawn_joined. split; [exact Hy|]. split; [exact Hx|].
    pose proof (H x y Hx Hy) as (K1 & K2 & _). lia.
  - intros J. apply (joined_sym D) in J; [|apply HD]. pose proof J as (Hy & Hx & _). rewrite (proj1 HA) in Hx, Hy.
    split; [exact Hx|]. split; [exact Hy|]. apply drawn_joined in J. pose proof (H x y Hx Hy) as (K1 & K2 & _).
    destruct (drawn_pd y x J) as [(_ & _ & G1 & G2)|[(_ & _ & G1 & G2)|(_ & _ & G1 & G2)]]; tauto.
Qed.
Lemma start_apart x y : (x < n)%nat -> (y < n)%nat -> x <> y -> start x y = -1 <-> ~ joined D x y.
Proof.
  intros Hx Hy N. rewrite <- linked_joined. unfold linked. pose proof (start_values x y Hx Hy N). intuition lia.
Qed.
Lemma start_completes : exists P C, (forall f, (n * n < f)%nat -> dag2pattern f n A = Some P) /\ draws n P C /\ completed D C.
Proof.
  assert (HT : forall i j k, In (i, j, k) (hfind_tri n start) <-> joined D i j /\ joined D j k /\ i <> k /\ joined D i k).
  { intros i j k. rewrite in_htri, !linked_joined. tauto. }
  destruct (hloop_completes n D HD (hfind_ut n start) (hfind_tri n start) (hfind_kites n start)) with (P := start) (g := drawn) (fuel := S (ucount drawn))
    as (P & C & H1 & H2 & H3).
  - intros i j k. rewrite in_hut, !linked_joined. split.
    + intros (J1 & J2 & N & E). split; [exact J1|]. split; [exact J2|]. split; [exact N|]. pose proof J1 as (Hi & _). pose proof J2 as (_ & Hk & _). rewrite (proj1 HA) in Hi, Hk.
      now apply start_apart.
    + intros (J1 & J2 & N & E). split; [exact J1|]. split; [exact J2|]. split; [exact N|]. pose proof J1 as (Hi & _). pose proof J2 as (_ & Hk & _). rewrite (proj1 HA) in Hi, Hk.
      now apply start_apart.
  - exact HT.
  - intros i j k l. rewrite in_hkite. split; intros (T1 & T2 & L & E); (split; [exact T1|]; split; [exact T2|]; split; [exact L|]);
    apply HT in T1, T2; destruct T1 as ((_ & Hj & _) & _), T2 as ((_ & Hk & _) & _); rewrite (proj1 HA) in Hj, Hk; apply start_apart; auto; lia.
  - exact drawn_draws.
  - exact drawn_wf.
  - apply pattern_midway, start_pattern.
  - lia.
  - exists P, C. split; [|auto]. intros f Hf. unfold dag2pattern. apply H1. pose proof (ucount_bound drawn). cbn [gn drawn] in *. lia.
Qed.
End Start.
