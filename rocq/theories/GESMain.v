(** Greedy equivalence search: every step is an improving move between equivalence classes, and the phases end in
    local optima. *)
From Verif Require Import Base EdgeModel EdgeProofs GraphModel GraphSpec GraphProofs RankLib UtilsModel UtilsProofs
  DsepSpec DsepProofs MeekSpec MeekProofs PdagModel PdagProofs PdagProps CpdagModel CpdagSpec CpdagProofs CpdagMain CpdagProps
  SkelModel SkelProofs PCModel ExactSpec GESSpec GESTheory GESModel GESProofs GESSweep.
From Coq Require Import Permutation Sorted.
Local Open Scope Z_scope.

(* ---------- scores ---------- *)
Lemma in_parents D p v : dag D -> (v < gn D)%nat -> In p (parents D v) <-> directed D p v.
Proof. intros HD Hv. apply (in_paj D v p); [now apply dag_pdag|exact Hv]. Qed.
Lemma nodup_parents D v : NoDup (parents D v). Proof. apply nodup_filter_seq. Qed.

Lemma sum_diff (f f' : nat -> Z) y l : NoDup l -> (forall v, In v l -> v <> y -> f' v = f v) -> In y l ->
  fold_right Z.add 0 (map f' l) = fold_right Z.add 0 (map f l) + (f' y - f y).
Proof.
  induction l as [|a l IH]; intros N H Hy; [destruct Hy|]. apply NoDup_cons_iff in N. destruct N as [Na N]. cbn [map fold_right].
  destruct Hy as [->|Hy].
  - assert (E : map f' l = map f l).
    { apply map_ext_in. intros v Hv. apply H; [now right|]. intros ->. contradiction. }
    rewrite E. lia.
  - rewrite IH; auto; [|intros v Hv; apply H; now right]. rewrite (H a); [lia|now left|]. intros ->. contradiction.
Qed.
Lemma score_changes sc D D' y : gn D' = gn D -> (y < gn D)%nat -> (forall v, (v < gn D)%nat -> v <> y -> parents D' v = parents D v) ->
  dag_score sc D' = dag_score sc D + (sc y (parents D' y) - sc y (parents D y)).
Proof.
  intros Hn Hy H. unfold dag_score. rewrite Hn. apply (sum_diff (fun v => sc v (parents D v)) (fun v => sc v (parents D' v)) y).
  - apply seq_NoDup.
  - intros v Hv N. apply in_seq0 in Hv. now rewrite H.
  - now apply in_seq0.
Qed.
Lemma parents_ext D D' v : dag D -> dag D' -> gn D' = gn D -> (v < gn D)%nat -> (forall p, directed D' p v <-> directed D p v) -> parents D' v = parents D v.
Proof.
  intros HD HD' Hn Hv H. unfold parents. rewrite Hn. apply filter_ext_in. intros p Hp. apply in_seq0 in Hp.
  apply eq_true_iff_eq. rewrite !Z.eqb_eq.
  assert (K : forall E, dag E -> (p < gn E)%nat -> (v < gn E)%nat -> gm E v p = 1 <-> directed E p v).
  { intros E HE H1 H2. rewrite <- (in_parents E p v HE H2). unfold parents. rewrite filter_In, in_seq0, Z.eqb_eq. tauto. }
  rewrite !K; auto; lia.
Qed.
Lemma adds_score sc G X Y G' : dag G -> adds G X Y G' -> dag_score sc G' = dag_score sc G + (sc Y (parents G' Y) - sc Y (parents G Y)).
Proof.
  intros HG (Hn & HD & HX & HY & _ & He). apply score_changes; auto. intros v Hv N. apply parents_ext; auto.
  intros p. rewrite He. split; [intros [H|[_ H]]; [exact H|congruence]|auto].
Qed.
Lemma drops_score sc G X Y G' : dag G -> drops G X Y G' -> dag_score sc G' = dag_score sc G + (sc Y (parents G' Y) - sc Y (parents G Y)).
Proof.
  intros HG (Hn & HD & (HX & HY & _) & He). apply score_changes; auto. intros v Hv N. apply parents_ext; auto.
  intros p. rewrite He. split; [tauto|]. intros H. split; [exact H|]. intros [_ ->]. congruence.
Qed.
Lemma sc_same sc y l m : set_score sc -> NoDup l -> NoDup m -> (forall x, In x l <-> In x m) -> sc y l = sc y m.
Proof. intros H Hl Hm E. apply H. now apply NoDup_Permutation. Qed.

(* ---------- counting the adjacencies ---------- *)
Definition joinedb (g : ggraph) (e : nat * nat) : bool := negb (gm g (fst e) (snd e) =? 0).
Definition ecount (g : ggraph) : nat := length (filter (joinedb g) (all_ij (gn g))).
Lemma all_ij_length n : length (all_ij n) = (n * n)%nat.
Proof.
  unfold all_ij. assert (H : forall l, length (flat_map (fun i : nat => map (fun j : nat => (i, j)) (seq 0 n)) l) = (length l * n)%nat).
  { induction l as [|a l IH]; cbn; [reflexivity|]. rewrite app_length, map_length, seq_length, IH. lia. }
  now rewrite H, seq_length.
Qed.
Lemma ecount_le g : (ecount g <= gn g * gn g)%nat.
Proof. unfold ecount. rewrite <- all_ij_length. apply filter_length_le. Qed.
Lemma filter_le {A} (f h : A -> bool) l : (forall x, In x l -> f x = true -> h x = true) -> (length (filter f l) <= length (filter h l))%nat.
Proof.
  induction l as [|a l IH]; intros H; [cbn; lia|]. cbn [filter].
  assert (K : (length (filter f l) <= length (filter h l))%nat) by (apply IH; intros; apply H; auto; now right).
  destruct (f a) eqn:F; [rewrite (H a (or_introl eq_refl) F); cbn; lia|]. destruct (h a); cbn; lia.
Qed.
Lemma filter_lt {A} (f h : A -> bool) l y : (forall x, In x l -> f x = true -> h x = true) -> In y l -> h y = true -> f y = false ->
  (length (filter f l) < length (filter h l))%nat.
Proof.
  induction l as [|a l IH]; intros H Hy H1 H2; [destruct Hy|]. cbn [filter].
  assert (Hl : forall x, In x l -> f x = true -> h x = true) by (intros; apply H; auto; now right).
  destruct Hy as [->|Hy].
  - rewrite H1, H2. pose proof (filter_le f h l Hl). cbn. lia.
  - pose proof (IH Hl Hy H1 H2). destruct (f a) eqn:F; [rewrite (H a (or_introl eq_refl) F); cbn; lia|]. destruct (h a); cbn; lia.
Qed.
Lemma ecount_lt g g' a b : gn g' = gn g -> (forall x y, joined g x y -> joined g' x y) -> joined g' a b -> ~ joined g a b -> (ecount g < ecount g')%nat.
Proof.
  intros Hn H J NJ. unfold ecount. rewrite Hn. apply filter_lt with (y := (a, b)).
  - intros [x y] Hx. apply in_all_ij in Hx. unfold joinedb. cbn [fst snd]. rewrite !negb_true_iff, !Z.eqb_neq. intros K. apply (H x y). split; [tauto|split; [tauto|exact K]].
  - apply in_all_ij. rewrite <- Hn. split; apply J.
  - unfold joinedb. cbn [fst snd]. rewrite negb_true_iff, Z.eqb_neq. apply J.
  - unfold joinedb. cbn [fst snd]. rewrite negb_false_iff, Z.eqb_eq. destruct (Z.eq_dec (gm g a b) 0); [assumption|]. exfalso. apply NJ.
    split; [rewrite <- Hn; apply J|]. split; [rewrite <- Hn; apply J|assumption].
Qed.

(* ---------- one step ---------- *)
Section Steps.
Variables (n gf : nat) (sc : nat -> list nat -> Z).
Hypothesis Hset : set_score sc.
Hypothesis Hequiv : score_equivalent n sc.
Hypothesis Hgf : (n < gf)%nat.

Definition good (C : ggraph) (s : Z) : Prop := exists D, gn D = n /\ dag D /\ completed D C /\ s = dag_score sc D.

Lemma good_n C s : good C s -> gn C = n.
Proof. intros (D & H1 & _ & H2 & _). rewrite <- H1. apply H2. Qed.
Lemma good_pdag C s : good C s -> pdag C.
Proof. intros (D & _ & _ & H & _). eapply completed_pdag; eauto. Qed.

(** From the operator applied to the completed graph to the next completed graph. *)
Lemma resume P G' : gn P = n -> pdag P -> extension P G' -> exists D1 C1, pdag2dag gf P = Some D1 /\ dag2cpdag gf D1 = Ret C1 /\
  good C1 (dag_score sc G') /\ (forall a b, joined C1 a b <-> joined P a b) /\ completed G' C1.
Proof.
  intros Pn HP HE. destruct (C19_returns_iff_extendable P HP) as [_ R].
  destruct (R gf) as [D1 E1]; [eauto|lia|]. pose proof (C18_pdag2dag_extension _ _ _ HP E1) as X1.
  pose proof X1 as (N1 & A1 & J1 & _).
  destruct (dag2cpdag_correct D1 gf A1) as (C1 & E2 & HC1); [lia|].
  assert (EQ : equivalent D1 G') by (eapply extensions_equivalent; eauto).
  exists D1, C1. split; [exact E1|]. split; [exact E2|]. split.
  - exists D1. split; [congruence|]. split; [exact A1|]. split; [exact HC1|]. symmetry. apply Hequiv; [congruence|exact EQ].
  - split; [|eapply completed_class; eauto]. intros a b. destruct HC1 as (_ & _ & J2 & _). rewrite J2. apply J1.
Qed.

Lemma insert_step C s maxP i j T : good C s -> valid_ins C maxP (i, j, T) ->
  exists P D1 C1, insert_op C i j T = Ok P /\ pdag2dag gf P = Some D1 /\ dag2cpdag gf D1 = Ret C1 /\
    good C1 (s + delta_ins C sc (i, j, T)) /\ (ecount C < ecount C1)%nat /\
    exists G G', dag G /\ completed G C /\ adds G i j G' /\ completed G' C1 /\ s = dag_score sc G /\ s + delta_ins C sc (i, j, T) = dag_score sc G'.
Proof.
  intros Hg (Hi & Hj & (G1 & G2 & N & _) & HT & T1 & Ho).
  pose proof (good_n _ _ Hg) as Cn. pose proof (good_pdag _ _ Hg) as HP. destruct Hg as (D & Dn & Hd & HC & ->).
  assert (NJ : ~ joined C i j) by (intros (_ & _ & K); contradiction).
  apply combinatorial_sub in HT. destruct HT as [HT _].
  assert (HTu : forall t, In t T -> undirected C t j /\ ~ joined C t i).
  { intros t Ht. apply HT in Ht. now apply in_T0 in Ht; [| apply HP | |]. }
  set (cl := union1 C (NAset C i j) T).
  assert (Hcl : forall t, In t cl <-> (undirected C t j /\ joined C t i) \/ In t T).
  { intros t. unfold cl. rewrite in_union1, in_NA by (auto; apply HP). split; [tauto|]. intros [H|H]; [split; [apply H|auto]|]. split; [apply (HTu t H)|auto]. }
  destruct (insert_op_spec C i j T HP Hi Hj N NJ) as (P & EP & IP); [intros t Ht; now apply HTu|].
  destruct (insert_sound D C Hd HC i j cl) as (G & G' & HG & HA & Hpa & Hext); auto.
  - lia. - lia.
  - apply nodup_union1.
  - intros t Ht. apply Hcl in Ht. destruct Ht as [Ht|Ht]; [tauto|]. now apply HTu.
  - intros t H1 H2. apply Hcl. auto.
  - unfold insert_test1 in T1. rewrite check_clique_iff in T1; auto; [apply nodup_union1|]. intros a Ha. now apply in_union1 in Ha.
  - assert (HX : extension P G').
    { apply (Hext T P); [|exact IP]. intros t. rewrite Hcl. split; [intros H; split; [auto|now apply HTu]|]. tauto. }
    pose proof IP as (Pn & Pw & Pk & Pj & Pd).
    assert (PP : pdag P) by (split; auto).
    destruct (resume P G') as (D1 & C1 & E1 & E2 & HG1 & J1 & HC1); auto; [congruence|].
    assert (HGd : dag G) by apply HG.
    exists P, D1, C1. split; [exact EP|]. split; [exact E1|]. split; [exact E2|].
    assert (ES : dag_score sc D + delta_ins C sc (i, j, T) = dag_score sc G').
    { symmetry.
      rewrite (adds_score sc G i j G' HGd HA). rewrite (Hequiv D G Dn HG). f_equal. cbn [delta_ins].
      pose proof HA as (An & Ad & _ & _ & _ & Ae). assert (GnC : gn G = gn C) by (rewrite (proj1 HG); lia).
      f_equal; apply sc_same; auto using nodup_parents; try apply nodup_union1.
      * intros p. rewrite in_parents by (auto; lia). rewrite Ae, Hpa. unfold insert_sets. cbn [fst snd]. fold cl. rewrite !in_union1, in_paj by auto.
        cbn [In]. split.
        -- intros [[H|H]|[-> _]].
           ++ assert (p < gn C)%nat by apply H. tauto.
           ++ assert (p < gn C)%nat by (unfold cl in H; apply in_union1 in H; tauto). tauto.
           ++ auto.
        -- intros (_ & [(_ & [H|H])|[H|[]]]); subst; auto.
      * intros p. rewrite in_parents by (auto; lia). rewrite Hpa. unfold insert_sets. cbn [fst snd]. fold cl. rewrite !in_union1, in_paj by auto. split.
        -- intros [H|H]; [assert (p < gn C)%nat by apply H; tauto|]. assert (p < gn C)%nat by (unfold cl in H; apply in_union1 in H; tauto). tauto.
        -- tauto. }
    split; [rewrite ES; exact HG1|]. split.
    + apply (ecount_lt C C1 i j).
      * rewrite (good_n _ _ HG1). congruence.
      * intros x y H. apply J1, Pj. auto.
      * apply J1, Pj. auto.
      * exact NJ.
    + exists G, G'. split; [exact HGd|]. split; [eapply completed_class; eauto|]. split; [exact HA|]. split; [exact HC1|]. split; [apply Hequiv; auto|exact ES].
Qed.

Lemma delete_step C s i j H : good C s -> valid_del C (i, j, H) ->
  exists P D1 C1, delete_op C i j H = Ok P /\ pdag2dag gf P = Some D1 /\ dag2cpdag gf D1 = Ret C1 /\
    good C1 (s + delta_del C sc (i, j, H)) /\ (ecount C1 < ecount C)%nat /\
    exists G G', dag G /\ completed G C /\ drops G i j G' /\ completed G' C1 /\ s = dag_score sc G /\ s + delta_del C sc (i, j, H) = dag_score sc G'.
Proof.
  intros Hg (Hi & Hj & Gd & HH & T1).
  pose proof (good_n _ _ Hg) as Cn. pose proof (good_pdag _ _ Hg) as HP. destruct Hg as (D & Dn & Hd & HC & ->).
  assert (HXY : directed C i j \/ undirected C i j).
  { destruct Gd as [[K1 K2]|K]; [right; repeat split; auto|]. left. destruct HP as [W K0].
    destruct (K0 j i) as [(_ & _ & H1 & _)|[H1|(_ & _ & H1 & _)]]; [repeat split; auto; lia|lia|exact H1|lia]. }
  assert (J : joined C i j) by (destruct HXY as [K|K]; [now apply directed_joined|now apply undirected_joined]).
  apply combinatorial_sub in HH. destruct HH as [HH _].
  assert (HHu : forall h, In h H -> undirected C h j /\ joined C h i).
  { intros h Hh. apply HH in Hh. now apply in_NA in Hh; [| apply HP | |]. }
  assert (NHi : forall h, In h H -> ~ directed C h i).
  { intros h Hh K. destruct (HHu h Hh) as [Uh _]. destruct HXY as [K'|K'].
    - eapply (cl_cycle3 D C HC h i j); eauto. now apply undirected_sym.
    - apply (directed_undirected C h j); [|exact Uh]. eapply (cl_prop D C Hd HC h i); eauto. }
  set (c0 := filter (fun k => negb (memb k H)) (NAset C i j)).
  assert (Hc0 : forall t, In t c0 <-> undirected C t j /\ joined C t i /\ ~ In t H).
  { intros t. unfold c0. rewrite filter_In, negb_true_iff, memb_not_In, in_NA by (auto; apply HP). tauto. }
  destruct (delete_op_spec C i j H HP J) as (P & EP & IP).
  { intros K. destruct HXY as [K'|K']; [now apply (directed_asym C i j)|now apply (directed_undirected' C j i)]. }
  { intros h Hh. destruct (HHu h Hh). auto. }
  destruct (delete_sound D C Hd HC i j H c0) as (G & G' & HG & HA & Hpa & Hext); auto.
  - apply NoDup_filter, nodup_NA.
  - unfold delete_test in T1. rewrite check_clique_iff in T1; auto; [apply NoDup_filter, nodup_NA|]. intros a Ha. apply Hc0 in Ha. apply Ha.
  - specialize (Hext P IP). pose proof IP as (Pn & Pw & Pk & Pj & Pd).
    assert (PP : pdag P) by (split; auto).
    destruct (resume P G') as (D1 & C1 & E1 & E2 & HG1 & J1 & HC1); auto; [congruence|].
    assert (HGd : dag G) by apply HG.
    exists P, D1, C1. split; [exact EP|]. split; [exact E1|]. split; [exact E2|].
    assert (ES : dag_score sc D + delta_del C sc (i, j, H) = dag_score sc G').
    { symmetry.
      rewrite (drops_score sc G i j G' HGd HA). rewrite (Hequiv D G Dn HG). f_equal. cbn [delta_del].
      pose proof HA as (An & Ad & _ & Ae). assert (GnC : gn G = gn C) by (rewrite (proj1 HG); lia).
      assert (Rg : forall p, In p c0 -> (p < gn C)%nat) by (intros p Hp; apply Hc0 in Hp; apply Hp).
      assert (Rd : forall p, directed C p j -> (p < gn C)%nat) by (intros p Hp; apply Hp).
      f_equal; apply sc_same; auto using nodup_parents; try apply nodup_union1; try (apply NoDup_filter, nodup_union1).
      * intros p. rewrite in_parents by (auto; lia). rewrite Ae, Hpa. unfold delete_sets. cbn [fst snd]. fold c0.
        rewrite filter_In, negb_true_iff, Nat.eqb_neq, !in_union1, in_paj by auto. cbn [In]. split.
        -- intros [[K|[K|K]] N]; [pose proof (Rd p K); split; [tauto|]|pose proof (Rg p K); split; [tauto|]|exfalso; subst; tauto]; intros ->; tauto.
        -- intros [(_ & [K|(_ & [K|[K|[]]])]) N]; subst; try (split; [tauto|]; intros [-> _]; congruence). congruence.
      * intros p. rewrite in_parents by (auto; lia). rewrite Hpa. unfold delete_sets. cbn [fst snd]. fold c0. rewrite !in_union1, in_paj by auto. cbn [In]. split.
        -- intros [K|[K|K]]; [pose proof (Rd p K); tauto|pose proof (Rg p K); tauto|subst p; assert (i = i) by reflexivity; tauto].
        -- intros (_ & [K|(_ & [K|[K|[]]])]); subst; auto. }
    split; [rewrite ES; exact HG1|]. split.
    + apply (ecount_lt C1 C i j).
      * rewrite (good_n _ _ HG1). congruence.
      * intros x y K. apply J1, Pj in K. tauto.
      * exact J.
      * intros K. apply J1, Pj in K. tauto.
    + exists G, G'. split; [exact HGd|]. split; [eapply completed_class; eauto|]. split; [exact HA|]. split; [exact HC1|]. split; [apply Hequiv; auto|exact ES].
Qed.

(* ---------- every single-edge change of a member DAG is considered ---------- *)
Lemma insert_considered C s maxP G X Y G' : good C s -> completed G C -> dag G -> adds G X Y G' -> Z.of_nat (length (paj C Y)) <= maxP ->
  exists T, valid_ins C maxP (X, Y, T) /\ delta_ins C sc (X, Y, T) = dag_score sc G' - dag_score sc G.
Proof.
  intros Hg HC Hd HA Hmax. pose proof (good_n _ _ Hg) as Cn. pose proof (good_pdag _ _ Hg) as HP.
  pose proof (cl_n G C HC) as GnC. pose proof HA as (An & Ad & HX & HY & NJ & Ae).
  destruct (insert_complete G C Hd HC G G' X Y (equivalent_refl G Hd) HA) as (NJC & K2 & K3 & K4).
  assert (HXC : (X < gn C)%nat) by lia. assert (HYC : (Y < gn C)%nat) by lia.
  assert (W : wf C) by apply HP.
  set (T := filter (fun t => dirb G t Y) (T0set C X Y)). exists T.
  assert (HT : forall t, In t T <-> undirected C t Y /\ ~ joined C t X /\ directed G t Y).
  { intros t. unfold T. rewrite filter_In, dirb_iff, in_T0 by auto. tauto. }
  assert (Hcl : forall t, In t (union1 C (NAset C X Y) T) <-> undirected C t Y /\ directed G t Y).
  { intros t. rewrite in_union1, in_NA, HT by auto. split.
    - intros (_ & [[H1 H2]|H]); [split; [exact H1|now apply K2]|tauto].
    - intros [H1 H2]. split; [apply H1|]. destruct (joined_dec C t X); tauto. }
  split.
  - cbn [valid_ins]. split; [exact HXC|]. split; [exact HYC|]. split; [|split; [|split]].
    + split; [|split; [|split; [|exact Hmax]]].
      * destruct (Z.eq_dec (gm C X Y) 0); [assumption|]. exfalso. apply NJC. split; auto.
      * destruct (Z.eq_dec (gm C Y X) 0); [assumption|]. exfalso. apply NJC. apply wf_joined_sym; [exact W|]. split; auto.
      * intros ->. apply (dag_irr G' Y Ad). apply Ae. auto.
    + apply combinatorial_filter.
    + unfold insert_test1. rewrite check_clique_iff; auto using nodup_union1; [|intros a Ha; now apply in_union1 in Ha].
      intros a b Ha Hb N. apply Hcl in Ha, Hb. apply K3; tauto.
    + intros R. apply K4. apply (reach_mono _ _ (fun u v H => H)) in R.
      apply (reach_mono (fun u v => semi_step C u v /\ ~ In u (union1 C (NAset C X Y) T))); [|exact R]. intros u v [H1 H2]. split; [exact H1|]. now rewrite <- Hcl.
  - rewrite (adds_score sc G X Y G' Hd HA). cbn [delta_ins].
    assert (E : forall p, directed G p Y <-> directed C p Y \/ (undirected C p Y /\ directed G p Y)).
    { intros p. split; [|intros [H|H]; [eapply (cl_dir G C HC p Y); eauto using equivalent_refl|tauto]].
      intros H. destruct (cl_semi G C HC G p Y (equivalent_refl G Hd) H) as [K|K]; auto. }
    assert (E3 : sc Y (fst (insert_sets C X Y T)) = sc Y (parents G' Y)).
    { apply sc_same; auto using nodup_parents; [apply nodup_union1|]. intros p. rewrite in_parents by (auto; lia). rewrite Ae, E.
      unfold insert_sets. cbn [fst snd]. rewrite in_union1, (in_union1 _ _ (paj C Y)), Hcl, in_paj by auto. cbn [In].
      split; [intros (_ & [(_ & [H|H])|[H|[]]]); subst; auto|]. intros [[H|H]|[-> _]]; [assert (p < gn C)%nat by apply H; tauto|assert (p < gn C)%nat by apply H; tauto|auto]. }
    assert (E2 : sc Y (snd (insert_sets C X Y T)) = sc Y (parents G Y)).
    { apply sc_same; auto using nodup_parents; [apply nodup_union1|]. intros p. rewrite in_parents by (auto; lia). rewrite E.
      unfold insert_sets. cbn [fst snd]. rewrite (in_union1 _ _ (paj C Y)), Hcl, in_paj by auto.
      split; [tauto|]. intros [H|H]; assert (p < gn C)%nat by apply H; tauto. }
    rewrite E2, E3. lia.
Qed.

Lemma delete_considered C s G X Y G' : good C s -> completed G C -> dag G -> drops G X Y G' ->
  exists H, valid_del C (X, Y, H) /\ delta_del C sc (X, Y, H) = dag_score sc G' - dag_score sc G.
Proof.
  intros Hg HC Hd HA. pose proof (good_n _ _ Hg) as Cn. pose proof (good_pdag _ _ Hg) as HP.
  pose proof (cl_n G C HC) as GnC. pose proof HA as (An & Ad & HXY & Ae). pose proof HXY as (HX & HY & _).
  destruct (delete_complete G C HC G X Y (equivalent_refl G Hd) HXY) as (K1 & K2 & K3).
  assert (HXC : (X < gn C)%nat) by lia. assert (HYC : (Y < gn C)%nat) by lia.
  assert (W : wf C) by apply HP.
  set (H := filter (fun t => negb (dirb G t Y)) (NAset C X Y)). exists H.
  assert (Hc0 : forall t, In t (filter (fun k => negb (memb k H)) (NAset C X Y)) <-> undirected C t Y /\ joined C t X /\ directed G t Y).
  { intros t. rewrite filter_In, negb_true_iff, memb_not_In, in_NA by auto. unfold H. rewrite filter_In, negb_true_iff, in_NA by auto.
    rewrite <- dirb_iff. destruct (dirb G t Y); split; intuition congruence. }
  split.
  - cbn [valid_del]. split; [exact HXC|]. split; [exact HYC|]. split; [|split].
    + destruct K1 as [K|K]; [right; apply K|left; split; apply K].
    + apply combinatorial_filter.
    + unfold delete_test. rewrite check_clique_iff; auto.
      * intros a b Ha Hb N. apply Hc0 in Ha, Hb. apply K3; tauto.
      * apply NoDup_filter, nodup_NA.
      * intros a Ha. apply Hc0 in Ha. apply Ha.
  - rewrite (drops_score sc G X Y G' Hd HA). cbn [delta_del].
    assert (E : forall p, directed G p Y <-> directed C p Y \/ (undirected C p Y /\ joined C p X /\ directed G p Y) \/ p = X).
    { intros p. split.
      - intros D. destruct (cl_semi G C HC G p Y (equivalent_refl G Hd) D) as [K|K]; auto.
        destruct (Nat.eq_dec p X) as [->|N]; [auto|]. right. left. auto.
      - intros [K|[K| ->]]; [eapply (cl_dir G C HC p Y); eauto using equivalent_refl|tauto|exact HXY]. }
    assert (E3 : sc Y (fst (delete_sets C X Y H)) = sc Y (parents G' Y)).
    { apply sc_same; auto using nodup_parents; [apply NoDup_filter, nodup_union1|]. intros p. rewrite in_parents by (auto; lia). rewrite Ae, E.
      unfold delete_sets. cbn [fst snd]. rewrite filter_In, negb_true_iff, Nat.eqb_neq, in_union1, (in_union1 _ (paj C Y)), Hc0, in_paj by auto. cbn [In].
      split.
      - intros [(_ & [K|(_ & [K|[K|[]]])]) N]; try (subst; congruence); (split; [tauto|]); intros [-> _]; congruence.
      - intros [[K|[K|K]] N]; [assert (p < gn C)%nat by apply K|assert (p < gn C)%nat by apply K|exfalso; subst; tauto]; (split; [tauto|]); intros ->; tauto. }
    assert (E2 : sc Y (snd (delete_sets C X Y H)) = sc Y (parents G Y)).
    { apply sc_same; auto using nodup_parents; [apply nodup_union1|]. intros p. rewrite in_parents by (auto; lia). rewrite E.
      unfold delete_sets. cbn [fst snd]. rewrite in_union1, (in_union1 _ (paj C Y)), Hc0, in_paj by auto. cbn [In]. split.
      - intros (_ & [K|(_ & [K|[K|[]]])]); subst; auto.
      - intros [K|[K|K]]; [assert (p < gn C)%nat by apply K; tauto|assert (p < gn C)%nat by apply K; tauto|subst p; assert (X = X) by reflexivity; tauto]. }
    rewrite E2, E3. lia.
Qed.
End Steps.
