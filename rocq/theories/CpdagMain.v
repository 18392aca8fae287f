(** dag2cpdag returns the completed partially directed graph; mec_check decides equivalence. *)
From Verif Require Import Base EdgeModel EdgeProofs GraphModel GraphSpec GraphProofs RankLib UtilsModel UtilsProofs
  DsepSpec DsepProofs MeekSpec MeekProofs PdagProofs CpdagTheory CpdagModel CpdagSpec CpdagProofs.
Local Open Scope Z_scope.

Lemma cp_edge_nodes x a b : (forall p q, ~ (a = p /\ b = q /\ (p, q) = fst x) /\ ~ (b = p /\ a = q /\ (p, q) = fst x)) ->
  ~ (a = e_node1 (cp_edge x) /\ b = e_node2 (cp_edge x)) /\ ~ (a = e_node2 (cp_edge x) /\ b = e_node1 (cp_edge x)).
Proof.
  destruct x as [[p q] s]. intros H. specialize (H p q). cbn in H. unfold cp_edge. cbn [fst snd].
  destruct (s =? 1); unfold Edge; cbn; split; intros [-> ->]; tauto.
Qed.

Lemma cp_build_spec n : forall st : list lrow,
  NoDup (map fst st) ->
  (forall a b, In (a, b) (map fst st) -> (a < n)%nat /\ (b < n)%nat /\ a <> b /\ ~ In (b, a) (map fst st)) ->
  let C := cp_build n st in
  gn C = n /\ wf C /\
  (forall a b, In ((a, b), 1) st -> gm C a b = -1 /\ gm C b a = 1) /\
  (forall a b s, In ((a, b), s) st -> s <> 1 -> gm C a b = -1 /\ gm C b a = -1) /\
  (forall a b, ~ In (a, b) (map fst st) -> ~ In (b, a) (map fst st) -> gm C a b = 0).
Proof.
  induction st as [|x st IH] using rev_ind; intros Hd Ha C.
  - unfold C, cp_build. cbn [map fold_left]. split; [reflexivity|]. split; [apply empty_wf|].
    split; [intros a b []|]. split; [intros a b s []|]. reflexivity.
  - rewrite map_app in Hd, Ha. cbn [map] in Hd, Ha. 
    pose proof (NoDup_remove _ _ _ Hd) as [Hd' Hx]. rewrite app_nil_r in Hd', Hx.
    destruct IH as (I1 & I2 & I3 & I4 & I5); [exact Hd'| |].
    { intros a b H. destruct (Ha a b) as (H1 & H2 & H3 & H4); [apply in_app_iff; now left|].
      repeat split; auto. intros H5. apply H4, in_app_iff. now left. }
    assert (EC : C = add_edge (cp_build n st) (cp_edge x)).
    { unfold C, cp_build. now rewrite map_app, fold_left_app. }
    set (C0 := cp_build n st) in *. destruct x as [[p q] s]. cbn [fst] in *.
    destruct (Ha p q) as (Hp & Hq & Npq & Nqp); [apply in_app_iff; right; now left|].
    assert (Nqp' : ~ In (q, p) (map fst st)) by (intros H; apply Nqp, in_app_iff; now left).
    pose proof (I5 p q Hx Nqp') as Z1. pose proof (I5 q p Nqp' Hx) as Z2.
    assert (Hnew : gm C p q = -1 /\ gm C q p = if s =? 1 then 1 else -1).
    { rewrite EC. unfold cp_edge. cbn [fst snd]. destruct (s =? 1).
      - destruct (add_edge_new C0 p q TAIL ARROW) as [E1 E2]; auto.
        split; [left; reflexivity || (unfold is_mark; auto)|]. split; [unfold is_mark; auto|]. intros [? ?]; discriminate.
      - destruct (add_edge_new C0 p q TAIL TAIL) as [E1 E2]; auto.
        split; [unfold is_mark; auto|]. split; [unfold is_mark; auto|]. intros [? ?]; discriminate. }
    assert (Hold : forall a b, ~ (a = p /\ b = q) -> ~ (a = q /\ b = p) -> gm C a b = gm C0 a b).
    { intros a b N1 N2. rewrite EC. destruct (cp_edge_nodes ((p, q), s) a b) as [F1 F2].
      - intros p' q'. cbn [fst]. split; intros (-> & -> & E); injection E as -> ->; tauto.
      - now apply add_edge_frame. }
    split; [rewrite EC, add_edge_gn; exact I1|]. split.
    { rewrite EC. apply add_edge_wf; [exact I2|]. rewrite I1. unfold op_on. cbn [op_nodes].
      unfold cp_edge. cbn [fst snd]. destruct (s =? 1); unfold Edge; cbn; auto. }
    split; [|split].
    + intros a b H. apply in_app_iff in H. destruct H as [H|[E|[]]].
      * assert (H' : In (a, b) (map fst st)) by (apply in_map_iff; exists ((a, b), 1); auto).
        rewrite !Hold; [now apply I3| | | |]; intros [-> ->]; contradiction.
      * injection E as -> -> ->. exact Hnew.
    + intros a b s' H Ns. apply in_app_iff in H. destruct H as [H|[E|[]]].
      * assert (H' : In (a, b) (map fst st)) by (apply in_map_iff; exists ((a, b), s'); auto).
        rewrite !Hold; [now apply (I4 a b s')| | | |]; intros [-> ->]; contradiction.
      * injection E as -> -> ->. destruct (Z.eqb_spec s' 1); [contradiction|]. exact Hnew.
    + rewrite map_app. cbn [map fst]. intros a b N1 N2. rewrite in_app_iff in N1, N2. rewrite Hold.
      * apply I5; tauto.
      * intros [-> ->]. apply N1. right. now left.
      * intros [-> ->]. apply N2. right. now left.
Qed.

(** Everything the theory needs about the labels, for the labelling the code computes. *)
Section Labelled.
Variable g : ggraph.
Variable order : list nat.
Variable st : list lrow.
Hypothesis Hdag : dag g.
Hypothesis Hnd : NoDup order.
Hypothesis Hall : forall v, In v order <-> (v < gn g)%nat.
Hypothesis Htop : forall l1 v l2, order = l1 ++ v :: l2 -> forall p, dedge g p v -> In p l1.
Hypothesis Hfst : map fst st = EO g order order.
Hypothesis Hsgn : forall x, In x st -> snd x = 1 \/ snd x = -1.
Hypothesis Hlab : forall y, In y order -> lab_spec g order st y.

Let E := dE g.
Let r := rk order.
Let L := Lb st.

Lemma E_dec a b : E a b \/ ~ E a b.
Proof.
  unfold E, dE, directed. destruct (lt_dec a (gn g)), (lt_dec b (gn g)), (Z.eq_dec (gm g a b) (-1)), (Z.eq_dec (gm g b a) 1); tauto.
Qed.
Lemma r_E a b : E a b -> (r a < r b)%nat.
Proof. apply (dE_order g order Hdag Hnd Hall Htop). Qed.
Lemma rows_E a b s : In ((a, b), s) st -> E a b.
Proof.
  intros H. apply (in_EO_order g order Hdag Hall). rewrite <- Hfst. apply in_map_iff. exists ((a, b), s). auto.
Qed.
Lemma E_rows a b : E a b -> In ((a, b), 1) st \/ In ((a, b), -1) st.
Proof.
  intros H. apply (in_EO_order g order Hdag Hall) in H. rewrite <- Hfst in H. apply in_map_iff in H.
  destruct H as ([e s] & <- & H). destruct (Hsgn _ H) as [Es|Es]; cbn in Es; subst s; auto.
Qed.
Lemma L_E a b : L a b -> E a b.
Proof. apply rows_E. Qed.
Definition Lt (a b : nat) : bool := existsb (fun x : lrow => Nat.eqb (fst (fst x)) a && Nat.eqb (snd (fst x)) b && (snd x =? 1)) st.
Lemma Lt_iff a b : Lt a b = true <-> L a b.
Proof.
  unfold Lt. rewrite existsb_exists. split.
  - intros ([[p q] s] & H & E0). cbn [fst snd] in E0. rewrite !andb_true_iff, !Nat.eqb_eq, Z.eqb_eq in E0.
    destruct E0 as [[-> ->] ->]. exact H.
  - intros H. exists ((a, b), 1). split; [exact H|]. cbn. now rewrite !Nat.eqb_refl.
Qed.
Lemma L_dec a b : L a b \/ ~ L a b.
Proof. rewrite <- Lt_iff. destruct (Lt a b); [now left|right; discriminate]. Qed.
Lemma row_sign a b s s' : In ((a, b), s) st -> In ((a, b), s') st -> s = s'.
Proof.
  intros H1 H2. pose proof (EO_nodup g order Hnd order Hnd) as Hn. rewrite <- Hfst in Hn. clear - Hn H1 H2.
  induction st as [|[e t] l IH]; [destruct H1|]. cbn in Hn. inversion Hn as [|? ? N D]; subst.
  destruct H1 as [E1|H1], H2 as [E2|H2].
  - congruence.
  - injection E1 as -> ->. exfalso. apply N. apply in_map_iff. exists ((a, b), s'). auto.
  - injection E2 as -> ->. exfalso. apply N. apply in_map_iff. exists ((a, b), s). auto.
  - auto.
Qed.
Lemma not_L_row a b : E a b -> ~ L a b <-> In ((a, b), -1) st.
Proof.
  intros H. split.
  - intros N. destruct (E_rows a b H); [contradiction|assumption].
  - intros H1 H2. assert (1 = -1) by (eapply row_sign; [exact H2|exact H1]). lia.
Qed.
Lemma lat_ex w y : E w y -> exists x, latest E r x y.
Proof. apply (latest_ex g order Hdag Hnd Hall). Qed.
Lemma cnd_dec x y : latest E r x y -> (condA E L x y \/ condC E x y) \/ ~ (condA E L x y \/ condC E x y).
Proof.
  intros [Hxy _]. pose proof (z_test_iff g Hdag x y Hxy) as HC.
  assert (Hy : In y order) by (apply Hall, Hxy).
  pose proof (atest_iff g order Hdag Hall st x y rows_E Hy) as HA.
  unfold condA, condC. destruct (z_test g x y); [left; right; now apply HC|].
  set (idk := filter _ (seq 0 (length st))) in HA. destruct (atest g y st idk); [left; left; now apply HA|].
  right. intros [H|H]; [apply HA in H; discriminate|apply HC in H; discriminate].
Qed.
Lemma L_all x y : latest E r x y -> condA E L x y \/ condC E x y -> forall w, E w y -> L w y.
Proof. intros Hx. assert (Hy : In y order) by (apply Hall, (proj1 Hx)). apply (Hlab y Hy x Hx). Qed.
Lemma L_copy x y : latest E r x y -> ~ (condA E L x y \/ condC E x y) -> forall w, E w y -> (L w y <-> L w x).
Proof. intros Hx. assert (Hy : In y order) by (apply Hall, (proj1 Hx)). apply (Hlab y Hy x Hx). Qed.

Lemma adj_joined a b : adj E a b <-> joined g a b.
Proof.
  unfold adj, E, dE, directed, joined. destruct Hdag as (_ & _ & Hd). split.
  - intros [(H1 & H2 & H3 & H4)|(H1 & H2 & H3 & H4)]; repeat split; auto; lia.
  - intros (Ha & Hb & N). destruct (Hd a b Ha Hb N) as [[H1 H2]|[H1 H2]]; [left|right]; auto.
Qed.

(** Labelled edges are directed the same way in every equivalent DAG. *)
Lemma compelled D a b : equivalent g D -> L a b -> directed D a b.
Proof.
  intros (Hn & _ & HD & Hj & Hu) H.
  apply (labelled_compelled E r L E_dec r_E L_E lat_ex cnd_dec L_all L_copy (directed D) (rank D)) with (n := S (r b)); auto.
  - intros x y Hxy. apply rank_lt; [apply HD|]. apply dag_dedge; assumption.
  - intros x y. rewrite adj_joined, Hj. split.
    + intros (Hx & Hy & N). destruct (proj2 (proj2 HD) x y Hx Hy N) as [[H1 H2]|[H1 H2]]; [left|right]; split; auto.
    + intros [(H1 & H2 & H3 & H4)|(H1 & H2 & H3 & H4)]; split; auto; split; auto; lia.
  - intros x y z Nxz NA.
    assert (Hc : forall G, dag G -> (forall u v, joined g u v <-> joined G u v) -> gn G = gn g ->
      (directed G x y /\ directed G z y <-> ucollider G x y z)).
    { intros G HG HjG HnG. rewrite adj_joined in NA. rewrite HjG in NA. unfold ucollider, directed. split.
      - intros [(H1 & H2 & H3 & H4) (H5 & H6 & H7 & H8)]. repeat split; auto; try lia.
        destruct (Z.eq_dec (gm G x z) 0); [assumption|]. exfalso. apply NA. split; auto.
      - intros (H1 & H2 & H3 & H4 & H5 & H6 & H7 & H8 & H9).
        destruct (proj2 (proj2 HG) x y H1 H2 H7) as [[? ?]|[? ?]]; [|lia].
        destruct (proj2 (proj2 HG) z y H3 H2 H8) as [[? ?]|[? ?]]; [|lia]. auto. }
    change (E x y) with (directed g x y). change (E z y) with (directed g z y).
    rewrite (Hc g Hdag (fun _ _ => iff_refl _) eq_refl), (Hc D HD Hj Hn). apply Hu.
Qed.

(** The graph in which labelled edges stay and the others follow a numbering. *)
Definition turned_edge (p : nat -> nat) (a b : nat) : bool :=
  Lt a b || (((existsb (fun x : lrow => Nat.eqb (fst (fst x)) a && Nat.eqb (snd (fst x)) b && (snd x =? -1)) st ||
     existsb (fun x : lrow => Nat.eqb (fst (fst x)) b && Nat.eqb (snd (fst x)) a && (snd x =? -1)) st)) && Nat.ltb (p a) (p b)).
Definition turned (p : nat -> nat) : ggraph :=
  mkG (gn g) (fun a b => if turned_edge p a b then -1 else if turned_edge p b a then 1 else 0) zeros.

Lemma minus_row a b : existsb (fun x : lrow => Nat.eqb (fst (fst x)) a && Nat.eqb (snd (fst x)) b && (snd x =? -1)) st = true <->
  E a b /\ ~ L a b.
Proof.
  rewrite existsb_exists. split.
  - intros ([[p q] s] & H & E0). cbn [fst snd] in E0. rewrite !andb_true_iff, !Nat.eqb_eq, Z.eqb_eq in E0.
    destruct E0 as [[-> ->] ->]. pose proof (rows_E _ _ _ H) as He. split; [exact He|]. now apply not_L_row.
  - intros [H1 H2]. apply not_L_row in H2; [|exact H1]. exists ((a, b), -1). split; [exact H2|]. cbn. now rewrite !Nat.eqb_refl.
Qed.
Lemma turned_edge_iff p a b : turned_edge p a b = true <-> T E L p a b.
Proof.
  unfold turned_edge, T, H. rewrite orb_true_iff, andb_true_iff, orb_true_iff, !minus_row, Lt_iff, Nat.ltb_lt. tauto.
Qed.

Section Turned.
Variable p : nat -> nat.
Hypothesis p_inj : forall a b, H E L a b -> p a <> p b.
Hypothesis p_perfect : forall a b c, H E L a b -> H E L c b -> (p a < p b)%nat -> (p c < p b)%nat -> a <> c -> H E L a c.

Lemma T_in a b : T E L p a b -> (a < gn g)%nat /\ (b < gn g)%nat.
Proof.
  intros [H1|[[[H1 _]|[H1 _]] _]].
  - apply L_E in H1. destruct H1 as (? & ? & _). auto.
  - destruct H1 as (? & ? & _). auto.
  - destruct H1 as (? & ? & _). auto.
Qed.
Lemma turned_dir a b : directed (turned p) a b <-> T E L p a b.
Proof.
  unfold directed, turned. cbn [gn gm]. rewrite <- turned_edge_iff. split.
  - intros (_ & _ & H1 & _). destruct (turned_edge p a b); [reflexivity|]. destruct (turned_edge p b a); lia.
  - intros H0. pose proof (T_in a b (proj1 (turned_edge_iff p a b) H0)) as [Ha Hb]. rewrite H0.
    assert (turned_edge p b a = false) as ->; [|auto].
    apply not_true_iff_false. rewrite turned_edge_iff in *. now apply (T_asym E r L r_E L_E p).
Qed.
Lemma turned_dag : dag (turned p).
Proof.
  assert (Hac : acyclic (T E L p)) by apply (T_acyclic E r L E_dec r_E L_E lat_ex cnd_dec L_all L_copy p).
  assert (Hirr : forall a, turned_edge p a a = false).
  { intros a. apply not_true_iff_false. rewrite turned_edge_iff. intros H0. apply (Hac a). exists a. split; [exact H0|constructor]. }
  assert (Has : forall a b, turned_edge p a b = true -> turned_edge p b a = false).
  { intros a b H0. apply not_true_iff_false. rewrite turned_edge_iff in *. now apply (T_asym E r L r_E L_E p). }
  assert (Hdir : forall i j, gm (turned p) i j <> 0 -> (gm (turned p) i j = -1 /\ gm (turned p) j i = 1) \/ (gm (turned p) i j = 1 /\ gm (turned p) j i = -1)).
  { intros i j. unfold turned. cbn [gm]. destruct (turned_edge p i j) eqn:E1.
    - rewrite (Has _ _ E1). auto.
    - destruct (turned_edge p j i) eqn:E2; [auto|congruence]. }
  split; [|split].
  - split.
    + intros i _. unfold turned. cbn [gm]. now rewrite Hirr.
    + intros i j _ _. unfold turned. cbn [gm]. destruct (turned_edge p i j) eqn:E1.
      * rewrite (Has _ _ E1). unfold legal_pair. cbn. auto.
      * destruct (turned_edge p j i) eqn:E2; unfold legal_pair; cbn; auto.
  - intros a Ha. apply (Hac a). destruct Ha as (b & H1 & H2).
    assert (Hm : forall x y, dedge (turned p) x y -> T E L p x y).
    { intros x y (Hx & Hy & H0). apply turned_dir. split; [exact Hx|]. split; [exact Hy|].
      destruct H0 as [H0|[H0 _]]; [exact H0|]. destruct (Hdir x y); [lia|lia|lia]. }
    exists b. split; [auto|]. eapply reach_mono; [exact Hm|exact H2].
  - intros i j _ _. apply Hdir.
Qed.
Lemma turned_equivalent : equivalent g (turned p).
Proof.
  pose proof turned_dag as HD.
  assert (HT : forall a b, joined (turned p) a b <-> T E L p a b \/ T E L p b a).
  { intros a b. split.
    - intros (Ha & Hb & N). destruct (proj2 (proj2 HD) a b Ha Hb N) as [[H1 H2]|[H1 H2]].
      + left. apply turned_dir. split; auto.
      + right. apply turned_dir. split; auto.
    - intros [H1|H1]; apply turned_dir in H1; destruct H1 as (H1 & H2 & H3 & H4); split; auto; split; auto; lia. }
  assert (Hj : forall a b, joined g a b <-> joined (turned p) a b).
  { intros a b. rewrite HT, <- adj_joined. apply (T_skel E L L_E L_dec p p_inj). }
  split; [reflexivity|]. split; [exact Hdag|]. split; [exact HD|]. split; [exact Hj|].
  intros x y z.
  assert (Hc : forall G, dag G -> (forall u v, joined g u v <-> joined G u v) ->
      (ucollider G x y z <-> x <> z /\ ~ joined g x z /\ (directed G x y /\ directed G z y))).
  { intros G HG HjG. rewrite HjG. unfold ucollider, directed. split.
      - intros (H1 & H2 & H3 & H4 & H5 & H6 & H7 & H8 & H9). split; [exact H4|].
        split; [intros (_ & _ & N); contradiction|].
        destruct (proj2 (proj2 HG) x y H1 H2 H7) as [[? ?]|[? ?]]; [|lia].
        destruct (proj2 (proj2 HG) z y H3 H2 H8) as [[? ?]|[? ?]]; [|lia]. auto 10.
      - intros (N & NA & (H1 & H2 & H3 & H4) & (H5 & H6 & H7 & H8)). repeat split; auto; try lia.
        destruct (Z.eq_dec (gm G x z) 0); [assumption|]. exfalso. apply NA. split; auto. }
  rewrite (Hc g Hdag (fun _ _ => iff_refl _)), (Hc _ HD Hj). rewrite <- adj_joined, !turned_dir.
  change (directed g x y) with (E x y). change (directed g z y) with (E z y).
  split; intros (N & NA & H0); split; auto; split; auto; revert H0;
  apply (T_vstr E r L E_dec r_E L_E lat_ex cnd_dec L_all L_copy p p_perfect x y z N NA).
Qed.
End Turned.

Lemma H_decs a b : {H E L a b} + {~ H E L a b}.
Proof.
  destruct (existsb (fun x : lrow => Nat.eqb (fst (fst x)) a && Nat.eqb (snd (fst x)) b && (snd x =? -1)) st) eqn:E1.
  - left. left. now apply minus_row.
  - destruct (existsb (fun x : lrow => Nat.eqb (fst (fst x)) b && Nat.eqb (snd (fst x)) a && (snd x =? -1)) st) eqn:E2.
    + left. right. now apply minus_row.
    + right. intros [H1|H1]; apply minus_row in H1; congruence.
Qed.
Lemma H_in a b : H E L a b -> In a order /\ In b order /\ a <> b.
Proof.
  intros [[H1 _]|[H1 _]]; pose proof (r_E _ _ H1); destruct H1 as (? & ? & _); (split; [now apply Hall|split; [now apply Hall|]]); intros ->; lia.
Qed.

(** For every clique of unlabelled edges, in any order, some equivalent DAG directs them by that order and away from the clique. *)
Lemma turnable_clique c : NoDup c -> incl c order -> clique (H E L) c -> exists D, equivalent g D /\
  forall a b, H E L a b -> In a c -> (In b c -> (idx a c < idx b c)%nat) -> directed D a b.
Proof.
  intros Nc Ic Cc.
  destruct (perfect_start (H E L) (fun x y => H_sym E L x y) H_decs order Hnd) with (c := c) as (t & Pt & Dt & It); [|exact Nc|exact Ic|exact Cc|].
  - intros l1 y l2 Eo x z Hx Hz Hxy Hzy Nxz.
    apply (H_earlier E r L E_dec r_E L_E lat_ex cnd_dec L_all L_copy x y z); auto; unfold r, rk; rewrite Eo;
    apply idx_before; auto; now rewrite <- Eo.
  - set (p := fun v => idx v (c ++ t)).
    assert (p_inj : forall x y, H E L x y -> p x <> p y).
    { intros x y Hxy Ep. destruct (H_in x y Hxy) as (Hx & _ & N). apply N. apply It in Hx. eapply idx_inj; eauto. }
    assert (p_perf : forall x y z, H E L x y -> H E L z y -> (p x < p y)%nat -> (p z < p y)%nat -> x <> z -> H E L x z).
    { intros x y z Hxy Hzy Px Pz N. destruct (H_in x y Hxy) as (_ & Hy & _). apply It in Hy.
      destruct (in_split _ _ Hy) as (l1 & l2 & Es).
      apply (Pt l1 y l2 Es x z); auto.
      - destruct (before_idx x y _ Hy Px) as (m1 & m2 & Em & Hm).
        assert (l1 = m1) as ->; [|exact Hm].
        rewrite Es in Em. clear - Em Es Dt. rewrite Es in Dt. clear Es. revert m1 Em.
        induction l1 as [|u l1 IH]; intros m1 Em; destruct m1 as [|v m1]; cbn in Em; auto.
        + injection Em as -> ->. exfalso. inversion Dt as [|? ? N _]; subst. apply N, in_app_iff. right. now left.
        + injection Em as -> Em. exfalso. inversion Dt as [|? ? N _]; subst. apply N, in_app_iff. right. now left.
        + injection Em as -> Em. f_equal. apply IH; [|exact Em]. now inversion Dt.
      - destruct (before_idx z y _ Hy Pz) as (m1 & m2 & Em & Hm).
        assert (l1 = m1) as ->; [|exact Hm].
        rewrite Es in Em. clear - Em Es Dt. rewrite Es in Dt. clear Es. revert m1 Em.
        induction l1 as [|u l1 IH]; intros m1 Em; destruct m1 as [|v m1]; cbn in Em; auto.
        + injection Em as -> ->. exfalso. inversion Dt as [|? ? N _]; subst. apply N, in_app_iff. right. now left.
        + injection Em as -> Em. exfalso. inversion Dt as [|? ? N _]; subst. apply N, in_app_iff. right. now left.
        + injection Em as -> Em. f_equal. apply IH; [|exact Em]. now inversion Dt. }
    exists (turned p). split; [now apply turned_equivalent|]. intros a b Hab Ha Hb. apply turned_dir; auto. right. split; [exact Hab|].
    unfold p. rewrite !idx_app. pose proof Ha as Ha'. apply memb_In in Ha'. rewrite Ha'. destruct (memb b c) eqn:Mb; [apply Hb; now apply memb_In|].
    apply idx_in in Ha. lia.
Qed.
(** An unlabelled edge is turned by some equivalent DAG. *)
Lemma turnable a b : H E L a b -> exists D, equivalent g D /\ directed D a b.
Proof.
  intros Hab. destruct (H_in a b Hab) as (Ha & Hb & Nab). destruct (turnable_clique [a; b]) as (D & HD & HT).
  - constructor; [intros [H1|[]]; congruence|]. constructor; [tauto|constructor].
  - intros x [<-|[<-|[]]]; auto.
  - intros x y [<-|[<-|[]]] [<-|[<-|[]]] N; auto; try congruence. now apply H_sym.
  - exists D. split; [exact HD|]. apply HT; [exact Hab|now left|]. intros _. cbn. rewrite Nat.eqb_refl. destruct (Nat.eqb_spec b a); [congruence|]. lia.
Qed.

Lemma build_completed : completed g (cp_build (gn g) st).
Proof.
  destruct (cp_build_spec (gn g) st) as (C1 & C2 & C3 & C4 & C5).
  - rewrite Hfst. now apply EO_nodup.
  - intros a b Hab. rewrite Hfst in *. apply (in_EO_order g order Hdag Hall) in Hab.
    pose proof (r_E a b Hab) as Hr. split; [apply Hab|]. split; [apply Hab|]. split; [intros ->; lia|].
    intros Hba. apply (in_EO_order g order Hdag Hall) in Hba. apply r_E in Hba. lia.
  - set (C := cp_build (gn g) st) in *.
    assert (Hno : forall a b, ~ adj E a b -> gm C a b = 0).
    { intros a b N. apply C5; rewrite Hfst; intros H0; apply (in_EO_order g order Hdag Hall) in H0; apply N; [now left|now right]. }
    assert (Hcase : forall a b, adj E a b -> (L a b /\ gm C a b = -1 /\ gm C b a = 1) \/ (L b a /\ gm C a b = 1 /\ gm C b a = -1) \/
       (H E L a b /\ gm C a b = -1 /\ gm C b a = -1)).
    { intros a b [H0|H0]; destruct (E_rows _ _ H0) as [H1|H1].
      - left. split; [exact H1|]. now apply C3.
      - right. right. destruct (C4 a b (-1) H1) as [? ?]; [lia|]. repeat split; auto. left. split; [exact H0|now apply not_L_row].
      - right. left. split; [exact H1|]. destruct (C3 _ _ H1). auto.
      - right. right. destruct (C4 b a (-1) H1) as [? ?]; [lia|]. repeat split; auto. right. split; [exact H0|now apply not_L_row]. }
    assert (Hjc : forall a b, joined C a b <-> joined g a b).
    { intros a b. rewrite <- adj_joined. unfold joined. rewrite C1. split.
      - intros (Ha & Hb & N). destruct (adj_dec E E_dec a b) as [|NA]; [assumption|]. now rewrite Hno in N.
      - intros HA. assert (Hin : (a < gn g)%nat /\ (b < gn g)%nat) by (destruct HA as [(? & ? & _)|(? & ? & _)]; auto).
        split; [apply Hin|]. split; [apply Hin|]. destruct (Hcase a b HA) as [(_ & ? & ?)|[(_ & ? & ?)|(_ & ? & ?)]]; lia. }
    assert (Hself : equivalent g g).
    { split; [reflexivity|]. split; [exact Hdag|]. split; [exact Hdag|]. split; intros; reflexivity. }
    split; [exact C1|]. split; [exact C2|]. split; [exact Hjc|]. split; [|split].
    + intros a b HJ. pose proof HJ as (Ha & Hb & _). apply Hjc, adj_joined in HJ.
      unfold directed, undirected. destruct (Hcase a b HJ) as [(_ & ? & ?)|[(_ & ? & ?)|(_ & ? & ?)]]; auto 10.
    + intros a b. split.
      * intros (Ha & Hb & H1 & H2). assert (HJ : joined C a b) by (split; [exact Ha|split; [exact Hb|lia]]).
        apply Hjc in HJ. split; [exact HJ|]. apply adj_joined in HJ. destruct (Hcase a b HJ) as [(Hl & _)|[(_ & ? & ?)|(_ & ? & ?)]]; [|lia|lia].
        intros D HD. now apply compelled.
      * intros [HJ HD]. apply adj_joined in HJ. destruct (Hcase a b HJ) as [(Hl & H1 & H2)|[(Hl & _)|(Hh & _)]].
        -- destruct (L_E a b Hl) as (Ha & Hb & _). unfold directed. rewrite C1. auto.
        -- exfalso. apply (dag_no_cycle2 g a b); [exact Hdag|now apply HD|]. now apply compelled.
        -- exfalso. destruct (turnable b a) as (D & HD1 & HD2); [now apply H_sym|].
           apply (dag_no_cycle2 D a b); [apply HD1|now apply HD|exact HD2].
    + intros a b. split.
      * intros (Ha & Hb & H1 & H2). assert (HJ : joined C a b) by (split; [exact Ha|split; [exact Hb|lia]]).
        apply Hjc in HJ. split; [exact HJ|]. apply adj_joined in HJ.
        destruct (Hcase a b HJ) as [(_ & ? & ?)|[(_ & ? & ?)|(Hh & _)]]; [lia|lia|].
        split; apply turnable; [exact Hh|now apply H_sym].
      * intros [HJ [(D1 & HE1 & HD1) (D2 & HE2 & HD2)]]. pose proof HJ as HJ'. apply adj_joined in HJ. destruct HJ' as (Ha & Hb & _).
        unfold undirected. rewrite C1. destruct (Hcase a b HJ) as [(Hl & _)|[(Hl & _)|(_ & ? & ?)]]; [| |auto].
        -- exfalso. apply (dag_no_cycle2 D2 a b); [apply HE2| |exact HD2]. now apply compelled.
        -- exfalso. apply (dag_no_cycle2 D1 a b); [apply HE1|exact HD1|]. now apply compelled.
Qed.
End Labelled.

Theorem dag2cpdag_correct g fuel : dag g -> (gn g < fuel)%nat -> exists C, dag2cpdag fuel g = Ret C /\ completed g C.
Proof.
  intros Hd Hf. destruct (causal_order_correct g (fun _ => false) fuel) as (order & E & H1 & H2 & H3);
    [apply Hd|now apply dag_simple|apply Hd|exact Hf|].
  assert (Hall : forall v, In v order <-> (v < gn g)%nat) by (intros v; rewrite H2; tauto).
  assert (Htop : forall l1 v l2, order = l1 ++ v :: l2 -> forall p, dedge g p v -> In p l1) by (intros; eapply H3; eauto).
  assert (Hlen : (length order <= fuel)%nat).
  { apply Nat.le_trans with (length (seq 0 (gn g))).
    - apply NoDup_incl_length; [exact H1|]. intros v Hv. apply in_seq0. now apply Hall.
    - rewrite seq_length. lia. }
  destruct (labels g order Hd H1 Hall Htop fuel Hlen) as (st & El & Hfst & Hsg & Hlab).
  exists (cp_build (gn g) st). unfold dag2cpdag. rewrite E, El. split; [reflexivity|].
  now apply build_completed with (order := order).
Qed.
