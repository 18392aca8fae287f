(** Lemmas about dag2cpdag. *)
From Verif Require Import Base EdgeModel EdgeProofs GraphModel GraphSpec GraphProofs RankLib UtilsModel UtilsProofs
  DsepSpec DsepProofs MeekSpec MeekProofs PdagProofs CpdagTheory CpdagModel CpdagSpec.
Local Open Scope Z_scope.

Lemma find_first {A} (f : A -> bool) l1 x l2 : (forall y, In y l1 -> f y = false) -> f x = true -> find f (l1 ++ x :: l2) = Some x.
Proof.
  intros H1 H2. induction l1 as [|y l1 IH]; cbn; [now rewrite H2|].
  rewrite (H1 y) by now left. apply IH. intros z Hz. apply H1. now right.
Qed.
Lemma idx_before x y l1 l2 : NoDup (l1 ++ y :: l2) -> In x l1 -> (idx x (l1 ++ y :: l2) < idx y (l1 ++ y :: l2))%nat.
Proof.
  intros Hd Hx. rewrite !idx_app. pose proof Hx as Hx'. apply memb_In in Hx'. rewrite Hx'.
  apply NoDup_remove in Hd. destruct Hd as [_ Hd].
  assert (memb y l1 = false) as -> by (apply memb_not_In; intros H; apply Hd, in_app_iff; now left).
  apply idx_in in Hx. lia.
Qed.
Lemma before_idx x y l : In y l -> (idx x l < idx y l)%nat -> exists l1 l2, l = l1 ++ y :: l2 /\ In x l1.
Proof.
  intros Hy. destruct (in_split _ _ Hy) as (l1 & l2 & ->). revert Hy.
  induction l1 as [|z l1 IH]; intros Hy Hlt.
  - cbn in Hlt. rewrite Nat.eqb_refl in Hlt. lia.
  - cbn in Hlt. destruct (Nat.eqb_spec y z) as [->|N]; [lia|]. destruct (Nat.eqb_spec x z) as [->|N'].
    + exists (z :: l1), l2. split; [reflexivity|now left].
    + destruct IH as (m1 & m2 & E & Hi).
      * destruct Hy as [->|Hy]; [congruence|exact Hy].
      * lia.
      * exists (z :: m1), m2. cbn. rewrite E. split; [reflexivity|now right].
Qed.

Section FixedDag.
Variable g : ggraph.
Variable order : list nat.
Hypothesis Hdag : dag g.
Hypothesis Hnd : NoDup order.
Hypothesis Hall : forall v, In v order <-> (v < gn g)%nat.
Hypothesis Htop : forall l1 v l2, order = l1 ++ v :: l2 -> forall p, dedge g p v -> In p l1.

Definition dE (a b : nat) : Prop := directed g a b.
Lemma dE_iff a b : (a < gn g)%nat -> (b < gn g)%nat -> dE a b <-> gm g b a = 1.
Proof.
  intros Ha Hb. unfold dE, directed. split; [tauto|]. intros H. destruct Hdag as (_ & _ & Hd).
  destruct (Hd b a Hb Ha) as [[? ?]|[? ?]]; [lia|lia|auto].
Qed.
Lemma dE_test a b : In a order -> In b order -> (gm g b a =? 1) = true <-> dE a b.
Proof. intros Ha Hb. rewrite Z.eqb_eq, dE_iff; [reflexivity| |]; now apply Hall. Qed.
Lemma dE_order a b : dE a b -> (idx a order < idx b order)%nat.
Proof.
  intros H. assert (Hb : In b order) by (apply Hall, H). destruct (in_split _ _ Hb) as (l1 & l2 & E).
  rewrite E. apply idx_before; [now rewrite <- E|]. apply (Htop _ _ _ E). apply dag_dedge; assumption.
Qed.
Lemma dE_in a b : dE a b -> In a order /\ In b order.
Proof. intros (Ha & Hb & _). split; now apply Hall. Qed.

Definition par (j : nat) : list nat := filter (fun i => gm g j i =? 1) order.
Lemma in_par i j : In j order -> In i (par j) <-> dE i j.
Proof.
  intros Hj. unfold par. rewrite filter_In. split.
  - intros [Hi H]. now apply dE_test.
  - intros H. destruct (dE_in _ _ H) as [Hi _]. split; [exact Hi|]. now apply dE_test.
Qed.
Definition group (j : nat) : list (nat * nat) := map (fun i => (i, j)) (par j).
Definition EO (l : list nat) : list (nat * nat) := flat_map group (rev l).

Lemma EO_app l1 l2 : EO (l1 ++ l2) = EO l2 ++ EO l1.
Proof. unfold EO. now rewrite rev_app_distr, flat_map_app. Qed.
Lemma EO_one y : EO [y] = group y.
Proof. unfold EO. cbn. apply app_nil_r. Qed.
Lemma in_EO l a b : In (a, b) (EO l) <-> In b l /\ In a (par b).
Proof.
  unfold EO. rewrite in_flat_map. split.
  - intros (y & Hy & H). unfold group in H. apply in_map_iff in H. destruct H as (x & E & Hx). injection E as <- <-.
    now rewrite <- in_rev in Hy.
  - intros [Hb Ha]. exists b. split; [now apply in_rev in Hb|]. unfold group. apply in_map_iff. exists a. auto.
Qed.
Lemma in_EO_order a b : In (a, b) (EO order) <-> dE a b.
Proof.
  rewrite in_EO. split.
  - intros [Hb Ha]. now apply in_par.
  - intros H. destruct (dE_in _ _ H). split; [assumption|]. now apply in_par.
Qed.
Lemma par_nodup j : NoDup (par j).
Proof. now apply NoDup_filter. Qed.
Lemma group_nodup j : NoDup (group j).
Proof.
  unfold group. apply FinFun.Injective_map_NoDup; [|apply par_nodup]. intros a b E. now injection E.
Qed.
Lemma NoDup_app_intro {A} (l1 l2 : list A) : NoDup l1 -> NoDup l2 -> (forall x, In x l1 -> ~ In x l2) -> NoDup (l1 ++ l2).
Proof.
  intros H1 H2 H3. induction H1 as [|x l N _ IH]; [exact H2|]. cbn. constructor.
  - rewrite in_app_iff. intros [|]; [auto|]. apply (H3 x); [now left|assumption].
  - apply IH. intros y Hy. apply H3. now right.
Qed.
Lemma EO_nodup l : NoDup l -> NoDup (EO l).
Proof.
  induction l as [|y l IH] using rev_ind; intros Hl; [constructor|].
  apply NoDup_remove in Hl. rewrite app_nil_r in Hl. destruct Hl as [Hl Ny].
  rewrite EO_app, EO_one. apply NoDup_app_intro; [apply group_nodup|auto|].
  intros [a b] H1 H2. apply in_EO in H2. unfold group in H1. apply in_map_iff in H1. destruct H1 as (x & E & _).
  injection E as <- <-. tauto.
Qed.

(** ** The ordering loop *)
Lemma flat_split (ro : list nat) : forall p i j q, flat_map group ro = p ++ (i, j) :: q ->
  exists ra rb fa fb, ro = ra ++ j :: rb /\ par j = fa ++ i :: fb /\ p = flat_map group ra ++ map (fun k => (k, j)) fa.
Proof.
  induction ro as [|y ro IH]; intros p i j q E; [destruct p; discriminate E|]. cbn in E.
  assert (Hc : (exists p', p = group y ++ p' /\ flat_map group ro = p' ++ (i, j) :: q) \/
               (exists q', group y = p ++ (i, j) :: q')).
  { clear IH. revert E. generalize (group y) as gy. induction p as [|a p IHp]; intros gy E; destruct gy as [|b gy].
    - left. exists []. auto.
    - right. cbn in E. injection E as -> E. exists gy. reflexivity.
    - left. exists (a :: p). auto.
    - cbn in E. injection E as -> E. destruct (IHp gy E) as [(p' & -> & H)|(q' & ->)].
      + left. exists p'. auto.
      + right. exists q'. reflexivity. }
  destruct Hc as [(p' & -> & Ep)|(q' & Eg)].
  - destruct (IH _ _ _ _ Ep) as (ra & rb & fa & fb & -> & H1 & ->).
    exists (y :: ra), rb, fa, fb. cbn. rewrite app_assoc. auto.
  - unfold group in Eg. apply map_eq_app in Eg. destruct Eg as (fa & fr & E1 & <- & E2).
    apply map_eq_cons in E2. destruct E2 as (k & fb & -> & E2 & _). injection E2 as -> ->.
    exists [], ro, fa, fb. auto.
Qed.

Lemma filter_split {A} (f : A -> bool) l : forall fa i fb, filter f l = fa ++ i :: fb ->
  exists la lb, l = la ++ i :: lb /\ filter f la = fa.
Proof.
  induction l as [|x l IH]; intros fa i fb E; cbn in E; [destruct fa; discriminate E|].
  destruct (f x) eqn:F.
  - destruct fa as [|y fa]; cbn in E; injection E as -> E.
    + exists [], l. auto.
    + destruct (IH _ _ _ E) as (la & lb & -> & H). exists (y :: la), lb. cbn. rewrite F, H. auto.
  - destruct (IH _ _ _ E) as (la & lb & -> & H). exists (x :: la), lb. cbn. rewrite F. auto.
Qed.
Lemma filter_split_true {A} (f : A -> bool) l fa i fb : filter f l = fa ++ i :: fb -> f i = true.
Proof. intros E. assert (H : In i (filter f l)) by (rewrite E; apply in_app_iff; right; now left). now apply filter_In in H. Qed.

Lemma has_row_In i j eo : has_row i j eo = true <-> In (i, j) eo.
Proof.
  unfold has_row. rewrite existsb_exists. split.
  - intros ((a & b) & H & E). unfold row_eqb in E. cbn [fst snd] in E. rewrite andb_true_iff, !Nat.eqb_eq in E.
    destruct E as [-> ->]. exact H.
  - intros H. exists (i, j). split; [exact H|]. unfold row_eqb. cbn. now rewrite !Nat.eqb_refl.
Qed.

Lemma y_test_iff eo j : In j order -> y_test g eo j = true <-> exists k, dE k j /\ ~ In (k, j) eo.
Proof.
  intros Hj. unfold y_test. set (ia := filter (fun k => gm g j k =? 1) (seq 0 (gn g))).
  assert (Hia : forall k, In k ia <-> dE k j).
  { intros k. unfold ia. rewrite filter_In, in_seq0. split.
    - intros [Hk H]. apply dE_test; auto. now apply Hall.
    - intros H. split; [apply H|]. apply dE_test; auto. apply (dE_in _ _ H). }
  destruct (Nat.eqb (length ia) 0) eqn:E1.
  { apply len0 in E1. split; [discriminate|]. intros (k & Hk & _). apply Hia in Hk. rewrite E1 in Hk. destruct Hk. }
  destruct (Nat.eqb (length eo) 0) eqn:E2.
  { apply len0 in E2. subst eo. split; [|reflexivity]. intros _. destruct ia as [|k ia'] eqn:Ea; [discriminate E1|].
    exists k. split; [|tauto]. apply Hia. now left. }
  assert (Hin : forall k, In k (map fst (filter (fun e => Nat.eqb (snd e) j) eo)) <-> In (k, j) eo).
  { intros k. rewrite in_map_iff. split.
    - intros ((a & b) & <- & H). apply filter_In in H. cbn [snd] in H. rewrite Nat.eqb_eq in H. destruct H as [H ->]. exact H.
    - intros H. exists (k, j). split; [reflexivity|]. apply filter_In. split; [exact H|]. apply Nat.eqb_refl. }
  rewrite negb_true_iff. split.
  - intros H. set (fl := filter _ ia) in H. destruct fl as [|k fl'] eqn:Ef; [discriminate H|].
    assert (Hk : In k fl) by (rewrite Ef; now left). unfold fl in Hk. rewrite filter_In, negb_true_iff, memb_not_In, Hin, Hia in Hk.
    exists k. tauto.
  - intros (k & H1 & H2). apply Nat.eqb_neq. intros Hl.
    assert (Hk : In k (filter (fun k => negb (memb k (map fst (filter (fun e => Nat.eqb (snd e) j) eo)))) ia)).
    { apply filter_In. split; [now apply Hia|]. apply negb_true_iff, memb_not_In. now rewrite Hin. }
    destruct (filter _ ia); [destruct Hk|discriminate Hl].
Qed.
Lemma x_test_iff eo j i : In j order -> In i order -> x_test g eo j i = true <-> dE i j /\ ~ In (i, j) eo.
Proof.
  intros Hj Hi. unfold x_test. rewrite <- (dE_test i j) by assumption. destruct (Nat.eqb (length eo) 0) eqn:E.
  - apply len0 in E. subst eo. cbn [In]. tauto.
  - rewrite andb_true_iff, negb_true_iff. rewrite <- (has_row_In i j eo). rewrite not_true_iff_false. tauto.
Qed.

Lemma eo_step_next eo i j q : EO order = eo ++ (i, j) :: q -> eo_step g order eo = eo ++ [(i, j)].
Proof.
  intros E. pose proof (EO_nodup order Hnd) as Hn. rewrite E in Hn. apply NoDup_remove in Hn. destruct Hn as [_ Hn].
  unfold EO in E. destruct (flat_split _ _ _ _ _ E) as (ra & rb & fa & fb & Hr & Hp & He).
  assert (Hj : In j order) by (apply in_rev; rewrite Hr; apply in_app_iff; right; now left).
  assert (Hij : dE i j) by (apply in_par; [exact Hj|]; rewrite Hp; apply in_app_iff; right; now left).
  assert (Nij : ~ In (i, j) eo) by (intros H; apply Hn, in_app_iff; now left).
  unfold eo_step, for_break. rewrite Hr.
  rewrite (find_first (y_test g eo) ra j rb).
  - destruct (filter_split _ _ _ _ _ Hp) as (oa & ob & Ho & Hf).
    rewrite Ho at 1. rewrite (find_first (x_test g eo j) oa i ob); [reflexivity| |].
    + intros k Hk. apply not_true_iff_false. rewrite x_test_iff.
      2: exact Hj. 2: { rewrite Ho. apply in_app_iff. now left. }
      intros [H1 H2]. apply H2. rewrite He. apply in_app_iff. right. apply in_map_iff. exists k. split; [reflexivity|].
      rewrite <- Hf. apply filter_In. split; [exact Hk|]. apply dE_test; auto. rewrite Ho. apply in_app_iff. now left.
    + apply x_test_iff; auto. rewrite Ho. apply in_app_iff. right. now left.
  - intros k Hk.
    assert (Hk' : In k order) by (apply in_rev; rewrite Hr; apply in_app_iff; now left).
    apply not_true_iff_false. rewrite y_test_iff by exact Hk'.
    intros (w & H1 & H2). apply H2. rewrite He. apply in_app_iff. left. apply in_flat_map. exists k. split; [exact Hk|].
    unfold group. apply in_map_iff. exists w. split; [reflexivity|]. now apply in_par.
  - apply y_test_iff; [exact Hj|]. exists i. auto.
Qed.
Lemma firstn_snoc {A} (l : list A) k : (k < length l)%nat -> exists x q, l = firstn k l ++ x :: q /\ firstn (S k) l = firstn k l ++ [x].
Proof.
  revert k. induction l as [|a l IH]; intros k Hk; [cbn in Hk; lia|]. destruct k as [|k].
  - exists a, l. auto.
  - cbn in Hk. destruct (IH k) as (x & q & E1 & E2); [lia|]. exists x, q. cbn [firstn app].
    split; [now rewrite <- E1|]. change (a :: firstn (S k) l = a :: (firstn k l ++ [x])). now rewrite E2.
Qed.
Lemma eo_iter k : (k <= length (EO order))%nat -> Nat.iter k (eo_step g order) [] = firstn k (EO order).
Proof.
  induction k as [|k IH]; intros Hk; [reflexivity|].
  destruct (firstn_snoc (EO order) k) as ((i & j) & q & E1 & E2); [lia|].
  cbn [Nat.iter nat_rect]. change (nat_rect _ [] (fun _ => eo_step g order) k) with (Nat.iter k (eo_step g order) []).
  rewrite IH by lia. rewrite E2. now apply eo_step_next with (q := q).
Qed.

Definition mm (e : nat * nat) : nat * nat := (Nat.min (fst e) (snd e), Nat.max (fst e) (snd e)).
Lemma num_edges : dag_num_edges g = length (EO order).
Proof.
  set (P := flat_map (fun i => map (pair i) (filter (fun j => negb (gm g j i =? 0)) (seq (S i) (gn g - S i)))) (seq 0 (gn g))).
  assert (HP : dag_num_edges g = length P).
  { unfold dag_num_edges, P. induction (seq 0 (gn g)) as [|a l IH]; [reflexivity|].
    cbn [flat_map]. rewrite !app_length, map_length. now rewrite IH. }
  assert (HinP : forall a b, In (a, b) P <-> (a < b < gn g)%nat /\ gm g b a <> 0).
  { intros a b. unfold P. rewrite in_flat_map. split.
    - intros (i & Hi & H). apply in_map_iff in H. destruct H as (j & E & Hj). injection E as <- <-.
      rewrite filter_In, in_seq, negb_true_iff, Z.eqb_neq in Hj. split; [lia|tauto].
    - intros [H1 H2]. exists a. split; [apply in_seq0; lia|]. apply in_map_iff. exists b. split; [reflexivity|].
      rewrite filter_In, in_seq, negb_true_iff, Z.eqb_neq. split; [lia|exact H2]. }
  assert (DP : NoDup P).
  { unfold P. clear HP HinP P. assert (Ds : NoDup (seq 0 (gn g))) by apply seq_NoDup. induction Ds as [|i l N _ IH]; [constructor|].
    cbn [flat_map]. apply NoDup_app_intro; [|exact IH|].
    - apply FinFun.Injective_map_NoDup; [intros a b E; now injection E|]. apply NoDup_filter, seq_NoDup.
    - intros [a b] H1 H2. apply in_map_iff in H1. destruct H1 as (j & E & _). injection E as <- <-.
      apply in_flat_map in H2. destruct H2 as (i' & Hi' & H2). apply in_map_iff in H2. destruct H2 as (j' & E & _).
      injection E as <- <-. contradiction. }
  assert (DE : NoDup (map mm (EO order))).
  { assert (Hs : forall l, NoDup l -> incl l (EO order) -> NoDup (map mm l)).
    { induction 1 as [|e l N _ IH]; intros Hi; [constructor|]. cbn [map]. constructor.
      - intros H. apply in_map_iff in H. destruct H as (e' & Em & He').
        apply N. assert (e' = e) as <-; [|exact He'].
        destruct e as [a b], e' as [a' b']. assert (H1 := Hi _ (or_introl eq_refl)). assert (H2 := Hi _ (or_intror He')).
        rewrite in_EO_order in H1, H2. unfold mm in Em. cbn [fst snd] in Em. injection Em as E1 E2.
        assert (Hc : (a' = a /\ b' = b) \/ (a' = b /\ b' = a)) by lia. destruct Hc as [[-> ->]|[-> ->]]; [reflexivity|].
        exfalso. apply (dag_no_cycle2 g a b); assumption.
      - apply IH. intros x Hx. apply Hi. now right. }
    apply Hs; [now apply EO_nodup|apply incl_refl]. }
  rewrite HP. rewrite <- (map_length mm (EO order)).
  apply Nat.le_antisymm; apply NoDup_incl_length; try assumption.
  - intros [a b] H. apply HinP in H. destruct H as [[H1 H2] H3]. destruct Hdag as (_ & _ & Hd).
    apply in_map_iff. destruct (Hd b a) as [[H4 H5]|[H4 H5]]; [lia|lia|exact H3| |].
    + exists (b, a). split; [unfold mm; cbn; f_equal; lia|]. apply in_EO_order. unfold dE, directed. repeat split; auto; lia.
    + exists (a, b). split; [unfold mm; cbn; f_equal; lia|]. apply in_EO_order. unfold dE, directed. repeat split; auto; lia.
  - intros e H. apply in_map_iff in H. destruct H as ((a & b) & <- & H). apply in_EO_order in H.
    assert (H' : dE a b) by exact H. destruct H' as (Ha & Hb & H1 & H2).
    assert (a <> b). { intros ->. lia. }
    unfold mm. cbn [fst snd]. apply HinP. destruct (le_lt_dec a b).
    + rewrite Nat.min_l, Nat.max_r by lia. split; [lia|]. lia.
    + rewrite Nat.min_r, Nat.max_l by lia. split; [lia|]. lia.
Qed.
Lemma edges_order_eq : edges_order g order = EO order.
Proof. unfold edges_order. rewrite num_edges, eo_iter by lia. apply firstn_all. Qed.


(** ** The labelling loop *)
Definition zeros_of (l : list (nat * nat)) : list lrow := map (fun e => (e, 0)) l.
Definition relabel (j : nat) (f : nat -> Z) (st : list lrow) : list lrow :=
  map (fun x => if Nat.eqb (snd (fst x)) j then (fst x, f (fst (fst x))) else x) st.

Lemma nth_map_lrow (h : lrow -> lrow) m st : (m < length st)%nat -> nth m (map h st) no_row = h (nth m st no_row).
Proof. intros H. rewrite (nth_indep _ no_row (h no_row)) by (now rewrite map_length). apply map_nth. Qed.

Lemma label_ext p q v st : (forall e s, p e s = q e s) -> label p v st = label q v st.
Proof. intros H. unfold label. apply map_ext. intros x. now rewrite H. Qed.
Lemma label_comp p q v st : (forall e s, p e s = true -> forall s', q e s' = true) ->
  (forall e s s', q e s = q e s') ->
  label q v (label p v st) = label q v st.
Proof.
  intros H1 H2. unfold label. rewrite map_map. apply map_ext. intros [e s]. cbn [fst snd].
  destruct (p e s) eqn:P; cbn [fst snd].
  - now rewrite !(H1 _ _ P).
  - reflexivity.
Qed.

(** The loop over the edges into x. *)
Definition wtest (st : list lrow) (idk : list nat) (w : nat) : bool :=
  existsb (fun m => (snd (nth m st no_row) =? 1) && Nat.eqb (fst (fst (nth m st no_row))) w) idk.
Definition atest (j : nat) (st : list lrow) (idk : list nat) : bool :=
  existsb (fun m => (snd (nth m st no_row) =? 1) && negb (gm g j (fst (fst (nth m st no_row))) =? 1)) idk.
Lemma w_loop_spec j : forall idk st,
  (forall m, In m idk -> (m < length st)%nat /\ snd (fst (nth m st no_row)) <> j) ->
  w_loop g j idk st =
    (atest j st idk,
     if atest j st idk then label (into j) 1 st
     else label (fun e s => Nat.eqb (snd e) j && wtest st idk (fst e)) 1 st).
Proof.
  induction idk as [|m idk IH]; intros st Hm.
  - cbn. f_equal. unfold label. rewrite map_ext with (g := fun x => x); [now rewrite map_id|].
    intros x. now rewrite andb_false_r.
  - destruct (Hm m (or_introl eq_refl)) as [Hlen Hne].
    cbn [w_loop]. unfold atest, wtest. cbn [existsb]. fold (atest j st idk).
    destruct (snd (nth m st no_row) =? 1) eqn:E1; cbn [andb orb].
    + destruct (gm g j (fst (fst (nth m st no_row))) =? 1) eqn:E2; cbn [negb andb orb]; [|reflexivity].
      set (w := fst (fst (nth m st no_row))).
      assert (Hnth : forall k, In k idk -> nth k (label (is_row w j) 1 st) no_row = nth k st no_row).
      { intros k Hk. destruct (Hm k (or_intror Hk)) as [Hl Hn]. unfold label. rewrite nth_map_lrow by exact Hl.
        unfold is_row. destruct (Nat.eqb_spec (snd (fst (nth k st no_row))) j); [contradiction|].
        now rewrite andb_false_r. }
      assert (Hex : forall P : lrow -> bool, existsb (fun m => P (nth m (label (is_row w j) 1 st) no_row)) idk =
                                existsb (fun m => P (nth m st no_row)) idk).
      { intros P. clear - Hnth. induction idk as [|k idk IH]; [reflexivity|]. cbn [existsb]. rewrite Hnth by now left.
        rewrite IH; [reflexivity|]. intros k' Hk'. apply Hnth. now right. }
      rewrite IH.
      2:{ intros k Hk. destruct (Hm k (or_intror Hk)) as [Hl Hn]. rewrite Hnth by exact Hk. split; [|exact Hn].
          unfold label. now rewrite map_length. }
      unfold atest. rewrite (Hex (fun x => (snd x =? 1) && negb (gm g j (fst (fst x)) =? 1))). fold (atest j st idk).
      f_equal. destruct (atest j st idk) eqn:EA.
      * apply label_comp; [|reflexivity]. intros e s Hp s'. unfold is_row in Hp. unfold into. now apply andb_true_iff in Hp.
      * rewrite (label_ext _ (fun e s => Nat.eqb (snd e) j && wtest st idk (fst e))).
        2:{ intros e s. unfold wtest. now rewrite (Hex (fun x => (snd x =? 1) && Nat.eqb (fst (fst x)) (fst e))). }
        unfold label. rewrite map_map. apply map_ext. intros [e s]. cbn [fst snd]. fold (wtest st idk (fst e)).
        unfold is_row. rewrite (Nat.eqb_sym (fst e) w).
        destruct (Nat.eqb w (fst e)), (Nat.eqb (snd e) j) eqn:EJ; cbn [andb orb fst snd]; rewrite ?EJ; cbn [andb];
        destruct (wtest st idk (fst e)); reflexivity.
    + rewrite IH; [reflexivity|]. intros k Hk. apply Hm. now right.
Qed.

Lemma find_last_zero a x d : snd x = 0 -> (forall y, In y d -> snd y <> 0) ->
  find (fun m => snd (nth m (a ++ x :: d) no_row) =? 0) (rev (seq 0 (length (a ++ x :: d)))) = Some (length a).
Proof.
  intros Hx Hd. rewrite app_length. cbn [length].
  assert (Hs : seq 0 (length a + S (length d)) = seq 0 (length a) ++ length a :: seq (S (length a)) (length d)).
  { rewrite seq_app. reflexivity. }
  rewrite Hs. rewrite rev_app_distr. cbn [rev]. rewrite <- app_assoc. cbn [app].
  apply find_first.
  - intros m Hm. apply in_rev in Hm. apply in_seq in Hm. apply Z.eqb_neq. apply Hd.
    rewrite app_nth2 by lia. replace (m - length a)%nat with (S (m - length a - 1)) by lia. cbn [nth].
    apply nth_In. lia.
  - rewrite app_nth2 by lia. rewrite Nat.sub_diag. cbn [nth]. rewrite Hx. reflexivity.
Qed.

Lemma z_test_iff x y : dE x y -> z_test g x y = true <-> exists z, z <> x /\ dE z y /\ ~ dE z x.
Proof.
  intros Hxy. destruct Hxy as (Hx & Hy & _). unfold z_test. rewrite existsb_exists. split.
  - intros (z & Hz & E). apply in_seq0 in Hz.
    rewrite !andb_true_iff, !orb_true_iff, negb_true_iff, Nat.eqb_neq, andb_true_iff, !Z.eqb_eq in E.
    exists z. split; [tauto|]. rewrite !dE_iff by assumption. split; [tauto|]. lia.
  - intros (z & N & H1 & H2). assert (Hz : (z < gn g)%nat) by apply H1. exists z. split; [now apply in_seq0|].
    rewrite dE_iff in H1, H2 by assumption.
    rewrite !andb_true_iff, !orb_true_iff, negb_true_iff, Nat.eqb_neq, andb_true_iff, !Z.eqb_eq.
    split; [tauto|]. left. destruct (Z.eq_dec (gm g x z) 0) as [E0|E0]; [auto|].
    destruct Hdag as (_ & _ & Hd). destruct (Hd x z Hx Hz E0); lia.
Qed.

(** What one iteration does when the last unknown row is (x, y). *)
Definition new_sign (st : list lrow) (x y : nat) (w : nat) : Z :=
  let idk := filter (fun m => Nat.eqb (snd (fst (nth m st no_row))) x) (seq 0 (length st)) in
  if atest y st idk then 1 else if wtest st idk w then 1 else if z_test g x y then 1 else -1.

Lemma wtest_iff (st : list lrow) x w :
  wtest st (filter (fun m => Nat.eqb (snd (fst (nth m st no_row))) x) (seq 0 (length st))) w = true <-> In ((w, x), 1) st.
Proof.
  unfold wtest. rewrite existsb_exists. split.
  - intros (m & Hm & E). rewrite filter_In, in_seq0, Nat.eqb_eq in Hm. rewrite andb_true_iff, Z.eqb_eq, Nat.eqb_eq in E.
    destruct Hm as [Hm1 Hm2], E as [E1 E2]. pose proof (nth_In st no_row Hm1) as Hi.
    destruct (nth m st no_row) as [[a b] s]. cbn [fst snd] in *. subst. exact Hi.
  - intros H. destruct (In_nth _ _ no_row H) as (m & Hm & E). exists m. rewrite filter_In, in_seq0, E. cbn [fst snd].
    rewrite !Nat.eqb_refl. auto.
Qed.
Lemma atest_iff (st : list lrow) x y : (forall a b s, In ((a, b), s) st -> dE a b) -> In y order ->
  atest y st (filter (fun m => Nat.eqb (snd (fst (nth m st no_row))) x) (seq 0 (length st))) = true <->
  exists w, In ((w, x), 1) st /\ ~ dE w y.
Proof.
  intros Hst Hy. unfold atest. rewrite existsb_exists. split.
  - intros (m & Hm & E). rewrite filter_In, in_seq0, Nat.eqb_eq in Hm.
    rewrite andb_true_iff, Z.eqb_eq, negb_true_iff in E.
    destruct Hm as [Hm1 Hm2], E as [E1 E2]. pose proof (nth_In st no_row Hm1) as Hi.
    destruct (nth m st no_row) as [[a b] s]. cbn [fst snd] in *. subst. exists a. split; [exact Hi|].
    intros H. apply Hst in Hi. apply dE_test in H; [congruence| |exact Hy]. now apply dE_in in Hi.
  - intros (w & H & N). destruct (In_nth _ _ no_row H) as (m & Hm & E). exists m. rewrite filter_In, in_seq0, E. cbn [fst snd].
    rewrite Nat.eqb_refl. split; [auto|]. cbn. rewrite negb_true_iff, <- not_true_iff_false. rewrite dE_test; auto.
    apply Hst in H. now apply dE_in in H.
Qed.

Lemma lab_step_spec (a : list lrow) x y d : dE x y -> (forall u v s, In ((u, v), s) (a ++ ((x, y), 0) :: d) -> dE u v) ->
  (forall s w, In ((w, y), s) (a ++ ((x, y), 0) :: d) -> s = 0) ->
  (forall z, In z d -> snd z <> 0) ->
  lab_step g (a ++ ((x, y), 0) :: d) = relabel y (new_sign (a ++ ((x, y), 0) :: d) x y) (a ++ ((x, y), 0) :: d).
Proof.
  intros Hxy He Hz Hd. change (a ++ ((x, y), 0) :: d) with (a ++ (((x, y), 0) : lrow) :: d). set (st := a ++ (((x, y), 0) : lrow) :: d) in *.
  assert (Hf : find (fun m => snd (nth m st no_row) =? 0) (rev (seq 0 (length st))) = Some (length a)) by now apply find_last_zero.
  unfold lab_step. rewrite Hf.
  assert (Hn : nth (length a) st no_row = ((x, y), 0)).
  { unfold st. rewrite app_nth2 by lia. now rewrite Nat.sub_diag. }
  rewrite Hn. cbn [fst snd].
  set (idk := filter (fun m => Nat.eqb (snd (fst (nth m st no_row))) x) (seq 0 (length st))).
  assert (Hxy' : x <> y) by (intros ->; apply dE_order in Hxy; lia).
  assert (Hidk : forall m, In m idk -> (m < length st)%nat /\ snd (fst (nth m st no_row)) <> y).
  { intros m Hm. unfold idk in Hm. rewrite filter_In, in_seq0, Nat.eqb_eq in Hm. split; [tauto|]. destruct Hm as [_ ->]. exact Hxy'. }
  rewrite (w_loop_spec y idk st Hidk). unfold new_sign. fold idk.
  destruct (atest y st idk) eqn:EA.
  - unfold relabel, label, into. apply map_ext. intros [e s]. reflexivity.
  - unfold relabel, label, is_row, into_unknown. rewrite !map_map. apply map_ext_in. intros [[w b] s] Hi. cbn [fst snd].
    destruct (Nat.eqb b y) eqn:Eb; cbn [andb fst snd].
    2:{ rewrite ?Eb, ?andb_false_r. cbn [fst snd andb]. rewrite ?Eb. reflexivity. }
    apply Nat.eqb_eq in Eb. subst b.
    assert (s = 0) as -> by (eapply Hz; exact Hi).
    assert (Hwx : wtest st idk x = false).
    { apply not_true_iff_false. unfold idk. rewrite wtest_iff. intros H. apply He, dE_order in H. lia. }
    destruct (wtest st idk w) eqn:EW; cbn [fst snd].
    + destruct (Nat.eqb_spec w x) as [->|Nw]; [congruence|]. cbn [andb fst snd]. rewrite Nat.eqb_refl. reflexivity.
    + rewrite Nat.eqb_refl, andb_true_r. destruct (Nat.eqb_spec w x) as [->|Nw]; cbn [fst snd andb]; rewrite ?Nat.eqb_refl;
      destruct (z_test g x y); reflexivity.
Qed.

Definition rk (v : nat) : nat := idx v order.
Definition Lb (st : list lrow) (w y : nat) : Prop := In ((w, y), 1) st.
Definition lab_spec (st : list lrow) (y : nat) : Prop :=
  forall x, latest dE rk x y ->
    (condA dE (Lb st) x y \/ condC dE x y -> forall w, dE w y -> Lb st w y) /\
    (~ (condA dE (Lb st) x y \/ condC dE x y) -> forall w, dE w y -> (Lb st w y <-> Lb st w x)).

Lemma par_last y fy x : In y order -> par y = fy ++ [x] -> latest dE rk x y.
Proof.
  intros Hy E. split.
  - apply in_par; [exact Hy|]. rewrite E. apply in_app_iff. right. now left.
  - intros w Hw. apply in_par in Hw; [|exact Hy]. rewrite E in Hw. apply in_app_iff in Hw.
    destruct Hw as [Hw|[<-|[]]]; [right|now left].
    change (fy ++ [x]) with (fy ++ x :: []) in E. destruct (filter_split _ _ _ _ _ E) as (la & lb & Eo & Ef).
    unfold rk. rewrite Eo. apply idx_before; [now rewrite <- Eo|]. rewrite <- Ef in Hw. now apply filter_In in Hw.
Qed.
Lemma latest_ex w y : dE w y -> exists x, latest dE rk x y.
Proof.
  intros H. destruct (dE_in _ _ H) as [_ Hy]. apply in_par in H; [|exact Hy].
  destruct (par y) as [|x fy _] eqn:E using rev_ind; [destruct H|]. exists x. now apply par_last with (fy := fy).
Qed.
Lemma latest_unique x x' y : latest dE rk x y -> latest dE rk x' y -> x = x'.
Proof.
  intros [H1 H2] [H3 H4]. destruct (H2 _ H3) as [->|?]; [reflexivity|]. destruct (H4 _ H1) as [->|?]; [reflexivity|lia].
Qed.

Definition linv (l1 l2 : list nat) (st : list lrow) : Prop :=
  order = l1 ++ l2 /\
  exists dn, st = zeros_of (EO l2) ++ dn /\ map fst dn = EO l1 /\ (forall x, In x dn -> snd x = 1 \/ snd x = -1) /\
    forall y, In y l1 -> lab_spec dn y.

Lemma relabel_other j f st : (forall x, In x st -> snd (fst x) <> j) -> relabel j f st = st.
Proof.
  intros Hx. unfold relabel. rewrite <- (map_id st) at 2. apply map_ext_in. intros x Hi.
  destruct (Nat.eqb_spec (snd (fst x)) j); [|reflexivity]. now destruct (Hx x Hi).
Qed.
Lemma relabel_app j f a b : relabel j f (a ++ b) = relabel j f a ++ relabel j f b.
Proof. apply map_app. Qed.
Lemma in_zeros e s l : In (e, s) (zeros_of l) <-> s = 0 /\ In e l.
Proof.
  unfold zeros_of. rewrite in_map_iff. split.
  - intros (x & E & Hx). injection E as <- <-. auto.
  - intros [-> H]. exists e. auto.
Qed.

Lemma lab_spec_ext st st' y : (forall w, Lb st w y <-> Lb st' w y) ->
  (forall x, dE x y -> forall w, Lb st w x <-> Lb st' w x) -> lab_spec st y -> lab_spec st' y.
Proof.
  intros H1 H2 Hs x Hx. destruct (Hs x Hx) as [S1 S2]. pose proof (H2 x (proj1 Hx)) as H3.
  assert (HA : condA dE (Lb st) x y <-> condA dE (Lb st') x y).
  { unfold condA. split; intros (w & Hw & N); exists w; (split; [now apply H3|exact N]). }
  rewrite <- HA. split.
  - intros H w Hw. apply H1. auto.
  - intros H w Hw. rewrite <- H1, <- H3. auto.
Qed.

Lemma first_nonempty : forall l2, EO l2 <> [] ->
  exists l2a y l2b, l2 = l2a ++ y :: l2b /\ (forall z, In z l2a -> par z = []) /\ par y <> [].
Proof.
  induction l2 as [|z l2 IH]; intros N; [now destruct N|].
  destruct (par z) as [|p l] eqn:E.
  - destruct IH as (l2a & y & l2b & -> & H1 & H2).
    + intros E2. apply N. change (z :: l2) with ([z] ++ l2). rewrite EO_app, E2, EO_one. unfold group. now rewrite E.
    + exists (z :: l2a), y, l2b. split; [reflexivity|]. split; [|exact H2]. intros w [<-|Hw]; auto.
  - exists [], z, l2. rewrite E. split; [reflexivity|]. split; [intros w []|discriminate].
Qed.
Lemma EO_empty l : (forall z, In z l -> par z = []) -> EO l = [].
Proof.
  intros Hl. induction l as [|z l IH] using rev_ind; [reflexivity|]. rewrite EO_app, EO_one. unfold group.
  rewrite (Hl z) by (apply in_app_iff; right; now left). apply IH. intros w Hw. apply Hl, in_app_iff. now left.
Qed.

Lemma step_linv l1 l2 st : linv l1 l2 st -> EO l2 <> [] ->
  exists l1' l2', linv l1' l2' (lab_step g st) /\ (length l2' < length l2)%nat.
Proof.
  intros (Eo & dn & -> & Ed & Hsg & Hspec) Hne.
  destruct (first_nonempty l2 Hne) as (l2a & y & l2b & -> & Hemp & Hy).
  exists (l1 ++ l2a ++ [y]), l2b. split; [|rewrite app_length; cbn; lia].
  destruct (par y) as [|x fy _] eqn:Ep using rev_ind; [congruence|]. clear Hy.
  assert (Hyo : In y order) by (rewrite Eo; rewrite !in_app_iff; right; right; now left).
  pose proof (par_last y fy x Hyo Ep) as Hlat. pose proof (proj1 Hlat) as Hxy.
  assert (EZ : EO (l2a ++ y :: l2b) = (EO l2b ++ map (fun i => (i, y)) fy) ++ [(x, y)]).
  { change (y :: l2b) with ([y] ++ l2b). rewrite !EO_app, EO_one, (EO_empty l2a Hemp), app_nil_r. unfold group.
    rewrite Ep, map_app. cbn [map]. now rewrite app_assoc. }
  assert (Est : zeros_of (EO (l2a ++ y :: l2b)) ++ dn = zeros_of (EO l2b ++ map (fun i => (i, y)) fy) ++ ((x, y), 0) :: dn).
  { rewrite EZ. unfold zeros_of. rewrite (map_app _ _ [(x, y)]). cbn [map]. now rewrite <- app_assoc. }
  assert (Hnd' : ~ In y l1 /\ ~ In y l2a /\ ~ In y l2b).
  { pose proof Hnd as Hn. rewrite Eo in Hn. rewrite app_assoc in Hn. apply NoDup_remove in Hn. destruct Hn as [_ Hn].
    rewrite !in_app_iff in Hn. tauto. }
  destruct Hnd' as (Ny1 & Ny2 & Ny3).
  assert (Hdn : forall a b s, In ((a, b), s) dn -> In b l1 /\ In a (par b)).
  { intros a b s H. apply in_EO. rewrite <- Ed. apply in_map_iff. exists ((a, b), s). auto. }
  assert (Hrows : forall u v s, In ((u, v), s) (zeros_of (EO (l2a ++ y :: l2b)) ++ dn) -> dE u v).
  { intros u v s H. apply in_app_iff in H. destruct H as [H|H].
    - apply in_zeros in H. destruct H as [_ H]. apply in_EO in H. destruct H as [H1 H2]. apply in_par; [|exact H2].
      rewrite Eo. apply in_app_iff. now right.
    - apply Hdn in H. destruct H as [H1 H2]. apply in_par; [|exact H2]. rewrite Eo. apply in_app_iff. now left. }
  set (st := zeros_of (EO (l2a ++ y :: l2b)) ++ dn) in *.
  assert (HLst : forall w z, In ((w, z), 1) st <-> Lb dn w z).
  { intros w z. unfold st, Lb. rewrite in_app_iff, in_zeros. split; [intros [[? _]|?]; [lia|assumption]|auto]. }
  assert (Hstep : lab_step g st = relabel y (new_sign st x y) st).
  { rewrite Est. apply lab_step_spec; [exact Hxy| | |].
    - rewrite <- Est. exact Hrows.
    - rewrite <- Est. unfold st. intros s w H. apply in_app_iff in H. destruct H as [H|H]; [now apply in_zeros in H|].
      apply Hdn in H. tauto.
    - intros z Hz. destruct (Hsg z Hz); lia. }
  rewrite Hstep. set (f := new_sign st x y).
  set (gy := map (fun i => ((i, y), f i)) (par y)).
  assert (Eres : relabel y f st = zeros_of (EO l2b) ++ gy ++ dn).
  { unfold st. rewrite EZ. rewrite <- app_assoc. unfold zeros_of at 1. rewrite map_app.
    fold (zeros_of (EO l2b)). rewrite !relabel_app, <- app_assoc. f_equal; [|f_equal].
    - apply relabel_other. intros [[a b] s] H. apply in_zeros in H. destruct H as [_ H]. apply in_EO in H. cbn.
      intros ->. tauto.
    - unfold gy. rewrite Ep, !map_app. cbn [map]. rewrite relabel_app. unfold relabel. rewrite !map_map. cbn [fst snd map].
      rewrite Nat.eqb_refl. reflexivity.
    - apply relabel_other. intros [[a b] s] H. apply Hdn in H. cbn. intros ->. tauto. }
  split; [now rewrite Eo, <- !app_assoc|].
  exists (gy ++ dn). split; [exact Eres|]. split; [|split].
  - rewrite map_app, Ed. rewrite !EO_app, EO_one, (EO_empty l2a Hemp), app_nil_r. f_equal.
    unfold gy, group. rewrite map_map. reflexivity.
  - intros z Hz. apply in_app_iff in Hz. destruct Hz as [Hz|Hz]; [|auto].
    unfold gy in Hz. apply in_map_iff in Hz. destruct Hz as (i & <- & _). cbn [snd]. unfold f, new_sign. cbv zeta.
    repeat match goal with |- context [if ?c then _ else _] => destruct c end; auto.
  - assert (Hgy : forall w z, Lb gy w z <-> z = y /\ dE w y /\ f w = 1).
    { intros w z. unfold Lb, gy. rewrite in_map_iff. split.
      - intros (i & E & Hi). injection E as -> -> E. split; [reflexivity|]. split; [now apply in_par in Hi|exact E].
      - intros (-> & H1 & H2). exists w. rewrite H2. split; [reflexivity|]. now apply in_par. }
    assert (Happ : forall w z, Lb (gy ++ dn) w z <-> Lb gy w z \/ Lb dn w z).
    { intros. unfold Lb. apply in_app_iff. }
    assert (Hother : forall w z, z <> y -> (Lb dn w z <-> Lb (gy ++ dn) w z)).
    { intros w z N. rewrite Happ, Hgy. tauto. }
    assert (Hdny : forall w, ~ Lb dn w y).
    { intros w H. apply Hdn in H. tauto. }
    intros v Hv. apply in_app_iff in Hv. destruct Hv as [Hv|Hv]; [|apply in_app_iff in Hv; destruct Hv as [Hv|[<-|[]]]].
    + apply lab_spec_ext with (st := dn); [| |now apply Hspec].
      * intros w. apply Hother. congruence.
      * intros u Hu w. apply Hother. intros ->. apply Ny1.
        destruct (in_split _ _ Hv) as (m1 & m2 & Em). rewrite Em in Eo.
        assert (Hin : In y m1).
        { apply (Htop m1 v (m2 ++ l2a ++ y :: l2b)); [now rewrite Eo, <- app_assoc, <- app_comm_cons|].
          apply dag_dedge; assumption. }
        rewrite Em. apply in_app_iff. now left.
    + intros u [Hu _]. apply in_par in Hu; [rewrite (Hemp v Hv) in Hu; destruct Hu|].
      rewrite Eo. rewrite !in_app_iff. tauto.
    + intros u Hu. rewrite (latest_unique u x y Hu Hlat). clear u Hu.
      assert (Nxy : x <> y) by (intros ->; apply dE_order in Hxy; lia).
      assert (HA : condA dE (Lb (gy ++ dn)) x y <-> atest y st (filter (fun m => Nat.eqb (snd (fst (nth m st no_row))) x) (seq 0 (length st))) = true).
      { rewrite atest_iff by assumption. unfold condA. split; intros (w & Hw & N); exists w; (split; [|exact N]).
        - apply HLst. now apply Hother.
        - apply Hother; [exact Nxy|]. now apply HLst. }
      assert (HC : condC dE x y <-> z_test g x y = true) by (rewrite z_test_iff by exact Hxy; reflexivity).
      assert (HW : forall w, Lb (gy ++ dn) w x <-> wtest st (filter (fun m => Nat.eqb (snd (fst (nth m st no_row))) x) (seq 0 (length st))) w = true).
      { intros w. rewrite wtest_iff, HLst. symmetry. now apply Hother. }
      assert (HY : forall w, dE w y -> (Lb (gy ++ dn) w y <-> f w = 1)).
      { intros w Hw. rewrite Happ, Hgy. specialize (Hdny w). tauto. }
      split.
      * intros HAC w Hw. apply HY; [exact Hw|]. unfold f, new_sign. cbv zeta.
        destruct HAC as [H|H]; [apply HA in H; now rewrite H|]. apply HC in H. rewrite H.
        repeat match goal with |- context [if ?c then _ else _] => destruct c end; reflexivity.
      * intros HAC w Hw. rewrite (HY w Hw), HW. unfold f, new_sign. cbv zeta. rewrite HA, HC in HAC.
        set (idk := filter _ (seq 0 (length st))) in *.
        destruct (atest y st idk); [tauto|]. destruct (wtest st idk w); [tauto|]. destruct (z_test g x y); [tauto|].
        split; [lia|discriminate].
Qed.

Lemma nonzero_iff l1 l2 st : linv l1 l2 st -> forallb (fun x : lrow => negb (snd x =? 0)) st = true <-> EO l2 = [].
Proof.
  intros (Eo & dn & -> & Ed & Hsg & _). rewrite forallb_forall. split.
  - intros H. destruct (EO l2) as [|e l]; [reflexivity|]. specialize (H (e, 0)). cbn in H. discriminate H. now left.
  - intros -> x Hx. cbn in Hx. destruct (Hsg x Hx) as [-> | ->]; reflexivity.
Qed.
Lemma lab_loop_spec : forall fuel l1 l2 st, linv l1 l2 st -> (length l2 <= fuel)%nat ->
  exists st', lab_loop fuel g st = Some st' /\ map fst st' = EO order /\ (forall x, In x st' -> snd x = 1 \/ snd x = -1) /\
    forall y, In y order -> lab_spec st' y.
Proof.
  induction fuel as [|f IH]; intros l1 l2 st Hi Hl.
  - cbn [lab_loop]. assert (l2 = []) as -> by (destruct l2; [reflexivity|cbn in Hl; lia]).
    pose proof (proj2 (nonzero_iff _ _ _ Hi) eq_refl) as E. rewrite E.
    destruct Hi as (Eo & dn & -> & Ed & Hsg & Hs). rewrite app_nil_r in Eo. subst l1. exists dn. cbn. auto.
  - cbn [lab_loop]. destruct (forallb (fun x : lrow => negb (snd x =? 0)) st) eqn:E.
    + pose proof (proj1 (nonzero_iff _ _ _ Hi) E) as Ez. destruct Hi as (Eo & dn & -> & Ed & Hsg & Hs).
      rewrite Ez in *. cbn [zeros_of map app] in *. exists dn. split; [reflexivity|].
      assert (Ho : EO order = EO l1) by (rewrite Eo, EO_app, Ez; reflexivity). rewrite Ho. split; [exact Ed|]. split; [exact Hsg|].
      intros y Hy. destruct (in_dec Nat.eq_dec y l1) as [|N]; [auto|].
      intros x [Hxy _]. exfalso. apply in_EO_order in Hxy. rewrite Ho in Hxy. apply in_EO in Hxy. tauto.
    + destruct (step_linv l1 l2 st Hi) as (l1' & l2' & Hi' & Hlt).
      { intros Ez. apply (nonzero_iff _ _ _ Hi) in Ez. congruence. }
      apply (IH l1' l2'); [exact Hi'|lia].
Qed.
Lemma labels fuel : (length order <= fuel)%nat ->
  exists st, lab_loop fuel g (map (fun e => (e, 0)) (edges_order g order)) = Some st /\
    map fst st = EO order /\ (forall x, In x st -> snd x = 1 \/ snd x = -1) /\ forall y, In y order -> lab_spec st y.
Proof.
  intros Hf. rewrite edges_order_eq. apply (lab_loop_spec fuel [] order); [|exact Hf].
  split; [reflexivity|]. exists []. split; [now rewrite app_nil_r|]. split; [reflexivity|]. split; [intros x []|intros y []].
Qed.
End FixedDag.
