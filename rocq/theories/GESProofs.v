(** Lemmas about the parts of greedy equivalence search: path test, score record, operators. *)
From Verif Require Import Base EdgeModel EdgeProofs GraphModel GraphSpec GraphProofs RankLib UtilsModel UtilsProofs
  DsepSpec DsepProofs MeekSpec MeekProofs PdagModel PdagProofs PdagProps CpdagModel CpdagSpec CpdagProofs CpdagMain CpdagProps
  SkelModel SkelProofs PCModel ExactSpec GESSpec GESTheory GESModel.
From Coq Require Import Permutation.
Local Open Scope Z_scope.

Lemma filter_length_le {A} (f : A -> bool) l : (length (filter f l) <= length l)%nat.
Proof. induction l as [|x l IH]; cbn; [lia|]. destruct (f x); cbn; lia. Qed.

(* ---------- sets of nodes ---------- *)
Lemma in_nbs g j k : (j < gn g)%nat -> In k (nbs g j) <-> undirected g k j.
Proof. intros Hj. unfold nbs, undirected. rewrite filter_In, in_seq0, andb_true_iff, !Z.eqb_eq. tauto. Qed.
Lemma in_adjs g i k : wf g -> (i < gn g)%nat -> In k (adjs g i) <-> joined g k i.
Proof.
  intros W Hi. unfold adjs. rewrite filter_In, in_seq0, orb_true_iff, !negb_true_iff, !Z.eqb_neq. split.
  - intros (Hk & [H|H]); [split; auto|]. apply wf_joined_sym; [exact W|]. split; auto.
  - intros (H1 & H2 & H3). split; auto.
Qed.
Lemma in_NA g i j k : wf g -> (i < gn g)%nat -> (j < gn g)%nat -> In k (NAset g i j) <-> undirected g k j /\ joined g k i.
Proof. intros W Hi Hj. unfold NAset. rewrite filter_In, memb_In, in_nbs, in_adjs by auto. tauto. Qed.
Lemma in_T0 g i j k : wf g -> (i < gn g)%nat -> (j < gn g)%nat -> In k (T0set g i j) <-> undirected g k j /\ ~ joined g k i.
Proof.
  intros W Hi Hj. unfold T0set. rewrite filter_In, negb_true_iff, memb_not_In, in_nbs, in_adjs by auto. tauto.
Qed.
Lemma in_union1 g a b k : In k (union1 g a b) <-> (k < gn g)%nat /\ (In k a \/ In k b).
Proof. unfold union1. rewrite filter_In, in_seq0, orb_true_iff, !memb_In. tauto. Qed.
Lemma nodup_filter_seq f n : NoDup (filter f (seq 0 n)).
Proof. apply NoDup_filter, seq_NoDup. Qed.
Lemma nodup_union1 g a b : NoDup (union1 g a b). Proof. apply nodup_filter_seq. Qed.
Lemma nodup_NA g i j : NoDup (NAset g i j). Proof. apply NoDup_filter, nodup_filter_seq. Qed.
Lemma nodup_T0 g i j : NoDup (T0set g i j). Proof. apply NoDup_filter, nodup_filter_seq. Qed.
Lemma in_paj g j k : pdag g -> (j < gn g)%nat -> In k (paj g j) <-> directed g k j.
Proof.
  intros (W & K) Hj. unfold paj. rewrite filter_In, in_seq0, Z.eqb_eq. split.
  - intros [Hk H]. destruct (K j k) as [(_ & _ & H' & _)|[H'|(_ & _ & H' & _)]]; [repeat split; auto; lia|lia|exact H'|lia].
  - intros (H1 & H2 & H3 & H4). auto.
Qed.

Lemma combinatorial_sub T0 T : In T (Combinatorial T0) -> incl T T0 /\ (NoDup T0 -> NoDup T).
Proof.
  assert (Gen : In T (flat_map (fun n => combs n T0) (seq 0 (S (length T0)))) -> incl T T0 /\ (NoDup T0 -> NoDup T)).
  { intros H. apply in_flat_map in H. destruct H as (k & _ & H). apply combs_in in H. tauto. }
  unfold Combinatorial. destruct T0 as [|x [|y r]]; [| |exact Gen].
  - intros [<-|[]]. split; [intros z []|intros; constructor].
  - intros [<-|[<-|[]]]; (split; [|intros H; try exact H; constructor]); intros z Hz; auto. destruct Hz.
Qed.
Lemma combinatorial_filter f T0 : In (filter f T0) (Combinatorial T0).
Proof.
  assert (Gen : In (filter f T0) (flat_map (fun n => combs n T0) (seq 0 (S (length T0))))).
  { apply in_flat_map. exists (length (filter f T0)). split; [|apply combs_filter]. apply in_seq0.
    pose proof (filter_length_le f T0). lia. }
  unfold Combinatorial. destruct T0 as [|x [|y r]]; [| |exact Gen].
  - now left.
  - cbn [filter]. destruct (f x); [right; now left|now left].
Qed.

(** check_clique on a list of distinct nodes of a graph of directed and undirected edges. *)
Lemma check_clique_iff g sub : pdag g -> NoDup sub -> (forall a, In a sub -> (a < gn g)%nat) ->
  check_clique g sub = true <-> forall a b, In a sub -> In b sub -> a <> b -> joined g a b.
Proof.
  intros (W & K) N R. unfold check_clique. rewrite forallb_forall. split.
  - intros H a b Ha Hb Nab.
    destruct (In_nth _ _ 0%nat Ha) as (p & Hp & Ep). destruct (In_nth _ _ 0%nat Hb) as (q & Hq & Eq).
    specialize (H p (proj2 (in_seq0 _ _) Hp)). rewrite forallb_forall in H. specialize (H q (proj2 (in_seq0 _ _) Hq)).
    rewrite Ep, Eq in H. apply Z.eqb_eq in H. destruct (Nat.eqb_spec p q) as [E|_]; [subst; congruence|].
    destruct ((gm g a b =? 1) || (gm g b a =? 1)) eqn:E.
    + apply orb_true_iff in E. rewrite !Z.eqb_eq in E. destruct E as [E|E].
      * split; [auto|]. split; [auto|lia].
      * apply wf_joined_sym; [exact W|]. split; [auto|]. split; [auto|lia].
    + split; [auto|]. split; [auto|lia].
  - intros H p Hp. apply forallb_forall. intros q Hq. apply in_seq0 in Hp, Hq. apply Z.eqb_eq.
    pose proof (nth_In sub 0%nat Hp) as Ia. pose proof (nth_In sub 0%nat Hq) as Ib.
    destruct (Nat.eqb_spec p q) as [E|E].
    + subst. destruct W as [Ws _]. rewrite Ws by auto. reflexivity.
    + assert (Nab : nth p sub 0%nat <> nth q sub 0%nat) by (intros E'; apply E; eapply NoDup_nth; eauto).
      specialize (H _ _ Ia Ib Nab). destruct (K _ _ H) as [(_ & _ & H1 & H2)|[(_ & _ & H1 & H2)|(_ & _ & H1 & H2)]]; rewrite H1, H2; reflexivity.
Qed.

(* ---------- the path test ---------- *)
(** Paths with distinct nodes, the last node first. *)
Inductive spath (g : ggraph) (j : nat) : list nat -> Prop :=
| sp_1 : spath g j [j]
| sp_S : forall u v l, spath g j (u :: l) -> semi_step g u v -> ~ In v (u :: l) -> spath g j (v :: u :: l).

Lemma spath_nodup g j p : spath g j p -> NoDup p.
Proof. induction 1 as [|u v l H IH Hs Hn]; constructor; auto. constructor. Qed.
Lemma spath_in g j p : (j < gn g)%nat -> spath g j p -> forall x, In x p -> (x < gn g)%nat.
Proof.
  intros Hj. induction 1 as [|u v l H IH Hs Hn]; intros x; [intros [<-|[]]; auto|].
  intros [<-|Hx]; [|auto]. destruct Hs as [Hs|Hs]; apply Hs.
Qed.
Lemma in_vc2_children g u v : pdag g -> (u < gn g)%nat -> In v (vc2_children g u) <-> semi_step g u v.
Proof.
  intros (W & K) Hu. unfold vc2_children. rewrite in_app_iff, !filter_In, !in_seq0, andb_true_iff, !Z.eqb_eq. unfold semi_step. split.
  - intros [[Hv H]|[Hv [H1 H2]]]; [left|right; repeat split; auto].
    destruct (K v u) as [(_ & _ & H' & _)|[H'|(_ & _ & H' & _)]]; [repeat split; auto; lia|lia|exact H'|lia].
  - intros [(H1 & H2 & H3 & H4)|(H1 & H2 & H3 & H4)]; auto.
Qed.

Section Vc2.
Variables (g : ggraph) (j target : nat) (na : list nat).
Hypothesis Hp : pdag g.
Hypothesis Hj : (j < gn g)%nat.

Lemma child_ok u l c : spath g j (u :: l) -> In c (filter (fun c => negb (memb c l)) (vc2_children g u)) <-> semi_step g u c /\ ~ In c (u :: l).
Proof.
  intros Hs. assert (Hu : (u < gn g)%nat) by (eapply spath_in; eauto; now left).
  rewrite filter_In, negb_true_iff, memb_not_In, in_vc2_children by auto. cbn [In]. split; [|tauto].
  intros [H1 H2]. split; [exact H1|]. intros [->|H]; [|contradiction].
  assert (J : joined g c c) by (destruct H1 as [H1|H1]; [now apply directed_joined|now apply undirected_joined]).
  revert J. apply wf_joined_irr, Hp.
Qed.

Lemma vc2_false : forall fuel stack, (forall p, In p stack -> spath g j p) -> vc2 fuel g target na stack = Ret false ->
  exists r, spath g j (target :: r) /\ forall x, In x r -> ~ In x na.
Proof.
  induction fuel as [|f IH]; intros stack Hs E; [discriminate|]. cbn [vc2] in E.
  destruct stack as [|[|top pa] stack']; [discriminate| |].
  - apply (IH stack'); auto. intros p Hpp. apply Hs. now right.
  - pose proof (Hs _ (or_introl eq_refl)) as Ht.
    destruct (Nat.eqb_spec top target) as [Et|Nt].
    + destruct (existsb (fun v => memb v na) pa) eqn:Ex.
      * apply (IH stack'); auto. intros p Hpp. apply Hs. now right.
      * exists pa. subst. split; [exact Ht|]. intros x Hx Hn. rewrite <- not_true_iff_false in Ex. apply Ex.
        apply existsb_exists. exists x. split; [exact Hx|]. now apply memb_In.
    + apply IH in E; auto. intros p Hpp. apply in_app_iff in Hpp. destruct Hpp as [Hpp|Hpp]; [|apply Hs; now right].
      apply in_rev, in_map_iff in Hpp. destruct Hpp as (c & <- & Hc). apply child_ok in Hc; [|exact Ht]. constructor; tauto.
Qed.

Lemma spath_ext q : forall u l, spath g j (q ++ u :: l) -> q <> [] ->
  exists c q', q = q' ++ [c] /\ semi_step g u c /\ ~ In c (u :: l).
Proof.
  induction q as [|x q IH]; intros u l Hs N; [congruence|]. cbn [app] in Hs.
  destruct q as [|y q].
  - cbn [app] in Hs. inversion Hs; subst. exists x, []. auto.
  - inversion Hs as [|? ? ? Hs' Hst Hn E]; subst. destruct (IH u l Hs') as (c & q' & E & H1 & H2); [discriminate|].
    exists c, (x :: q'). split; [cbn [app]; now rewrite E|]. auto.
Qed.

Lemma vc2_true : forall fuel stack, (forall p, In p stack -> spath g j p) -> vc2 fuel g target na stack = Ret true ->
  forall p q r, In p stack -> q ++ p = target :: r -> spath g j (q ++ p) -> exists x, In x r /\ In x na.
Proof.
  induction fuel as [|f IH]; intros stack Hs E p q r Hin Eq Hsp; [discriminate|]. cbn [vc2] in E.
  destruct stack as [|[|top pa] stack']; [destruct Hin| |].
  - pose proof (Hs _ (or_introl eq_refl)) as Ht. inversion Ht.
  - pose proof (Hs _ (or_introl eq_refl)) as Ht.
    assert (Hs' : forall p, In p stack' -> spath g j p) by (intros p' Hp'; apply Hs; now right).
    destruct (Nat.eqb_spec top target) as [Et|Nt].
    + destruct (existsb (fun v => memb v na) pa) eqn:Ex; [|discriminate].
      destruct Hin as [<-|Hin]; [|eapply IH; eauto].
      destruct q as [|x q].
      * cbn [app] in Eq. injection Eq as _ <-. apply existsb_exists in Ex. destruct Ex as (v & H1 & H2). apply memb_In in H2. eauto.
      * exfalso. cbn [app] in Eq. injection Eq as -> Eq. apply spath_nodup in Hsp. cbn [app] in Hsp. apply NoDup_cons_iff in Hsp. apply Hsp.
        apply in_app_iff. right. left. exact Et.
    + assert (Hs2 : forall p, In p (rev (map (fun c => c :: top :: pa) (filter (fun c => negb (memb c pa)) (vc2_children g top))) ++ stack') -> spath g j p).
      { intros p' Hpp. apply in_app_iff in Hpp. destruct Hpp as [Hpp|Hpp]; [|auto].
        apply in_rev, in_map_iff in Hpp. destruct Hpp as (c & <- & Hc). apply child_ok in Hc; [|exact Ht]. constructor; tauto. }
      destruct Hin as [<-|Hin]; [|eapply (IH _ Hs2 E p q r); eauto; apply in_app_iff; now right].
      destruct q as [|x q]; [cbn [app] in Eq; injection Eq as Eq _; congruence|].
      destruct (spath_ext (x :: q) top pa Hsp) as (c & q' & Ec & H1 & H2); [discriminate|].
      rewrite Ec, <- app_assoc in Eq, Hsp. cbn [app] in Eq, Hsp.
      apply (IH _ Hs2 E (c :: top :: pa) q' r); auto.
      apply in_app_iff. left. apply -> in_rev. apply in_map_iff. exists c. split; [reflexivity|]. apply child_ok; auto.
Qed.

(** Every stack entry weighs as much as all its descendants can. *)
Fixpoint Wt (n k : nat) : nat := match k with O => 1 | S k' => S (2 * n * Wt n k') end.
Definition weight (p : list nat) : nat := Wt (gn g) (S (gn g) - length p).
Definition weights (s : list (list nat)) : nat := fold_right Nat.add 0%nat (map weight s).
Lemma weights_app a b : weights (a ++ b) = (weights a + weights b)%nat.
Proof. unfold weights. induction a as [|x a IH]; cbn; [reflexivity|]. rewrite IH. lia. Qed.
Lemma weights_bound s w : (forall p, In p s -> (weight p <= w)%nat) -> (weights s <= length s * w)%nat.
Proof.
  induction s as [|x s IH]; intros H; [cbn; lia|]. change (weights (x :: s)) with (weight x + weights s)%nat.
  pose proof (H x (or_introl eq_refl)). assert (weights s <= length s * w)%nat by (apply IH; intros; apply H; now right). cbn [length]. lia.
Qed.
Lemma vc2_children_len u : (length (vc2_children g u) <= 2 * gn g)%nat.
Proof.
  unfold vc2_children. rewrite app_length.
  pose proof (filter_length_le (fun k => gm g k u =? 1) (seq 0 (gn g))) as A.
  pose proof (filter_length_le (fun k => (gm g u k =? -1) && (gm g k u =? -1)) (seq 0 (gn g))) as B.
  rewrite seq_length in A, B. lia.
Qed.
Lemma vc2_total : forall fuel stack, (forall p, In p stack -> spath g j p) -> (weights stack < fuel)%nat ->
  exists b, vc2 fuel g target na stack = Ret b.
Proof.
  induction fuel as [|f IH]; intros stack Hs Hf; [lia|]. cbn [vc2].
  destruct stack as [|p stack']; [eauto|].
  pose proof (Hs _ (or_introl eq_refl)) as Ht.
  assert (Hs' : forall p, In p stack' -> spath g j p) by (intros p' Hp'; apply Hs; now right).
  change (weights (p :: stack')) with (weight p + weights stack')%nat in Hf.
  assert (Hlen : (length p <= gn g)%nat).
  { rewrite <- (seq_length (gn g) 0). apply NoDup_incl_length; [now apply (spath_nodup g j)|]. intros x Hx. apply in_seq0. eapply spath_in; eauto. }
  assert (Hw : weight p = S (2 * gn g * Wt (gn g) (gn g - length p))).
  { unfold weight. replace (S (gn g) - length p)%nat with (S (gn g - length p)) by lia. reflexivity. }
  destruct p as [|top pa]; [inversion Ht|].
  destruct (Nat.eqb_spec top target) as [Et|Nt].
  - destruct (existsb (fun v => memb v na) pa); [|eauto]. apply IH; auto. lia.
  - apply IH.
    + intros p' Hpp. apply in_app_iff in Hpp. destruct Hpp as [Hpp|Hpp]; [|auto].
      apply in_rev, in_map_iff in Hpp. destruct Hpp as (c & <- & Hc). apply child_ok in Hc; [|exact Ht]. constructor; tauto.
    + rewrite weights_app.
      assert (B : (weights (rev (map (fun c => c :: top :: pa) (filter (fun c => negb (memb c pa)) (vc2_children g top)))) <=
        2 * gn g * Wt (gn g) (gn g - length (top :: pa)))%nat); [|lia].
      eapply Nat.le_trans; [apply weights_bound with (w := Wt (gn g) (gn g - length (top :: pa)))|].
      * intros p' Hpp. apply in_rev, in_map_iff in Hpp. destruct Hpp as (c & <- & _). unfold weight. cbn [length]. rewrite Nat.sub_succ. apply Nat.le_refl.
      * rewrite rev_length, map_length. apply Nat.mul_le_mono_r.
        pose proof (filter_length_le (fun c => negb (memb c pa)) (vc2_children g top)). pose proof (vc2_children_len top). lia.
Qed.

Lemma reach_spath : (exists r, spath g j (target :: r) /\ forall x, In x r -> ~ In x na) <->
  reach (fun u v => semi_step g u v /\ ~ In u na) j target.
Proof.
  split.
  - intros (r & Hs & Hr).
    assert (Gen : forall l, spath g j l -> forall u r, l = u :: r -> (forall x, In x r -> ~ In x na) -> reach (fun u v => semi_step g u v /\ ~ In u na) j u).
    { clear. induction 1 as [|u v l H IH Hs Hn]; intros a r E Hr; injection E as <- <-; [constructor|].
      apply reach_trans with u; [apply (IH u l eq_refl); intros x Hx; apply Hr; now right|].
      apply reach_one. split; [exact Hs|]. apply Hr. now left. }
    eapply Gen; eauto.
  - intros H.
    assert (Gen : forall a b, reach (fun u v => semi_step g u v /\ ~ In u na) a b ->
      forall r, spath g j (a :: r) -> (forall x, In x r -> ~ In x na) -> exists r', spath g j (b :: r') /\ forall x, In x r' -> ~ In x na).
    { clear H. intros a b H. induction H as [a|a b c [Hs Ha] _ IH]; intros r Hsp Hr; [eauto|].
      destruct (in_dec Nat.eq_dec b (a :: r)) as [Hin|Hin].
      - destruct (in_split _ _ Hin) as (l1 & l2 & E).
        assert (Suf : forall l1 u l2, spath g j (l1 ++ u :: l2) -> spath g j (u :: l2)).
        { clear. induction l1 as [|x l1 IH]; intros u l2 H; [exact H|]. cbn [app] in H. remember (l1 ++ u :: l2) as m eqn:Em.
          inversion H; subst; [destruct l1; discriminate|].
          apply IH. match goal with E : _ :: _ = _ |- _ => rewrite <- E end. assumption. }
        apply (IH l2).
        + apply (Suf l1). rewrite <- E. exact Hsp.
        + intros x Hx. assert (In x (a :: r)) by (rewrite E; apply in_app_iff; right; now right).
          destruct H as [<-|H]; auto.
      - apply (IH (a :: r)); [now constructor|]. intros x [<-|Hx]; auto. }
    apply (Gen j target H []); [constructor|intros x []].
Qed.

Lemma vc2_spec fuel : (Wt (gn g) (gn g) < fuel)%nat ->
  exists b, vc2 fuel g target na [[j]] = Ret b /\ (b = true <-> ~ reach (fun u v => semi_step g u v /\ ~ In u na) j target).
Proof.
  intros Hf.
  assert (Hs : forall p, In p [[j]] -> spath g j p) by (intros p [<-|[]]; constructor).
  destruct (vc2_total fuel [[j]] Hs) as [b Eb].
  { unfold weights, weight. cbn [map fold_right length]. replace (S (gn g) - 1)%nat with (gn g) by lia. lia. }
  exists b. split; [exact Eb|]. rewrite <- reach_spath. destruct b; split; try easy.
  - intros _ (r & H1 & H2).
    assert (Dec : forall l, spath g j l -> exists q, l = q ++ [j]).
    { clear. induction 1 as [|u v l H [q IH] Hs Hn]; [exists []; reflexivity|]. exists (v :: q). cbn [app]. now rewrite IH. }
    destruct (Dec _ H1) as [q Eq]. destruct (vc2_true fuel _ Hs Eb [j] q r) as (x & Hx & Hxn).
    + now left.
    + now symmetry.
    + now rewrite <- Eq.
    + apply (H2 x Hx Hxn).
  - intros N. exfalso. apply N. now apply (vc2_false fuel _ Hs).
Qed.
End Vc2.

(* ---------- the record of local scores ---------- *)
Definition entry_ok (sc : nat -> list nat -> Z) (j : nat) (e : list Z * Z) : Prop :=
  (exists l, fst e = map Z.of_nat l /\ NoDup l /\ snd e = sc j l) \/ (fst e = [-1] /\ snd e = sc j []).
Definition record_ok sc (rec : record) : Prop := forall j e, In e (rec j) -> entry_ok sc j e.

Lemma same_ids_iff a b : same_ids a b = true <-> forall x, In x a <-> In x b.
Proof.
  unfold same_ids. rewrite andb_true_iff, !forallb_forall. split.
  - intros [H1 H2] x. split; intros H; [apply H1 in H|apply H2 in H]; apply existsb_exists in H; destruct H as (y & Hy & E); apply Z.eqb_eq in E; now subst.
  - intros H. split; intros x Hx; apply existsb_exists; exists x; (split; [now apply H|apply Z.eqb_refl]).
Qed.
Lemma same_ids_nat l m : NoDup l -> NoDup m -> same_ids (map Z.of_nat l) (map Z.of_nat m) = true -> Permutation l m.
Proof.
  intros Hl Hm H. rewrite same_ids_iff in H. apply NoDup_Permutation; auto. intros x.
  specialize (H (Z.of_nat x)). rewrite !in_map_iff in H. split; intros Hx.
  - destruct (proj1 H) as (y & E & Hy); [eauto|]. apply Nat2Z.inj in E. now subst.
  - destruct (proj2 H) as (y & E & Hy); [eauto|]. apply Nat2Z.inj in E. now subst.
Qed.
Lemma same_ids_minus l : same_ids (map Z.of_nat l) [-1] = true -> False.
Proof. intros H. rewrite same_ids_iff in H. assert (K : In (-1) (map Z.of_nat l)) by (apply H; now left). apply in_map_iff in K. destruct K as (x & E & _). lia. Qed.
Lemma same_ids_minus' l : same_ids [-1] (map Z.of_nat l) = true -> False.
Proof. intros H. rewrite same_ids_iff in H. assert (K : In (-1) (map Z.of_nat l)) by (apply H; now left). apply in_map_iff in K. destruct K as (x & E & _). lia. Qed.

Lemma lookup2_ok sc j t3 t2 : set_score sc -> NoDup t3 -> NoDup t2 -> forall l, (forall e, In e l -> entry_ok sc j e) -> forall s1 s2,
  (forall v, s1 = Some v -> v = sc j t3) -> (forall v, s2 = Some v -> v = sc j t2) ->
  (forall v, fst (lookup2 (map Z.of_nat t3) (map Z.of_nat t2) l s1 s2) = Some v -> v = sc j t3) /\
  (forall v, snd (lookup2 (map Z.of_nat t3) (map Z.of_nat t2) l s1 s2) = Some v -> v = sc j t2).
Proof.
  intros Hset N3 N2. induction l as [|[k x] l IH]; intros Hl s1 s2 H1 H2; [cbn; auto|]. cbn [lookup2].
  assert (Hk : forall t, NoDup t -> same_ids k (map Z.of_nat t) = true -> x = sc j t).
  { intros t Nt E. destruct (Hl _ (or_introl eq_refl)) as [(m & E1 & E2 & E3)|[E1 E2]]; cbn [fst snd] in *; subst k.
    - subst x. apply Hset. now apply same_ids_nat.
    - exfalso. now apply same_ids_minus' in E. }
  set (s1' := if same_ids k (map Z.of_nat t3) then Some x else s1).
  set (s2' := if same_ids k (map Z.of_nat t2) then Some x else if same_ids k [-1] && Nat.eqb (length (map Z.of_nat t2)) 0 then Some x else s2).
  assert (K1 : forall v, s1' = Some v -> v = sc j t3).
  { intros v. unfold s1'. destruct (same_ids k (map Z.of_nat t3)) eqn:E; [|auto]. intros [= <-]. auto. }
  assert (K2 : forall v, s2' = Some v -> v = sc j t2).
  { intros v. unfold s2'. destruct (same_ids k (map Z.of_nat t2)) eqn:E; [intros [= <-]; auto|].
    destruct (same_ids k [-1] && Nat.eqb (length (map Z.of_nat t2)) 0) eqn:E'; [|auto]. intros [= <-].
    apply andb_true_iff in E'. destruct E' as [E1 E2]. apply Nat.eqb_eq in E2. rewrite map_length in E2. apply length_zero_iff_nil in E2. subst t2.
    destruct (Hl _ (or_introl eq_refl)) as [(m & F1 & F2 & F3)|[F1 F2]]; cbn [fst snd] in *; subst k; [exfalso; now apply same_ids_minus in E1|exact F2]. }
  assert (IHl := IH (fun e He => Hl e (or_intror He)) s1' s2' K1 K2).
  destruct s1' as [v1|]; [destruct s2' as [v2|]|]; auto.
Qed.

Lemma rappend_ok sc rec j e : record_ok sc rec -> entry_ok sc j e -> record_ok sc (rappend rec j e).
Proof.
  intros H He k x. unfold rappend. destruct (Nat.eqb_spec k j) as [->|N]; [|apply H].
  intros Hx. apply in_app_iff in Hx. destruct Hx as [Hx|[<-|[]]]; [now apply H|exact He].
Qed.
Lemma changed_score_ok sc rec j t3 t2 : set_score sc -> record_ok sc rec -> NoDup t3 -> NoDup t2 ->
  fst (changed_score sc rec j t3 t2) = sc j t3 - sc j t2 /\ record_ok sc (snd (changed_score sc rec j t3 t2)).
Proof.
  intros Hset Hr N3 N2. unfold changed_score.
  destruct (lookup2_ok sc j t3 t2 Hset N3 N2 (rec j) (Hr j) None None) as [K1 K2]; try discriminate.
  destruct (lookup2 (map Z.of_nat t3) (map Z.of_nat t2) (rec j) None None) as [s1 s2]. cbn [fst snd] in K1, K2.
  assert (E3 : entry_ok sc j (map Z.of_nat t3, sc j t3)) by (left; exists t3; auto).
  assert (E2 : entry_ok sc j (if Nat.eqb (length t2) 0 then [-1] else map Z.of_nat t2, sc j t2)).
  { destruct (Nat.eqb_spec (length t2) 0) as [E|E]; [right|left; exists t2; auto]. apply length_zero_iff_nil in E. now subst. }
  destruct s1 as [v1|], s2 as [v2|]; cbn [fst snd]; try rewrite <- (K1 _ eq_refl); try rewrite <- (K2 _ eq_refl); (split; [reflexivity|]);
  repeat apply rappend_ok; auto.
Qed.

(* ---------- the operators on the matrix ---------- *)
Definition plain (x y : Z) : Prop := (x = 0 /\ y = 0) \/ (x = -1 /\ y = -1) \/ (x = -1 /\ y = 1) \/ (x = 1 /\ y = -1).

Lemma pdag_plain g a b : pdag g -> (a < gn g)%nat -> (b < gn g)%nat -> plain (gm g a b) (gm g b a).
Proof.
  intros (W & K) Ha Hb. destruct (Z.eq_dec (gm g a b) 0) as [E|N].
  - left. split; [exact E|]. destruct W as [_ Hl]. pose proof (Hl a b Ha Hb) as HL. rewrite E in HL. now apply legal_zero in HL.
  - destruct (K a b) as [(_ & _ & H1 & H2)|[(_ & _ & H1 & H2)|(_ & _ & H1 & H2)]]; [split; auto|..]; unfold plain; rewrite H1, H2; auto 6.
Qed.
Lemma drop_edge_spec g a b : a <> b -> plain (gm g a b) (gm g b a) ->
  exists g', drop_edge g a b = Ok g' /\ gn g' = gn g /\ gm g' a b = 0 /\ gm g' b a = 0 /\
    forall x y, ~ (x = a /\ y = b) -> ~ (x = b /\ y = a) -> gm g' x y = gm g x y.
Proof.
  intros N Hp. unfold drop_edge.
  assert (Hcase : (gm g a b = 0 /\ gm g b a = 0) \/
    exists p q, gm g a b = ev p /\ gm g b a = ev q /\ p <> NULL /\ ((p = TAIL /\ q = TAIL) \/ (p = TAIL /\ q = ARROW) \/ (p = ARROW /\ q = TAIL))).
  { destruct Hp as [H|[[H1 H2]|[[H1 H2]|[H1 H2]]]]; [now left|right..].
    - exists TAIL, TAIL. repeat split; auto; discriminate.
    - exists TAIL, ARROW. repeat split; auto; discriminate.
    - exists ARROW, TAIL. repeat split; auto; discriminate. }
  destruct Hcase as [[H1 H2]|(p & q & H1 & H2 & H3 & H4)].
  - exists g. unfold get_edge. rewrite H1. cbn. split; [reflexivity|]. auto.
  - rewrite (get_edge_codes g a b p q H1 H2 H3). cbn [res_bind].
    assert (HE : e_node1 (Edge a b p q) <> e_node2 (Edge a b p q)) by (unfold Edge; destruct (pointing_left p q); cbn; congruence).
    exists (remove_edge g (Edge a b p q)). split; [reflexivity|]. split; [apply remove_edge_gn|].
    pose proof (remove_edge_pair g _ HE) as HP.
    assert (Z2 : gm (remove_edge g (Edge a b p q)) a b = 0 /\ gm (remove_edge g (Edge a b p q)) b a = 0).
    { destruct H4 as [[-> ->]|[[-> ->]|[-> ->]]]; cbn in H1, H2; cbn in HP; rewrite H1, H2 in HP; cbn in HP; injection HP; intros; auto. }
    split; [apply Z2|]. split; [apply Z2|]. intros x y N1 N2. apply remove_edge_frame; unfold Edge; destruct (pointing_left p q); cbn; tauto.
Qed.
Lemma add_dir_spec g a b : a <> b -> gm g a b = 0 -> gm g b a = 0 ->
  gn (add_edge g (Edge a b TAIL ARROW)) = gn g /\ gm (add_edge g (Edge a b TAIL ARROW)) a b = -1 /\ gm (add_edge g (Edge a b TAIL ARROW)) b a = 1 /\
    forall x y, ~ (x = a /\ y = b) -> ~ (x = b /\ y = a) -> gm (add_edge g (Edge a b TAIL ARROW)) x y = gm g x y.
Proof.
  intros N H1 H2. split; [apply add_edge_gn|].
  destruct (add_edge_new g a b TAIL ARROW N H1 H2) as [K1 K2]; [split; [now left|split; [right; now left|now intros [? _]]]|].
  split; [exact K1|]. split; [exact K2|]. intros x y N1 N2. now apply add_edge_frame.
Qed.
(** One orientation: a --> b whatever was between them. *)
Lemma redirect_spec g a b : a <> b -> plain (gm g a b) (gm g b a) ->
  exists g', redirect g a b = Ok g' /\ gn g' = gn g /\ gm g' a b = -1 /\ gm g' b a = 1 /\
    forall x y, ~ (x = a /\ y = b) -> ~ (x = b /\ y = a) -> gm g' x y = gm g x y.
Proof.
  intros N Hp. destruct (drop_edge_spec g a b N Hp) as (g1 & E1 & G1 & Z1 & Z2 & F1). unfold drop_edge in E1. unfold redirect.
  destruct (get_edge g a b) as [o|]; [|discriminate]. cbn [res_bind] in *. injection E1 as E1. rewrite E1.
  destruct (add_dir_spec g1 a b N Z1 Z2) as (A1 & A2 & A3 & A4).
  eexists. split; [reflexivity|]. split; [congruence|]. split; [exact A2|]. split; [exact A3|]. intros x y N1 N2. rewrite A4, F1; auto.
Qed.

Lemma insert_op_spec g i j T : pdag g -> (i < gn g)%nat -> (j < gn g)%nat -> i <> j -> ~ joined g i j ->
  (forall t, In t T -> undirected g t j) ->
  exists P, insert_op g i j T = Ok P /\ inserted g i j T P.
Proof.
  intros Hp Hi Hj N NJ HT.
  assert (Z1 : gm g i j = 0) by (destruct (Z.eq_dec (gm g i j) 0); [assumption|]; exfalso; apply NJ; split; auto).
  assert (Z2 : gm g j i = 0).
  { destruct (Z.eq_dec (gm g j i) 0); [assumption|]; exfalso; apply NJ. apply wf_joined_sym; [apply Hp|]. split; auto. }
  destruct (add_dir_spec g i j N Z1 Z2) as (A1 & A2 & A3 & A4).
  assert (HTi : ~ In i T) by (intros H; apply HT, undirected_joined in H; contradiction).
  assert (HTj : ~ In j T) by (intros H; apply HT, undirected_joined in H; revert H; apply wf_joined_irr, Hp).
  assert (Main : exists P, insert_op g i j T = Ok P /\ gn P = gn g /\
    (forall x y, gm P x y = if (Nat.eqb x i || memb x T) && Nat.eqb y j then -1 else if Nat.eqb x j && (Nat.eqb y i || memb y T) then 1 else gm g x y)).
  { unfold insert_op.
    assert (Gen : forall T' g0, (forall t, In t T' -> t <> j /\ plain (gm g0 t j) (gm g0 j t)) -> exists P,
      fold_left (fun r t => res_bind r (fun g => redirect g t j)) T' (Ok g0) = Ok P /\ gn P = gn g0 /\
      (forall x y, gm P x y = if memb x T' && Nat.eqb y j then -1 else if Nat.eqb x j && memb y T' then 1 else gm g0 x y)).
    { induction T' as [|t T' IH]; intros g0 HT'; [exists g0; split; [reflexivity|]; split; [reflexivity|]; intros x y; cbn; now rewrite andb_false_r|].
      cbn [fold_left res_bind]. destruct (HT' t (or_introl eq_refl)) as [Nt Pt].
      destruct (redirect_spec g0 t j Nt Pt) as (g1 & E1 & G1 & V1 & V2 & F1). rewrite E1.
      destruct (IH g1) as (P & EP & GP & FP).
      - intros s Hs. destruct (HT' s (or_intror Hs)) as [Ns Ps]. split; [exact Ns|].
        destruct (Nat.eq_dec s t) as [->|Nst]; [rewrite V1, V2; unfold plain; auto|]. rewrite !F1; auto; lia.
      - exists P. split; [exact EP|]. split; [congruence|]. intros x y. rewrite FP. unfold memb. cbn [existsb]. fold (memb x T') (memb y T').
        destruct (memb x T' && Nat.eqb y j) eqn:B1.
        { apply andb_true_iff in B1. destruct B1 as [B1 B2]. rewrite B1, B2, orb_true_r. reflexivity. }
        destruct (Nat.eqb_spec x t) as [Ex|Nx].
        + subst x. cbn [orb]. destruct (Nat.eqb_spec y j) as [Ey|Ny].
          * subst y. cbn [andb]. destruct (Nat.eqb_spec t j); [congruence|]. cbn [andb]. exact V1.
          * cbn [andb]. destruct (Nat.eqb_spec t j); [congruence|]. cbn [andb]. apply F1; lia.
        + cbn [orb]. rewrite B1. destruct (Nat.eqb_spec x j) as [Ex|Nxj].
          * subst x. cbn [andb]. destruct (memb y T') eqn:B2; [now rewrite orb_true_r|]. rewrite orb_false_r.
            destruct (Nat.eqb_spec y t) as [->|Nyt]; [exact V2|]. apply F1; lia.
          * cbn [andb]. apply F1; lia. }
    destruct (Gen T (add_edge g (Edge i j TAIL ARROW))) as (P & EP & GP & FP).
    - intros t Ht. split; [congruence|]. specialize (HT t Ht). destruct HT as (_ & _ & H1 & H2).
      assert (t <> i) by congruence. rewrite !A4 by lia. rewrite H1, H2. unfold plain. auto.
    - exists P. split; [exact EP|]. split; [congruence|]. intros x y. rewrite FP.
      destruct (Nat.eqb_spec x i) as [Ex|Nx].
      + subst x. assert (M : memb i T = false) by now apply memb_not_In. rewrite M. cbn [orb andb].
        destruct (Nat.eqb_spec i j); [congruence|]. cbn [andb]. destruct (Nat.eqb_spec y j) as [->|Ny]; [exact A2|apply A4; lia].
      + cbn [orb]. destruct (memb x T && Nat.eqb y j) eqn:B1; [reflexivity|].
        destruct (Nat.eqb_spec x j) as [Ex|Nxj]; cbn [andb]; [|apply A4; lia].
        subst x. destruct (memb y T) eqn:B2; [now rewrite orb_true_r|]. rewrite orb_false_r.
        destruct (Nat.eqb_spec y i) as [->|Nyi]; [exact A3|apply A4; lia]. }
  destruct Main as (P & EP & GP & FP). exists P. split; [exact EP|].
  assert (Hval : forall x y, (x < gn g)%nat -> (y < gn g)%nat ->
    ((x = i \/ In x T) /\ y = j /\ gm P x y = -1 /\ gm P y x = 1) \/
    (x = j /\ (y = i \/ In y T) /\ gm P x y = 1 /\ gm P y x = -1) \/
    (~ ((x = i \/ In x T) /\ y = j) /\ ~ (x = j /\ (y = i \/ In y T)) /\ gm P x y = gm g x y /\ gm P y x = gm g y x)).
  { intros x y Hx Hy. rewrite !FP.
    assert (B : forall z, (Nat.eqb z i || memb z T = true) <-> (z = i \/ In z T)) by (intros z; rewrite orb_true_iff, Nat.eqb_eq, memb_In; tauto).
    assert (Bj : Nat.eqb j i || memb j T = false).
    { apply not_true_iff_false. rewrite B. intros [?|?]; [congruence|contradiction]. }
    destruct (Nat.eqb x i || memb x T) eqn:Bx, (Nat.eqb y i || memb y T) eqn:By, (Nat.eqb_spec x j) as [Ex|Ex], (Nat.eqb_spec y j) as [Ey|Ey]; subst;
      try congruence; cbn [andb];
      repeat match goal with H : _ = true |- _ => apply B in H | H : _ || _ = false |- _ => rewrite <- not_true_iff_false, B in H end; tauto. }
  split; [exact GP|].
  assert (Wd : wf P).
  { split.
    - intros x Hx. rewrite GP in Hx. destruct (Hval x x Hx Hx) as [([H|H] & E & _)|[(E & [H|H] & _)|(_ & _ & E & _)]].
      + congruence. + subst. contradiction. + congruence. + subst. contradiction.
      + rewrite E. now apply Hp.
    - intros x y Hx Hy. rewrite GP in Hx, Hy. destruct (Hval x y Hx Hy) as [(_ & _ & E1 & E2)|[(_ & _ & E1 & E2)|(_ & _ & E1 & E2)]]; rewrite E1, E2.
      + unfold legal_pair, legal_pairs. cbn. tauto.
      + unfold legal_pair, legal_pairs. cbn. tauto.
      + now apply Hp. }
  split; [exact Wd|].
  assert (Hj' : forall x y, joined P x y <-> joined g x y \/ (x = i /\ y = j) \/ (x = j /\ y = i)).
  { intros x y. split.
    - intros (Hx & Hy & Hn). rewrite GP in Hx, Hy. destruct (Hval x y Hx Hy) as [([H|H] & -> & E1 & E2)|[(-> & [H|H] & E1 & E2)|(_ & _ & E1 & E2)]].
      + auto.
      + left. apply undirected_joined. auto.
      + auto.
      + left. apply undirected_joined. apply undirected_sym. auto.
      + left. split; [auto|]. split; [auto|congruence].
    - intros H. assert (R : (x < gn g)%nat /\ (y < gn g)%nat) by (destruct H as [(H1 & H2 & _)|[[-> ->]|[-> ->]]]; auto).
      destruct R as [Hx Hy]. unfold joined. rewrite GP. split; [exact Hx|]. split; [exact Hy|].
      destruct (Hval x y Hx Hy) as [(_ & _ & E1 & _)|[(_ & _ & E1 & _)|(M1 & M2 & E1 & _)]]; rewrite E1; try lia.
      destruct H as [(_ & _ & H)|[[-> ->]|[-> ->]]]; [exact H| |]; exfalso; tauto. }
  assert (Hd : forall x y, directed P x y <-> directed g x y \/ (x = i /\ y = j) \/ (In x T /\ y = j)).
  { intros x y. split.
    - intros (Hx & Hy & H1 & H2). rewrite GP in Hx, Hy. destruct (Hval x y Hx Hy) as [([H|H] & -> & E1 & E2)|[(-> & H & E1 & E2)|(_ & _ & E1 & E2)]].
      + auto. + auto. + lia.
      + left. split; [auto|]. split; [auto|]. rewrite <- E1, <- E2. auto.
    - intros H. assert (R : (x < gn g)%nat /\ (y < gn g)%nat) by (destruct H as [(H1 & H2 & _)|[[-> ->]|[H ->]]]; auto; split; auto; apply HT in H; apply H).
      destruct R as [Hx Hy]. unfold directed. rewrite GP. split; [exact Hx|]. split; [exact Hy|].
      destruct (Hval x y Hx Hy) as [(_ & _ & E1 & E2)|[(E & F & E1 & E2)|(M1 & M2 & E1 & E2)]].
      + auto.
      + exfalso. destruct H as [H|[[-> ->]|[H ->]]]; [|congruence|subst; contradiction].
        subst x. destruct F as [->|F]; [apply directed_joined in H; apply NJ; apply wf_joined_sym; [apply Hp|exact H]|].
        apply HT in F. now apply (directed_undirected' g j y).
      + rewrite E1, E2. destruct H as [(_ & _ & H)|[[-> ->]|[H ->]]]; [exact H| |]; exfalso; tauto. }
  split; [|split; [exact Hj'|exact Hd]].
  intros x y H. pose proof H as (Hx & Hy & Hn). rewrite GP in Hx, Hy. unfold directed, undirected. rewrite GP.
  destruct (Hval x y Hx Hy) as [(_ & _ & E1 & E2)|[(_ & _ & E1 & E2)|(_ & _ & E1 & E2)]]; rewrite E1, E2; auto 6.
  destruct (pdag_plain g x y Hp Hx Hy) as [[? ?]|[[? ?]|[[? ?]|[? ?]]]]; auto 6. exfalso. lia.
Qed.

Lemma delete_op_spec g i j H : pdag g -> joined g i j -> ~ directed g j i ->
  (forall h, In h H -> undirected g h j /\ joined g h i /\ ~ directed g h i) ->
  exists P, delete_op g i j H = Ok P /\ deleted g i j H P.
Proof.
  intros Hp Jij Nji HH. pose proof Jij as (Hi & Hj & _).
  assert (N : i <> j) by (intros E; rewrite E in Jij; revert Jij; apply wf_joined_irr, Hp).
  assert (HHi : ~ In i H) by (intros K; apply HH in K; destruct K as (_ & K & _); revert K; apply wf_joined_irr, Hp).
  assert (HHj : ~ In j H) by (intros K; apply HH in K; destruct K as (K & _); apply undirected_joined in K; revert K; apply wf_joined_irr, Hp).
  destruct (drop_edge_spec g i j N (pdag_plain g i j Hp Hi Hj)) as (g0 & E0 & G0 & Z1 & Z2 & F0).
  set (ij := fun x => Nat.eqb x i || Nat.eqb x j).
  assert (Bij : forall x, ij x = true <-> x = i \/ x = j) by (intros x; unfold ij; rewrite orb_true_iff, !Nat.eqb_eq; tauto).
  assert (Gen : forall H' g1, ~ In i H' -> ~ In j H' -> (forall h, In h H' -> plain (gm g1 j h) (gm g1 h j) /\ plain (gm g1 i h) (gm g1 h i)) -> exists P,
    fold_left (fun r h => res_bind r (fun g => res_bind (drop_edge g j h) (fun g1 => res_bind (drop_edge g1 i h) (fun g2 =>
      Ok (add_edge (add_edge g2 (Edge j h TAIL ARROW)) (Edge i h TAIL ARROW)))))) H' (Ok g1) = Ok P /\ gn P = gn g1 /\
    (forall x y, gm P x y = if ij x && memb y H' then -1 else if memb x H' && ij y then 1 else gm g1 x y)).
  { induction H' as [|h H' IH]; intros g1 Ni Nj Hpl; [exists g1; split; [reflexivity|]; split; [reflexivity|]; intros x y; cbn; now rewrite andb_false_r|].
    cbn [fold_left res_bind].
    assert (Nhi : i <> h) by (intros ->; apply Ni; now left). assert (Nhj : j <> h) by (intros ->; apply Nj; now left).
    destruct (Hpl h (or_introl eq_refl)) as [P1 P2].
    destruct (drop_edge_spec g1 j h Nhj P1) as (g2 & E2 & G2 & V1 & V2 & F2). rewrite E2. cbn [res_bind].
    assert (P2' : plain (gm g2 i h) (gm g2 h i)) by (rewrite !F2 by lia; exact P2).
    destruct (drop_edge_spec g2 i h Nhi P2') as (g3 & E3 & G3 & V3 & V4 & F3). rewrite E3. cbn [res_bind].
    destruct (add_dir_spec g3 j h Nhj) as (G4 & V5 & V6 & F4); [rewrite F3 by lia; exact V1|rewrite F3 by lia; exact V2|].
    set (g4 := add_edge g3 (Edge j h TAIL ARROW)) in *.
    destruct (add_dir_spec g4 i h Nhi) as (G5 & V7 & V8 & F5); [rewrite F4 by lia; exact V3|rewrite F4 by lia; exact V4|].
    set (g5 := add_edge g4 (Edge i h TAIL ARROW)) in *.
    assert (Fr : forall x y, ~ (ij x = true /\ y = h) -> ~ (x = h /\ ij y = true) -> gm g5 x y = gm g1 x y).
    { intros x y K1 K2. rewrite Bij in K1, K2. rewrite F5, F4, F3, F2; auto; intros [-> ->]; tauto. }
    assert (Va : forall x, ij x = true -> gm g5 x h = -1 /\ gm g5 h x = 1).
    { intros x Hx. apply Bij in Hx. destruct Hx as [->|Hx]; [auto|]. subst x. rewrite !F5 by lia. auto. }
    destruct (IH g5) as (P & EP & GP & FP).
    - intros K. apply Ni. now right.
    - intros K. apply Nj. now right.
    - intros k Hk. destruct (Nat.eq_dec k h) as [->|Nk].
      + destruct (Va i) as [A1 A2]; [apply Bij; auto|]. destruct (Va j) as [A3 A4]; [apply Bij; auto|]. rewrite A1, A2, A3, A4. unfold plain. lia.
      + assert (k <> i) by (intros ->; apply Ni; now right). assert (k <> j) by (intros ->; apply Nj; now right).
        assert (Bk : ij k = false) by (apply not_true_iff_false; rewrite Bij; tauto).
        rewrite !Fr; [apply Hpl; now right| | | | | | | |]; intros [K1 K2]; congruence.
    - exists P. split; [exact EP|]. split; [congruence|]. intros x y. rewrite FP. unfold memb. cbn [existsb]. fold (memb x H') (memb y H').
      assert (Bh : ij h = false) by (apply not_true_iff_false; rewrite Bij; intros [?|?]; congruence).
      destruct (Nat.eqb_spec x h) as [Ex|Nx], (Nat.eqb_spec y h) as [Ey|Ny]; try subst x; try subst y; cbn [orb]; rewrite ?Bh; cbn [andb]; rewrite ?andb_false_r, ?andb_true_r.
      + apply Fr; intros [K1 K2]; congruence.
      + destruct (memb h H' && ij y) eqn:B1; [apply andb_true_iff in B1; destruct B1 as [_ ->]; reflexivity|].
        destruct (ij y) eqn:B2; [now apply Va|]. apply Fr; intros [K1 K2]; congruence.
      + destruct (ij x) eqn:B1; cbn [andb]; [destruct (memb h H'); [reflexivity|]|].
        * destruct (Va x B1) as [A1 _]. exact A1.
        * apply Fr; intros [K1 K2]; congruence.
      + destruct (ij x && memb y H'); [reflexivity|]. destruct (memb x H' && ij y); [reflexivity|]. apply Fr; intros [K1 K2]; congruence. }
  destruct (Gen H g0 HHi HHj) as (P & EP & GP0 & FP).
  { intros h Hh. destruct (HH h Hh) as (U & J & _). assert (h <> i) by congruence. assert (h <> j) by congruence.
    rewrite !F0 by lia. split; apply pdag_plain; auto; apply J. }
  exists P. unfold delete_op. rewrite E0. split; [exact EP|].
  assert (GP : gn P = gn g) by congruence. clear GP0 EP Gen.
  assert (Hval : forall x y, (x < gn g)%nat -> (y < gn g)%nat ->
    ((x = i \/ x = j) /\ In y H /\ gm P x y = -1 /\ gm P y x = 1) \/
    (In x H /\ (y = i \/ y = j) /\ gm P x y = 1 /\ gm P y x = -1) \/
    (((x = i /\ y = j) \/ (x = j /\ y = i)) /\ gm P x y = 0 /\ gm P y x = 0) \/
    (~ ((x = i \/ x = j) /\ In y H) /\ ~ (In x H /\ (y = i \/ y = j)) /\ ~ ((x = i /\ y = j) \/ (x = j /\ y = i)) /\
     gm P x y = gm g x y /\ gm P y x = gm g y x)).
  { intros x y Hx Hy. rewrite !FP.
    assert (Bex : forall z, ij z = true -> memb z H = false) by (intros z Hz; apply memb_not_In; apply Bij in Hz; destruct Hz; subst; auto).
    destruct (ij x) eqn:Bx.
    - rewrite (Bex x Bx). cbn [andb]. destruct (memb y H) eqn:My.
      + destruct (ij y) eqn:By; [apply Bex in By; congruence|]. cbn [andb]. left. apply Bij in Bx. apply memb_In in My. auto.
      + cbn [andb]. rewrite andb_false_r. right. right.
        assert (Nm : ~ In y H) by now apply memb_not_In. assert (Nm' : ~ In x H) by (apply memb_not_In; auto). apply Bij in Bx.
        destruct (ij y) eqn:By.
        * apply Bij in By. destruct Bx as [Bx|Bx], By as [By|By]; subst x y; try (left; auto; fail);
          right; rewrite !F0 by lia; (split; [tauto|split; [tauto|split; [intros [[? ?]|[? ?]]; congruence|auto]]]).
        * assert (y <> i /\ y <> j) by (split; intros ->; rewrite <- not_true_iff_false in By; apply By, Bij; auto).
          right. rewrite !F0 by lia. split; [tauto|split; [tauto|split; [lia|auto]]].
    - cbn [andb]. assert (Nx : x <> i /\ x <> j) by (split; intros ->; rewrite <- not_true_iff_false in Bx; apply Bx, Bij; auto).
      destruct (memb x H) eqn:Mx.
      + cbn [andb]. destruct (ij y) eqn:By.
        * cbn [andb]. apply memb_In in Mx. apply Bij in By. right. left. auto.
        * cbn [andb]. rewrite andb_false_r. assert (Ny : y <> i /\ y <> j) by (split; intros ->; rewrite <- not_true_iff_false in By; apply By, Bij; auto).
          right. right. right. rewrite !F0 by lia. split; [tauto|split; [tauto|split; [lia|auto]]].
      + cbn [andb]. rewrite !andb_false_r. cbn [andb]. right. right. right. rewrite !F0 by lia.
        assert (Nm : ~ In x H) by now apply memb_not_In. split; [tauto|split; [tauto|split; [lia|auto]]]. }
  split; [exact GP|].
  assert (Wd : wf P).
  { split.
    - intros x Hx. rewrite GP in Hx. destruct (Hval x x Hx Hx) as [([->| ->] & E & _)|[(E & [->| ->] & _)|[([[E1 E2]|[E1 E2]] & _)|(_ & _ & _ & E & _)]]];
        try contradiction; try congruence. rewrite E. now apply Hp.
    - intros x y Hx Hy. rewrite GP in Hx, Hy. destruct (Hval x y Hx Hy) as [(_ & _ & E1 & E2)|[(_ & _ & E1 & E2)|[(_ & E1 & E2)|(_ & _ & _ & E1 & E2)]]]; rewrite E1, E2;
        try (unfold legal_pair, legal_pairs; cbn; tauto). now apply Hp. }
  split; [exact Wd|].
  assert (Hj' : forall x y, joined P x y <-> joined g x y /\ ~ (x = i /\ y = j) /\ ~ (x = j /\ y = i)).
  { intros x y. split.
    - intros (Hx & Hy & Hn). rewrite GP in Hx, Hy. destruct (Hval x y Hx Hy) as [([->| ->] & K & E1 & E2)|[(K & [->| ->] & E1 & E2)|[(_ & E1 & E2)|(_ & _ & K & E1 & E2)]]].
      + split; [apply wf_joined_sym; [apply Hp|]; now apply HH|]. split; intros [? ?]; subst; try congruence; contradiction.
      + split; [apply undirected_joined, undirected_sym; now apply HH|]. split; intros [? ?]; subst; try congruence; contradiction.
      + split; [now apply HH|]. split; intros [? ?]; subst; try congruence; contradiction.
      + split; [apply undirected_joined; now apply HH|]. split; intros [? ?]; subst; try congruence; contradiction.
      + congruence.
      + split; [split; [auto|split; [auto|congruence]]|tauto].
    - intros ((Hx & Hy & Hn) & N1 & N2). unfold joined. rewrite GP. split; [exact Hx|]. split; [exact Hy|].
      destruct (Hval x y Hx Hy) as [(_ & _ & E1 & _)|[(_ & _ & E1 & _)|[(K & E1 & E2)|(_ & _ & _ & E1 & _)]]]; rewrite E1; try lia. }
  assert (Hd : forall x y, directed P x y <-> (directed g x y /\ ~ (x = i /\ y = j)) \/ ((x = i \/ x = j) /\ In y H)).
  { intros x y. split.
    - intros (Hx & Hy & H1 & H2). rewrite GP in Hx, Hy. destruct (Hval x y Hx Hy) as [(K & K' & E1 & E2)|[(_ & _ & E1 & E2)|[(_ & E1 & E2)|(_ & _ & K & E1 & E2)]]]; [auto|lia|lia|].
      left. split; [|tauto]. split; [auto|]. split; [auto|]. rewrite <- E1, <- E2. auto.
    - intros K. assert (R : (x < gn g)%nat /\ (y < gn g)%nat).
      { destruct K as [[(K1 & K2 & _) _]|[[->| ->] K]]; auto; (split; [auto|]); apply HH in K; apply K. }
      destruct R as [Hx Hy]. unfold directed. rewrite GP. split; [exact Hx|]. split; [exact Hy|].
      destruct (Hval x y Hx Hy) as [(_ & _ & E1 & E2)|[(M1 & M2 & E1 & E2)|[(M & E1 & E2)|(M1 & M2 & M3 & E1 & E2)]]].
      + auto.
      + exfalso. destruct K as [[K _]|[[->| ->] _]]; [|contradiction|contradiction].
        destruct (HH x M1) as (U & _ & ND). destruct M2 as [->| ->]; [contradiction|]. now apply (directed_undirected g x j).
      + exfalso. destruct K as [[K K']|[_ K]].
        * destruct M as [M|[-> ->]]; contradiction.
        * destruct M as [[-> ->]|[-> ->]]; contradiction.
      + rewrite E1, E2. destruct K as [[(_ & _ & K) _]|K]; [exact K|]. exfalso. tauto. }
  split; [|split; [exact Hj'|exact Hd]].
  intros x y K. pose proof K as (Hx & Hy & Hn). rewrite GP in Hx, Hy. unfold directed, undirected. rewrite GP.
  destruct (Hval x y Hx Hy) as [(_ & _ & E1 & E2)|[(_ & _ & E1 & E2)|[(_ & E1 & E2)|(_ & _ & _ & E1 & E2)]]]; [| |congruence|]; rewrite E1, E2; auto 6.
  destruct (pdag_plain g x y Hp Hx Hy) as [[? ?]|[[? ?]|[[? ?]|[? ?]]]]; auto 6. exfalso. lia.
Qed.
