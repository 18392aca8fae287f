(** C138-C141: RCD. *)
From Verif Require Import Base GraphSpec GraphProofs UtilsModel UtilsProofs SkelModel LingamModel LingamProofs RCDModel RCDProofs.
From Coq Require Import Permutation Sorted.
Local Open Scope nat_scope.

(** ** Specification *)
(** The test outcomes that make i the only sink of the set U when the known ancestors are A ([A x k]: k is a known ancestor of x): the residuals on the common
    known ancestors H are non-Gaussian and correlated, i is not a known ancestor within U and not all others are known ancestors of i,
    the residual of i on the others is independent of them, and every other variable either fails this test or is excluded by the known ancestors. *)
Definition only_sink (n : nat) (T : rcd_tests) (A : anc) (U : list nat) (i : nat) : Prop :=
  In i U /\ exists H, StronglySorted lt H /\ (forall k, In k H <-> k < n /\ forall x, In x U -> A x k = true) /\
  (forall x, In x U -> nongauss T H x = true) /\
  (forall x y, In x U -> In y U -> x < y -> corr T (H, x) (H, y) = true) /\
  (forall x, In x U -> (x = i <-> (forall y, In y U -> y <> x -> A y x = false) /\ (exists y, In y U /\ y <> x /\ A x y = false) /\ indep T H x (others U x) = true)).
(** A set that RCD looks at: 2 to max_explanatory_num + 1 variables. *)
Definition looked_at (n mx : nat) (U : list nat) : Prop := StronglySorted lt U /\ (forall x, In x U -> x < n) /\ 2 <= length U <= S mx.

(** ** Equivalence of the specification with the loop's test *)
Lemma sorted_pairs U x y : StronglySorted lt U -> In (x, y) (pairs U) <-> In x U /\ In y U /\ x < y.
Proof.
  intros S1. induction S1 as [|a r Sr IH Ha]; cbn; [tauto|]. rewrite in_app_iff, in_map_iff, IH. rewrite Forall_forall in Ha. split.
  - intros [(z & E & Hz)|(H1 & H2 & H3)]; [injection E as -> ->; specialize (Ha y Hz); auto|auto].
  - intros ([<-|H1] & [<-|H2] & H3).
    + lia.
    + left. exists y. auto.
    + specialize (Ha x H1). lia.
    + right. auto.
Qed.
Lemma filter_sorted_lt (f : nat -> bool) l : StronglySorted lt l -> StronglySorted lt (filter f l).
Proof.
  induction 1 as [|a r Sr IH Ha]; cbn; [constructor|]. destruct (f a); [|exact IH]. constructor; [exact IH|]. rewrite Forall_forall in *. intros x Hx. apply filter_In in Hx. now apply Ha.
Qed.
Lemma sorted_unique l : forall r, StronglySorted lt l -> StronglySorted lt r -> (forall x, In x l <-> In x r) -> l = r.
Proof.
  induction l as [|a l IH]; intros [|b r] S1 S2 E.
  - reflexivity.
  - exfalso. apply (proj2 (E b)). now left.
  - exfalso. apply (proj1 (E a)). now left.
  - inversion S1 as [|? ? Sl Hl]; inversion S2 as [|? ? Sr Hr]; subst. rewrite Forall_forall in *. assert (a = b).
    { destruct (proj1 (E a) (or_introl eq_refl)) as [->|Q1]; [reflexivity|]. destruct (proj2 (E b) (or_introl eq_refl)) as [->|Q2]; [reflexivity|]. specialize (Hl b Q2). specialize (Hr a Q1). lia. }
    subst b. f_equal. apply IH; try assumption. intros x. split; intros Q.
    + destruct (proj1 (E x) (or_intror Q)) as [<-|R]; [specialize (Hl a Q); lia|exact R].
    + destruct (proj2 (E x) (or_intror Q)) as [<-|R]; [specialize (Hr a Q); lia|exact R].
Qed.
Lemma common_sorted n M U : StronglySorted lt (common n M U).
Proof. apply filter_sorted_lt. apply FinderProps.seq_sorted. Qed.
Lemma common_unique n M U H : StronglySorted lt H -> (forall k, In k H <-> k < n /\ forall x, In x U -> M x k = true) -> H = common n M U.
Proof. intros S1 E. apply sorted_unique; [exact S1|apply common_sorted|]. intros k. rewrite E. symmetry. apply in_common. Qed.
Lemma sorted_NoDup l : StronglySorted lt l -> NoDup l.
Proof. induction 1 as [|a r Sr IH Ha]; constructor; [|exact IH]. intros Q. rewrite Forall_forall in Ha. specialize (Ha a Q). lia. Qed.
Lemma not_all_ex (A : anc) x U : ~ (forall y, In y U -> y <> x -> A x y = true) <-> exists y, In y U /\ y <> x /\ A x y = false.
Proof.
  split.
  - intros N. destruct (existsb (fun y => negb (Nat.eqb y x) && negb (A x y)) U) eqn:E.
    + apply existsb_exists in E. destruct E as (y & Hy & E). rewrite andb_true_iff, !negb_true_iff, Nat.eqb_neq in E. exists y. tauto.
    + exfalso. apply N. intros y Hy Ny. destruct (A x y) eqn:Q; [reflexivity|]. rewrite <- E. apply existsb_exists. exists y. split; [exact Hy|]. rewrite Q. apply Nat.eqb_neq in Ny. now rewrite Ny.
  - intros (y & H1 & H2 & H3) A1. rewrite A1 in H3 by assumption. discriminate.
Qed.
Lemma only_sink_iff n T A U i : StronglySorted lt U -> only_sink n T A U i <-> passes n T A U /\ sinks T A (common n A U) U = [i].
Proof.
  intros SU. split.
  - intros (Ii & H & H1 & H2 & H3 & H4 & H5). rewrite (common_unique n A U H H1 H2) in *. split; [split; [exact H3|]|].
    + intros x y Q. apply (sorted_pairs U x y SU) in Q. now apply H4.
    + assert (E : forall x, In x (sinks T A (common n A U) U) <-> x = i).
      { intros x. rewrite in_sinks, not_all_ex. split; [intros (Q1 & Q2); now apply H5|]. intros ->. split; [exact Ii|]. now apply (H5 i Ii). }
      apply sorted_unique; [unfold sinks; now apply filter_sorted_lt|repeat constructor|]. intros x. rewrite E. cbn. split; [auto|intros [H6|[]]; auto].
  - intros [[P1 P2] F]. assert (Ii : In i (sinks T A (common n A U) U)) by (rewrite F; now left). pose proof (proj1 (in_sinks T A _ U i) Ii) as (I1 & _). split; [exact I1|].
    exists (common n A U). split; [apply common_sorted|]. split; [intros k; apply in_common|]. split; [exact P1|]. split; [intros x y Hx Hy L; apply P2, sorted_pairs; auto|].
    intros x Hx. rewrite <- not_all_ex. assert (E : In x (sinks T A (common n A U) U) <-> x = i) by (rewrite F; cbn; split; [intros [Q|[]]; auto|auto]). rewrite <- E, in_sinks. tauto.
Qed.
Lemma looked_iff n mx U : looked_at n mx U <-> exists l, 1 <= l <= mx /\ In U (combs (S l) (seq 0 n)).
Proof.
  unfold looked_at. split.
  - intros (H1 & H2 & H3). exists (length U - 1). split; [lia|]. apply combs_uq. split; [exact H1|]. split; [intros x Hx; now apply in_seq0, H2|lia].
  - intros (l & Hl & H). apply combs_uq in H. destruct H as (H1 & H2 & H3). split; [exact H1|]. split; [intros x Hx; now apply in_seq0, H2|lia].
Qed.

(** ** C138: the ancestor search ends and never makes two variables each other's ancestor *)
Theorem C138_terminates_antisymmetric : forall n mx T, 1 <= mx -> exists M, (forall fuel, n * n * S mx + S mx <= fuel -> ancestors fuel n mx T = Some M) /\
  forall i j, M i j = true -> i < n /\ j < n /\ i <> j /\ M j i = false.
Proof. intros n mx T Hm. destruct (ancestors_spec n mx T Hm) as (M & E & G & _). exists M. auto. Qed.
Lemma ancestors_det n mx T : 1 <= mx -> forall fuel M, ancestors fuel n mx T = Some M -> good n M /\ from_evidence n mx T M /\ (forall A, never_misled n mx T A -> sub M A) /\
  forall l, 1 <= l <= mx -> forall U, In U (combs (S l) (seq 0 n)) -> settled n T M U.
Proof.
  intros Hm fuel M E. destruct (ancestors_spec n mx T Hm) as (M' & E' & R1 & R2 & R3). assert (X : forall f l A h R, extract f n mx T l A h = Some R -> forall g, f <= g -> extract g n mx T l A h = Some R).
  { induction f as [|f IH]; intros l A h R Q g Hg; [discriminate|]. destruct g as [|g]; [lia|]. cbn [extract] in *. destruct (fold_left (visit n T) (combs (S l) (seq 0 n)) (A, h, false)) as [[M1 h1] ch]. destruct ch; [apply (IH 1); [exact Q|lia]|]. destruct (Nat.ltb l mx); [apply (IH (S l)); [exact Q|lia]|exact Q]. }
  assert (Q : M = M'). { unfold ancestors in *. set (g := Nat.max fuel (n * n * S mx + S mx)). assert (Q1 : extract g n mx T 1 (fun _ _ => false) [] = Some M) by (apply (X _ _ _ _ _ E); lia). rewrite E' in Q1 by lia. congruence. }
  subst M'. auto.
Qed.

(** ** C139: evidence *)
(** Every reported ancestor was found as the only sink of some set, with ancestors already reported at that time. *)
Theorem C139_every_ancestor_has_evidence : forall n mx T fuel M, 1 <= mx -> ancestors fuel n mx T = Some M -> forall i j, M i j = true ->
  exists A U, (forall a b, A a b = true -> M a b = true) /\ looked_at n mx U /\ In j U /\ i <> j /\ only_sink n T A U i.
Proof.
  intros n mx T fuel M Hm E i j H. destruct (ancestors_det n mx T Hm fuel M E) as (_ & EV & _). destruct (EV i j H) as (A & U & H1 & H2 & H3 & H4 & H5 & H6). exists A, U. split; [exact H1|]. apply looked_iff in H2. split; [exact H2|]. split; [exact H3|]. split; [exact H4|].
  apply only_sink_iff; [apply H2|auto].
Qed.
(** If the tests never mislead about a relation A (the true ancestors), whatever part of A is known, then only true ancestors are reported. *)
Theorem C139_sound : forall n mx T fuel M (A : anc), 1 <= mx -> ancestors fuel n mx T = Some M ->
  (forall K U i, (forall a b, K a b = true -> A a b = true) -> looked_at n mx U -> only_sink n T K U i -> forall j, In j U -> j <> i -> A i j = true) ->
  forall i j, M i j = true -> A i j = true.
Proof.
  intros n mx T fuel M A Hm E NM. destruct (ancestors_det n mx T Hm fuel M E) as (_ & _ & S1 & _). apply S1. intros K U i SK HU P F y Hy Ny. apply looked_iff in HU. apply (NM K U i SK HU); try assumption. apply only_sink_iff; [apply HU|auto].
Qed.
(** Nothing about two variables stays undecided: when, at the end, the tests make one of two variables the only sink of the pair, the pair is decided. *)
Theorem C139_pairs_complete : forall n mx T fuel M, 1 <= mx -> ancestors fuel n mx T = Some M -> forall i j, i < j -> j < n -> ~ only_sink n T M [i; j] i /\ ~ only_sink n T M [i; j] j.
Proof.
  intros n mx T fuel M Hm E i j L Hj. destruct (ancestors_det n mx T Hm fuel M E) as (G & _ & _ & ST). assert (SU : StronglySorted lt [i; j]) by (repeat constructor; assumption).
  assert (HU : In [i; j] (combs 2 (seq 0 n))) by (apply combs_uq; split; [exact SU|]; split; [|reflexivity]; intros x [<-|[<-|[]]]; apply in_seq0; lia).
  assert (X : forall x, ~ only_sink n T M [i; j] x); [|auto]. intros x OS. apply only_sink_iff in OS; [|exact SU]. destruct OS as [P F]. destruct (ST 1 ltac:(lia) _ HU) as [(M' & S1 & EH & P' & A1)|Q]; [|contradiction].
  assert (Ix : In x (sinks T M (common n M [i; j]) [i; j])) by (rewrite F; now left). apply in_sinks in Ix. destruct Ix as (Ix & B1 & B2 & B3).
  assert (Y : exists y, In y [i; j] /\ y <> x /\ forall z, In z [i; j] -> z = x \/ z = y) by (destruct Ix as [<-|[<-|[]]]; [exists j|exists i]; (split; [cbn; auto|]; split; [lia|]; intros z [<-|[<-|[]]]; auto)).
  destruct Y as (y & Iy & Ny & Yall). assert (Myx : M y x = false) by (now apply B1). assert (Mxy : M x y = false). { destruct (M x y) eqn:Q; [|reflexivity]. exfalso. apply B2. intros z Hz Nz. destruct (Yall z Hz) as [-> | ->]; [congruence|exact Q]. }
  assert (M'yx : M' y x = false) by (destruct (M' y x) eqn:Q; [apply S1 in Q; congruence|reflexivity]). assert (M'xy : M' x y = false) by (destruct (M' x y) eqn:Q; [apply S1 in Q; congruence|reflexivity]).
  assert (E2 : sinks T M' (common n M [i; j]) [i; j] = [x]).
  { rewrite <- F. unfold sinks. apply filter_ext_in. intros z Hz. f_equal. f_equal. unfold exists_ancestor. assert (W : forall w, In w (others [i; j] z) -> M' w z = M w z /\ M' z w = M z w).
    { intros w Hw. apply in_others in Hw. destruct Hw as [Hw Nw]. destruct (Yall z Hz) as [-> | ->], (Yall w Hw) as [-> | ->]; try congruence; rewrite ?M'yx, ?M'xy, ?Myx, ?Mxy; auto. }
    revert W. generalize (others [i; j] z). intros l W. f_equal.
    - induction l as [|w l IH]; cbn; [reflexivity|]. rewrite (proj1 (W w (or_introl eq_refl))), IH; [reflexivity|]. intros v Hv. apply W. now right.
    - induction l as [|w l IH]; cbn; [reflexivity|]. rewrite (proj2 (W w (or_introl eq_refl))), IH; [reflexivity|]. intros v Hv. apply W. now right. }
  rewrite (A1 x E2 y Iy Ny) in Mxy. discriminate.
Qed.

(** ** C140: the adjacency matrix and the p-values *)
Lemma oset_same B i j v : oset B i j v i j = v. Proof. unfold oset. now rewrite !Nat.eqb_refl. Qed.
Lemma oset_other B i j v a b : (a <> i \/ b <> j) -> oset B i j v a b = B a b.
Proof. intros H. unfold oset. destruct (Nat.eqb_spec a i), (Nat.eqb_spec b j); cbn; try reflexivity. destruct H; congruence. Qed.
Lemma coef_fold l i : forall B a b, (a <> i \/ ~ In b (map fst l)) -> fold_left (fun B p => oset B i (fst p) (Some (snd p))) l B a b = B a b.
Proof. induction l as [|[c v] l IH]; intros B a b H; cbn in *; [reflexivity|]. rewrite IH by (destruct H; auto). apply oset_other. destruct H as [H|H]; [auto|]. right. intros ->. apply H. now left. Qed.
Lemma coef_some l i : forall B a b v, fold_left (fun B p => oset B i (fst p) (Some (snd p))) l B a b = v -> B a b <> None -> v <> None.
Proof. induction l as [|[c w] l IH]; intros B a b v E H; cbn in *; [congruence|]. apply (IH _ _ _ _ E). unfold oset. destruct (Nat.eqb a i && Nat.eqb b c); [discriminate|exact H]. Qed.
Lemma coef_nth ps : forall cs i B q, NoDup ps -> q < length ps -> q < length cs -> fold_left (fun B p => oset B i (fst p) (Some (snd p))) (combine ps cs) B i (nth q ps 0) = Some (nth q cs 0%Z).
Proof.
  induction ps as [|p ps IH]; intros [|c cs] i B q ND Hq Hc; cbn [length] in *; try lia. inversion ND as [|? ? N1 N2]; subst. cbn [combine fold_left fst snd]. destruct q as [|q]; cbn [nth].
  - rewrite coef_fold; [apply oset_same|]. right. intros Q. apply in_map_iff in Q. destruct Q as ([u v] & <- & Q). apply in_combine_l in Q. contradiction.
  - apply IH; [exact N2|lia|lia].
Qed.
Lemma as_set_NoDup n f : NoDup (as_set n f). Proof. apply NoDup_filter, seq_NoDup. Qed.
Lemma coef_rows n T P rows : NoDup rows -> forall B i j, (~ In i rows -> fold_left (coef_row n T P) rows B i j = B i j) /\ (In i rows -> fold_left (coef_row n T P) rows B i j = coef_row n T P B i i j).
Proof.
  assert (C : forall B i a b, a <> i -> coef_row n T P B i a b = B a b) by (intros; unfold coef_row; apply coef_fold; auto).
  assert (D : forall B B' i b, (forall b, B i b = B' i b) -> coef_row n T P B i i b = coef_row n T P B' i i b).
  { intros B B' i b. unfold coef_row. generalize (combine (as_set n (P i)) (ols T (as_set n (P i)) i)). intros l. revert B B'. induction l as [|[c v] l IH]; intros B B' H; cbn; [apply H|]. apply IH. intros b'. unfold oset. now rewrite H. }
  induction rows as [|r rows IH]; intros ND B i j; cbn; [split; [auto|easy]|]. inversion ND as [|? ? N1 N2]; subst. destruct (IH N2 (coef_row n T P B r) i j) as [I1 I2]. split.
  - intros H. rewrite I1 by tauto. apply C. intros ->. tauto.
  - intros [->|H]; [rewrite I1 by exact N1; reflexivity|]. rewrite I2 by exact H. apply D. intros b. apply C. intros ->. contradiction.
Qed.
Lemma nan_rows n C rows : forall B i j, fold_left (nan_row n C) rows B i j = if memb i rows && (Nat.ltb j n && C i j) then None else B i j.
Proof.
  assert (R : forall l B i a b, fold_left (fun B j => oset B i j None) l B a b = if Nat.eqb a i && memb b l then None else B a b).
  { induction l as [|c l IH]; intros B i a b; cbn [fold_left]; [now rewrite andb_false_r|]. rewrite IH. unfold oset. change (memb b (c :: l)) with (Nat.eqb b c || memb b l). destruct (Nat.eqb a i) eqn:Ea, (memb b l) eqn:Eb; cbn; rewrite ?orb_true_r, ?orb_false_r; try reflexivity. }
  induction rows as [|r rows IH]; intros B i j; cbn [fold_left]; [reflexivity|]. rewrite IH. unfold nan_row. rewrite R. change (memb i (r :: rows)) with (Nat.eqb i r || memb i rows).
  assert (Q : memb j (as_set n (C r)) = Nat.ltb j n && C r j) by (apply Bool.eq_iff_eq_true; rewrite memb_In, in_as_set, andb_true_iff, Nat.ltb_lt; reflexivity). rewrite Q.
  destruct (Nat.eqb_spec i r) as [->|N]; cbn [andb orb]; [destruct (memb r rows), (Nat.ltb j n && C r j); reflexivity|]. reflexivity.
Qed.
Lemma confounded_iff n T P i j : confounded n T P i j = true <-> i < n /\ j < n /\ i <> j /\ P i j = false /\ P j i = false /\ corr T (as_set n (P (Nat.min i j)), Nat.min i j) (as_set n (P (Nat.max i j)), Nat.max i j) = true.
Proof.
  unfold confounded. assert (G : forall L C, (forall x y, In (x, y) L -> x < y) -> fold_left (conf_step n T P) L C i j = true <-> C i j = true \/ (In (i, j) L \/ In (j, i) L) /\ P i j = false /\ P j i = false /\ corr T (as_set n (P (Nat.min i j)), Nat.min i j) (as_set n (P (Nat.max i j)), Nat.max i j) = true).
  { induction L as [|[x y] L IH]; intros C HL; cbn [fold_left]; [cbn; tauto|]. rewrite IH by (intros u v H; apply HL; now right). assert (Lxy : x < y) by (apply HL; now left).
    assert (St : conf_step n T P C (x, y) i j = true <-> C i j = true \/ ((x, y) = (i, j) \/ (x, y) = (j, i)) /\ P i j = false /\ P j i = false /\ corr T (as_set n (P (Nat.min i j)), Nat.min i j) (as_set n (P (Nat.max i j)), Nat.max i j) = true).
    { unfold conf_step, resid_to_parent. destruct (P y x || P x y) eqn:E1.
      - split; [auto|]. intros [H|([Q|Q] & H1 & H2 & H3)]; [exact H| |]; injection Q as -> ->; rewrite H1, H2 in E1; discriminate.
      - apply orb_false_iff in E1. destruct E1 as [E1 E2]. destruct (corr T (as_set n (P x), x) (as_set n (P y), y)) eqn:E3.
        + rewrite !add_iff. cbn. split.
          * intros [[H|[Q [R|[]]]]|[Q [R|[]]]]; [auto| |]; subst; right; (split; [auto|]); [rewrite (Nat.min_l x j), (Nat.max_r x j) by lia|rewrite (Nat.min_r y j), (Nat.max_l y j) by lia]; auto.
          * intros [H|([Q|Q] & _)]; [auto| |]; injection Q as -> ->; auto.
        + split; [auto|]. intros [H|([Q|Q] & H1 & H2 & H3)]; [exact H| |]; injection Q as -> ->; rewrite ?(Nat.min_l i j), ?(Nat.max_r i j), ?(Nat.min_r i j), ?(Nat.max_l i j) in H3 by lia; congruence. }
    rewrite St. cbn [In]. tauto. }
  rewrite G by (intros x y H; apply pairs_seq in H; lia). rewrite !pairs_seq. split; [intros [H|(H1 & H2)]; [discriminate|]|intros (H1 & H2 & H3 & H4)].
  - split; [lia|]. split; [lia|]. split; [lia|]. exact H2.
  - right. split; [|exact H4]. lia.
Qed.

Section Fit.
  Variables (n mx : nat) (T : rcd_tests) (fuel : nat) (M : anc) (B : omat).
  Hypothesis Hm : 1 <= mx.
  Hypothesis HT : forall ps i, length (ols T ps i) = length ps.
  Hypothesis HF : rcd_fit fuel n mx T = Some (M, B).
  (** Parents: ancestors that stay correlated after removing the other ancestors. *)
  Definition Par (i j : nat) : Prop := M i j = true /\
    corr T (filter (fun k => M i k && M j k) (seq 0 n), j) (filter (fun k => M i k && negb (Nat.eqb k j)) (seq 0 n), i) = true.
  Lemma fit_anc : ancestors fuel n mx T = Some M /\ B = adjacency n T (parents n T M) (confounded n T (parents n T M)).
  Proof. unfold rcd_fit in HF. destruct (ancestors fuel n mx T) as [M'|]; [|discriminate]. injection HF as <- <-. auto. Qed.
  Lemma fit_good : forall i j, M i j = true -> i < n /\ j < n /\ i <> j /\ M j i = false.
  Proof. destruct fit_anc as [E _]. destruct (ancestors_det n mx T Hm fuel M E) as (G & _). exact G. Qed.
  Lemma par_iff i j : parents n T M i j = true <-> Par i j.
  Proof. unfold parents, Par, is_parent, as_set. rewrite andb_true_iff. reflexivity. Qed.
  Lemma parents_anc i j : parents n T M i j = true -> M i j = true. Proof. intros H. apply par_iff in H. apply H. Qed.
  Lemma B_entry i j : i < n -> B i j = if Nat.ltb j n && confounded n T (parents n T M) i j then None else coef_row n T (parents n T M) (fun _ _ => Some 0%Z) i i j.
  Proof.
    intros Hi. destruct fit_anc as [_ ->]. unfold adjacency. rewrite nan_rows. assert (I : memb i (seq 0 n) = true) by (apply memb_In; now apply in_seq0). rewrite I. cbn [andb].
    rewrite (proj2 (coef_rows n T (parents n T M) (seq 0 n) (seq_NoDup n 0) (fun _ _ => Some 0%Z) i j)) by (now apply in_seq0). reflexivity.
  Qed.
End Fit.
(** NaN exactly for pairs, in both directions, neither a parent of the other, whose residuals on their parents are correlated; a parent's coefficient is
    that of the regression on all parents; everything else is zero. *)
Theorem C140_matrix : forall n mx T fuel M B, 1 <= mx -> (forall ps i, length (ols T ps i) = length ps) -> rcd_fit fuel n mx T = Some (M, B) -> forall i, i < n ->
  exists ps, StronglySorted lt ps /\ (forall j, In j ps <-> Par n T M i j) /\ (forall q, q < length ps -> B i (nth q ps 0) = Some (nth q (ols T ps i) 0%Z)) /\
  (forall j, j < n -> (B i j = None <-> B j i = None) /\ (B i j = None -> i <> j /\ ~ Par n T M i j /\ ~ Par n T M j i) /\ (B i j <> None -> ~ Par n T M i j -> B i j = Some 0%Z)) /\
  (forall j, i < j -> j < n -> exists pj, StronglySorted lt pj /\ (forall k, In k pj <-> Par n T M j k) /\
      (B i j = None <-> ~ Par n T M i j /\ ~ Par n T M j i /\ corr T (ps, i) (pj, j) = true)).
Proof.
  intros n mx T fuel M B Hm HT HF i Hi. pose proof (fit_good n mx T fuel M B Hm HF) as G. set (P := parents n T M).
  assert (PS : forall a, StronglySorted lt (as_set n (P a)) /\ forall j, In j (as_set n (P a)) <-> Par n T M a j).
  { intros a. split; [apply filter_sorted_lt, FinderProps.seq_sorted|]. intros j. rewrite in_as_set. unfold P. rewrite par_iff. split; [tauto|]. intros Q. split; [apply (G a j), Q|exact Q]. }
  assert (FP : forall a b, P a b = false <-> ~ Par n T M a b) by (intros a b; rewrite <- par_iff; fold P; destruct (P a b); split; congruence).
  assert (NAN : forall a b, a < n -> b < n -> B a b = None <-> confounded n T P a b = true).
  { intros a b Ha Hb. rewrite (B_entry n mx T fuel M B HF a b Ha). apply Nat.ltb_lt in Hb. rewrite Hb. cbn [andb]. fold P. destruct (confounded n T P a b); [tauto|]. split; [|discriminate]. intros Q. exfalso. now apply (coef_some _ _ _ _ _ _ Q). }
  exists (as_set n (P i)). split; [apply PS|]. split; [apply PS|]. split; [|split].
  - intros q Hq. assert (Ij : In (nth q (as_set n (P i)) 0) (as_set n (P i))) by (now apply nth_In). apply in_as_set in Ij. destruct Ij as [I1 I2]. rewrite (B_entry n mx T fuel M B HF i _ Hi). fold P.
    assert (Q : confounded n T P i (nth q (as_set n (P i)) 0) = false) by (destruct (confounded n T P i (nth q (as_set n (P i)) 0)) eqn:Q; [apply confounded_iff in Q; destruct Q as (_ & _ & _ & Q & _); congruence|reflexivity]).
    rewrite Q, andb_false_r. unfold coef_row. apply coef_nth; [apply as_set_NoDup|exact Hq|rewrite HT; exact Hq].
  - intros j Hj. split; [|split].
    + rewrite !NAN, !confounded_iff by assumption. rewrite (Nat.min_comm j i), (Nat.max_comm j i). intuition congruence.
    + rewrite NAN, confounded_iff, !FP by assumption. tauto.
    + intros N1 N2. rewrite (B_entry n mx T fuel M B HF i j Hi) in *. destruct (Nat.ltb j n && confounded n T (parents n T M) i j); [congruence|]. unfold coef_row. rewrite coef_fold; [reflexivity|]. right. intros Q. apply in_map_iff in Q. destruct Q as ([u v] & E & Q). cbn in E. subst u. apply in_combine_l in Q. apply N2, PS, Q.
  - intros j L Hj. exists (as_set n (P j)). split; [apply PS|]. split; [apply PS|]. rewrite NAN, confounded_iff, !FP by lia. rewrite Nat.min_l, Nat.max_r by lia. split; [tauto|]. intros (Q1 & Q2 & Q3). repeat split; auto; lia.
Qed.
(** Non-zero coefficients are between a variable and one of its reported ancestors; never in both directions, never on the diagonal. *)
Theorem C140_coefficients_one_way : forall n mx T fuel M B, 1 <= mx -> (forall ps i, length (ols T ps i) = length ps) -> rcd_fit fuel n mx T = Some (M, B) -> forall i j z, i < n -> j < n -> B i j = Some z -> z <> 0%Z ->
  M i j = true /\ i <> j /\ B j i = Some 0%Z.
Proof.
  intros n mx T fuel M B Hm HT HF i j z Hi Hj E Nz. pose proof (fit_good n mx T fuel M B Hm HF) as G.
  destruct (C140_matrix n mx T fuel M B Hm HT HF i Hi) as (ps & _ & Hps & _ & A1 & _). destruct (C140_matrix n mx T fuel M B Hm HT HF j Hj) as (pj & _ & Hpj & _ & A2 & _).
  destruct (A1 j Hj) as (S1 & _ & S3). destruct (A2 i Hi) as (_ & _ & S5).
  assert (PD : Par n T M i j). { destruct (parents n T M i j) eqn:Q; [now apply par_iff|]. exfalso. assert (N : ~ Par n T M i j) by (rewrite <- par_iff, Q; discriminate). rewrite S3 in E by (congruence || assumption). congruence. }
  destruct (G i j (proj1 PD)) as (_ & _ & N & F). split; [apply PD|]. split; [exact N|]. apply S5.
  - intros Q. apply S1 in Q. congruence.
  - intros [Q _]. congruence.
Qed.
(** Errors of variables with a confounded partner have no p-value; all others are tested, and the matrix of p-values is symmetric. *)
Theorem C140_error_p_values : forall n B hsic i j, i < j -> j < n -> let touched k := exists m, m < n /\ (B k m = None \/ B m k = None) in let A := error_p_values n B hsic in
  A i j = A j i /\ ((touched i \/ touched j) -> A i j = None) /\ (~ touched i -> ~ touched j -> A i j = Some (hsic i j)).
Proof.
  intros n B hsic i j L Hj touched A. assert (G : forall Ls A0, NoDup Ls -> (forall x y, In (x, y) Ls -> x < y) -> In (i, j) Ls -> let A1 := fold_left (p_step (nan_cols n B) hsic) Ls A0 in A1 i j = (if memb i (nan_cols n B) || memb j (nan_cols n B) then None else Some (hsic i j)) /\ A1 j i = A1 i j).
  { assert (U : forall Ls A0 a b, (forall x y, In (x, y) Ls -> (x, y) <> (a, b) /\ (y, x) <> (a, b)) -> fold_left (p_step (nan_cols n B) hsic) Ls A0 a b = A0 a b).
    { induction Ls as [|[x y] Ls IH]; intros A0 a b H; cbn; [reflexivity|]. rewrite IH by (intros u v Q; apply H; now right). destruct (H x y (or_introl eq_refl)) as [H1 H2]. rewrite oset_other, oset_other; [reflexivity| |].
      - destruct (Nat.eq_dec a x) as [->|]; [right|now left]. intros ->. now apply H1.
      - destruct (Nat.eq_dec a y) as [->|]; [right|now left]. intros ->. now apply H2. }
    induction Ls as [|[x y] Ls IH]; intros A0 ND HL HI; [destruct HI|]. inversion ND as [|? ? N1 N2]; subst. cbv zeta. cbn [fold_left]. destruct HI as [Q|HI]; [|apply IH; auto; intros u v Q; apply HL; now right].
    injection Q as -> ->. assert (NI : forall a b, (a, b) = (i, j) \/ (a, b) = (j, i) -> fold_left (p_step (nan_cols n B) hsic) Ls (p_step (nan_cols n B) hsic A0 (i, j)) a b = p_step (nan_cols n B) hsic A0 (i, j) a b).
    { intros a b Hab. apply U. intros u v Huv. specialize (HL u v (or_intror Huv)). destruct Hab as [Q|Q]; injection Q as -> ->; split; intros R; injection R as -> ->; try lia; contradiction. }
    rewrite !NI by auto. cbn [p_step]. rewrite oset_same, oset_other, oset_same by lia. auto. }
  assert (NP : NoDup (pairs (seq 0 n))). { generalize (seq_NoDup n 0). generalize (seq 0 n). induction l as [|a l IH]; cbn; intros ND; [constructor|]. inversion ND as [|? ? N1 N2]; subst.
    assert (F : NoDup (map (pair a) l)) by (apply FinFun.Injective_map_NoDup; [intros u v Q; now injection Q|exact N2]). revert F. assert (Dj : forall p, In p (map (pair a) l) -> ~ In p (pairs l)).
    { intros [u v] Q R. apply in_map_iff in Q. destruct Q as (w & Q & _). injection Q as <- <-. apply in_pairs in R. destruct R as (l1 & l2 & l3 & ->). apply N1. rewrite in_app_iff. right. now left. }
    revert Dj. generalize (map (pair a) l). induction l0 as [|p l0 IH0]; cbn; intros Dj F; [now apply IH|]. inversion F as [|? ? F1 F2]; subst. constructor; [|apply IH0; auto]. rewrite in_app_iff. intros [Q|Q]; [contradiction|]. apply (Dj p); auto. }
  destruct (G (pairs (seq 0 n)) (fun _ _ => Some 0%Z) NP) as [G1 G2]; [intros x y Q; apply pairs_seq in Q; lia|apply pairs_seq; lia|].
  assert (TC : forall k, k < n -> In k (nan_cols n B) <-> touched k).
  { intros k Hk. unfold nan_cols, touched. rewrite in_flat_map. split.
    - intros (a & Ha & Q). apply in_flat_map in Q. destruct Q as (b & Hb & Q). apply in_seq0 in Ha, Hb. destruct (isnan (B a b)) eqn:E; [|destruct Q]. assert (E2 : B a b = None) by (destruct (B a b); [discriminate|reflexivity]). destruct Q as [<-|[<-|[]]]; [exists b|exists a]; auto.
    - intros (m & Hmn & [Q|Q]).
      + exists k. split; [now apply in_seq0|]. apply in_flat_map. exists m. split; [now apply in_seq0|]. rewrite Q. cbn. auto.
      + exists m. split; [now apply in_seq0|]. apply in_flat_map. exists k. split; [now apply in_seq0|]. rewrite Q. cbn. auto. }
  fold (error_p_values n B hsic) in G1, G2. fold A in G1, G2. split; [congruence|]. split.
  - intros H. rewrite G1. assert (Q : memb i (nan_cols n B) || memb j (nan_cols n B) = true) by (rewrite orb_true_iff, !memb_In, (TC i), (TC j) by lia; exact H). now rewrite Q.
  - intros H1 H2. rewrite G1. assert (Q : memb i (nan_cols n B) || memb j (nan_cols n B) = false) by (rewrite orb_false_iff, !memb_not_In, (TC i), (TC j) by lia; auto). now rewrite Q.
Qed.

(** ** C141: what does not hold *)
Definition ones_ols : list nat -> nat -> list Z := fun ps _ => map (fun _ => 1%Z) ps.
Definition T_of (ind : nat -> list nat -> bool) (cor : nat -> nat -> bool) : rcd_tests := mkT (fun _ _ => true) (fun a b => cor (snd a) (snd b)) (fun _ x ys => ind x ys) ones_ols.
(** Pairwise tests that go round in a circle: x1 is the sink of {x0, x1}, x2 of {x1, x2} and x0 of {x0, x2}. *)
Definition T_cycle : rcd_tests := T_of (fun x ys => match x, ys with 1, [0] => true | 2, [1] => true | 0, [2] => true | _, _ => false end) (fun _ _ => true).
Theorem C141_acyclic_refuted : exists n mx T fuel M B, 1 <= mx /\ (forall ps i, length (ols T ps i) = length ps) /\ rcd_fit fuel n mx T = Some (M, B) /\
  B 1 0 = Some 1%Z /\ B 2 1 = Some 1%Z /\ B 0 2 = Some 1%Z.
Proof.
  assert (C : match rcd_fit 20 3 2 T_cycle with Some (M, B) => B 1 0 = Some 1%Z /\ B 2 1 = Some 1%Z /\ B 0 2 = Some 1%Z | None => False end) by (vm_compute; auto).
  destruct (rcd_fit 20 3 2 T_cycle) as [[M B]|] eqn:E; [|destruct C]. exists 3, 2, T_cycle, 20, M, B. split; [lia|]. split; [intros ps i; apply map_length|]. auto.
Qed.
(** Ancestors of ancestors need not be reported. *)
Definition T_chain : rcd_tests := T_of (fun x ys => match x, ys with 1, [0] => true | 2, [1] => true | _, _ => false end) (fun x y => negb (Nat.eqb (x + y) 2)).
Theorem C141_transitive_refuted : exists n mx T fuel M, 1 <= mx /\ ancestors fuel n mx T = Some M /\ M 1 0 = true /\ M 2 1 = true /\ M 2 0 = false.
Proof.
  assert (C : match ancestors 20 3 2 T_chain with Some M => M 1 0 = true /\ M 2 1 = true /\ M 2 0 = false | None => False end) by (vm_compute; auto).
  destruct (ancestors 20 3 2 T_chain) as [M|] eqn:E; [|destruct C]. exists 3, 2, T_chain, 20, M. split; [lia|]. auto.
Qed.
(** Larger sets can stay undecided: {x0, x1, x2} has two sinks x0 and x1 when it is first looked at; {x0, x1, x3} then makes x0 an ancestor of x1, so x1 is now
    the only sink, but the set is skipped because its common ancestors did not change. *)
Definition T_late : rcd_tests := T_of (fun x ys => match x, ys with 0, [1; 2] => true | 1, [0; 2] => true | 1, [0; 3] => true | _, _ => false end) (fun _ _ => true).
Theorem C141_complete_refuted : exists n mx T fuel M U i j, 1 <= mx /\ ancestors fuel n mx T = Some M /\ looked_at n mx U /\ only_sink n T M U i /\ In j U /\ j <> i /\ M i j = false /\ M j i = false.
Proof.
  assert (C : match ancestors 30 4 2 T_late with Some M => (M 1 2 = false /\ M 2 1 = false) /\ forallb (fun p => corr T_late (common 4 M [0;1;2], fst p) (common 4 M [0;1;2], snd p)) (pairs [0;1;2]) = true /\ sinks T_late M (common 4 M [0; 1; 2]) [0; 1; 2] = [1] | None => False end) by (vm_compute; auto).
  destruct (ancestors 30 4 2 T_late) as [M|] eqn:E; [|destruct C]. destruct C as ((C1 & C2) & C3 & C4). assert (SU : StronglySorted lt [0; 1; 2]) by (repeat constructor).
  exists 4, 2, T_late, 30, M, [0; 1; 2], 1, 2. split; [lia|]. split; [exact E|]. split; [split; [exact SU|]; split; [intros x [<-|[<-|[<-|[]]]]; lia|cbn; lia]|]. split; [|cbn; auto 10].
  apply only_sink_iff; [exact SU|]. split; [|exact C4]. split; [reflexivity|]. intros x y H. rewrite forallb_forall in C3. exact (C3 _ H).
Qed.

(** estimate_total_effect: NaN exactly when the row of the cause (its direct parents) has an unknown entry; otherwise the target is regressed on the cause
    followed by the parents of the cause. *)
Theorem C140_effect_is_nan : forall n B from, effect_predictors n B from = None <-> exists j, j < n /\ B from j = None.
Proof.
  intros n B from. unfold effect_predictors. destruct (existsb _ _) eqn:E.
  - apply existsb_exists in E. destruct E as (j & Hj & Q). apply in_seq0 in Hj. split; [|reflexivity]. intros _. exists j. split; [exact Hj|]. now destruct (B from j).
  - split; [discriminate|]. intros (j & Hj & Q). exfalso. rewrite <- not_true_iff_false in E. apply E, existsb_exists. exists j. split; [now apply in_seq0|]. now rewrite Q.
Qed.
Theorem C140_effect_adjusts_for_parents : forall n B from ps, effect_predictors n B from = Some ps ->
  exists qs, ps = from :: qs /\ NoDup qs /\ forall j, In j qs <-> j < n /\ exists z, B from j = Some z /\ z <> 0%Z.
Proof.
  intros n B from ps H. unfold effect_predictors in H. destruct (existsb _ _) eqn:E; [discriminate|]. injection H as <-. exists (as_set n (fun j => nonzero_entry (B from j))). split; [reflexivity|]. unfold as_set. split; [apply NoDup_filter, seq_NoDup|].
  intros j. rewrite filter_In, in_seq0. unfold nonzero_entry. destruct (B from j) as [z|]; split.
  - intros [H1 H2]. split; [exact H1|]. exists z. split; [reflexivity|]. now apply negb_true_iff, Z.eqb_neq in H2.
  - intros [H1 (z' & Ez & Nz)]. injection Ez as <-. split; [exact H1|]. now apply negb_true_iff, Z.eqb_neq.
  - intros [_ H]; discriminate.
  - intros [_ (z & Ez & _)]; discriminate.
Qed.

(** ** Concrete cases *)
(** x1 <- x0, x2 and x0 confounded. *)
Definition T_conf : rcd_tests := T_of (fun x ys => match x, ys with 1, [0] => true | _, _ => false end) (fun x y => negb (Nat.eqb (x * y) 2)).
Example C140_ex : match rcd_fit 20 3 2 T_conf with Some (M, B) => M 1 0 = true /\ B 1 0 = Some 1%Z /\ B 0 2 = None /\ B 2 0 = None /\ B 1 2 = Some 0%Z /\
  effect_predictors 3 B 1 = Some [1; 0] /\ effect_predictors 3 B 0 = None /\ error_p_values 3 B (fun i j => Z.of_nat (i + j)) 1 2 = None | None => False end.
Proof. vm_compute. auto 10. Qed.
(** The tests of a chain never mislead about the chain. *)
Example C139_ex : exists M, ancestors 20 3 2 T_chain = Some M /\ only_sink 3 T_chain (fun _ _ => false) [0; 1] 1 /\ looked_at 3 2 [0; 1].
Proof.
  destruct (ancestors 20 3 2 T_chain) as [M|] eqn:E; [|vm_compute in E; discriminate]. exists M. split; [reflexivity|]. assert (SU : StronglySorted lt [0; 1]) by (repeat constructor). split.
  - apply only_sink_iff; [exact SU|]. split; [|reflexivity]. split; [reflexivity|]. intros x y [H|[]]. injection H as <- <-. reflexivity.
  - split; [exact SU|]. split; [intros x [<-|[<-|[]]]; lia|cbn; lia].
Qed.
Example C139_sound_ex : forall K U i, (forall a b, K a b = true -> (fun a b => Nat.eqb a (S b)) a b = true) -> looked_at 3 2 U -> only_sink 3 T_chain K U i -> forall j, In j U -> j <> i -> Nat.eqb i (S j) = true.
Proof.
  intros K U i _ _ (Ii & H & _ & _ & _ & _ & H5) j Hj Nj. destruct (proj1 (H5 i Ii) eq_refl) as (_ & _ & Q). cbn in Q.
  assert (Ij : In j (others U i)) by (now apply in_others). destruct i as [|[|[|i]]]; try discriminate; destruct (others U _) as [|[|[|]] [|]]; try discriminate; destruct Ij as [<-|[]]; reflexivity.
Qed.
Print Assumptions C139_pairs_complete.
Print Assumptions C140_matrix.
