(** Loop invariants of RCD's ancestor search. *)
From Verif Require Import Base GraphSpec UtilsModel UtilsProofs SkelModel LingamModel LingamProofs RCDModel.
From Verif Require Import FinderProps ExactDP.
From Coq Require Import Permutation Sorted.
Local Open Scope nat_scope.

Lemma leqb_iff a : forall b, leqb a b = true <-> a = b.
Proof.
  induction a as [|x a IH]; intros [|y b]; cbn; try (split; congruence). rewrite andb_true_iff, Nat.eqb_eq, IH. split; [now intros [-> ->]|now intros H; injection H].
Qed.
Lemma in_as_set n f k : In k (as_set n f) <-> k < n /\ f k = true.
Proof. unfold as_set. rewrite filter_In, in_seq0. reflexivity. Qed.
Lemma as_set_ext n f g : (forall k, k < n -> f k = g k) -> as_set n f = as_set n g.
Proof. intros H. unfold as_set. apply filter_ext_in. intros k Hk. apply H. now apply in_seq0. Qed.
Lemma in_common n M U k : In k (common n M U) <-> k < n /\ forall x, In x U -> M x k = true.
Proof. unfold common. rewrite in_as_set, forallb_forall. reflexivity. Qed.
Lemma in_pairs U : forall x y, In (x, y) (pairs U) <-> exists l1 l2 l3, U = l1 ++ x :: l2 ++ y :: l3.
Proof.
  induction U as [|a r IH]; intros x y; cbn.
  - split; [easy|]. intros (l1 & l2 & l3 & H). now apply app_cons_not_nil in H.
  - rewrite in_app_iff, in_map_iff, IH. split.
    + intros [(z & E & Hz)|(l1 & l2 & l3 & ->)].
      * injection E as -> ->. apply in_split in Hz. destruct Hz as (l2 & l3 & ->). now exists [], l2, l3.
      * now exists (a :: l1), l2, l3.
    + intros ([|b l1] & l2 & l3 & E); cbn in E; injection E as -> ->.
      * left. exists y. split; [reflexivity|]. rewrite in_app_iff. right. now left.
      * right. now exists l1, l2, l3.
Qed.
Lemma pairs_seq n x y : In (x, y) (pairs (seq 0 n)) <-> x < y /\ y < n.
Proof.
  rewrite in_pairs. split.
  - intros (l1 & l2 & l3 & E). assert (Hx : nth (length l1) (seq 0 n) 0 = x) by (rewrite E, app_nth2, Nat.sub_diag by lia; reflexivity).
    assert (Hy : nth (length l1 + S (length l2)) (seq 0 n) 0 = y).
    { rewrite E, app_nth2 by lia. replace (length l1 + S (length l2) - length l1) with (S (length l2)) by lia. cbn. rewrite app_nth2, Nat.sub_diag by lia. reflexivity. }
    assert (L : length (seq 0 n) = length l1 + S (length l2 + S (length l3))) by (rewrite E, app_length; cbn; rewrite app_length; reflexivity). rewrite seq_length in L.
    rewrite seq_nth in Hx, Hy by lia. lia.
  - intros [H1 H2]. exists (seq 0 x), (seq (S x) (y - S x)), (seq (S y) (n - S y)).
    replace n with (x + S ((y - S x) + S (n - S y))) at 1 by lia. rewrite seq_app. f_equal. cbn [seq]. f_equal. rewrite seq_app. f_equal. replace (S (0 + x) + (y - S x)) with y by lia. reflexivity.
Qed.

Lemma combs_uq n k U : In U (combs k (seq 0 n)) <-> StronglySorted lt U /\ incl U (seq 0 n) /\ length U = k.
Proof. apply sorted_combs. apply seq_sorted. Qed.
Section Search.
  Variables (n mx : nat) (T : rcd_tests).
  Definition sub (M N : anc) : Prop := forall i j, M i j = true -> N i j = true.
  (** The set passes the tests before the sinks are searched. *)
  Definition passes (M : anc) (U : list nat) : Prop :=
    (forall x, In x U -> nongauss T (common n M U) x = true) /\ forall x y, In (x, y) (pairs U) -> corr T (common n M U, x) (common n M U, y) = true.
  Definition good (M : anc) : Prop := forall i j, M i j = true -> i < n /\ j < n /\ i <> j /\ M j i = false.
  (** What the history knows about a set. *)
  Definition recorded (M : anc) (U H : list nat) : Prop :=
    exists M', sub M' M /\ H = common n M' U /\ passes M' U /\ forall x, sinks T M' H U = [x] -> forall y, In y U -> y <> x -> M x y = true.
  Definition hinv (M : anc) (h : hist) : Prop := forall U H, lookup U h = Some H -> recorded M U H.
  Definition from_evidence (M : anc) : Prop := forall i j, M i j = true ->
    exists M' U, sub M' M /\ (exists l, 1 <= l <= mx /\ In U (combs (S l) (seq 0 n))) /\ In j U /\ i <> j /\ passes M' U /\ sinks T M' (common n M' U) U = [i].

  Lemma sub_refl M : sub M M. Proof. intros i j; auto. Qed.
  Lemma sub_trans A B C : sub A B -> sub B C -> sub A C. Proof. intros H1 H2 i j H. auto. Qed.
  Lemma sub_add M x ys : sub M (add_anc M x ys). Proof. intros i j H. unfold add_anc. now rewrite H. Qed.
  Lemma add_iff M x ys i j : add_anc M x ys i j = true <-> M i j = true \/ i = x /\ In j ys.
  Proof. unfold add_anc. rewrite orb_true_iff, andb_true_iff, Nat.eqb_eq, memb_In. reflexivity. Qed.
  Lemma recorded_mono M N U H : sub M N -> recorded M U H -> recorded N U H.
  Proof. intros S1 (M' & H1 & H2 & H3 & H4). exists M'. split; [now apply sub_trans with M|]. split; [exact H2|]. split; [exact H3|]. intros x Hx y Hy N'. apply S1. now apply (H4 x). Qed.

  (** One visit: what happens to the state. *)
  Inductive visited (M : anc) (h : hist) (ch : bool) (U : list nat) : anc * hist * bool -> Prop :=
  | v_skip H : lookup U h = Some H -> H = common n M U -> visited M h ch U (M, h, ch)
  | v_fail : ~ passes M U -> visited M h ch U (M, h, ch)
  | v_none : passes M U -> (forall x, sinks T M (common n M U) U = [x] -> False) -> visited M h ch U (M, (U, common n M U) :: h, ch)
  | v_old x : passes M U -> sinks T M (common n M U) U = [x] -> (forall y, In y (others U x) -> M x y = true) -> visited M h ch U (M, (U, common n M U) :: h, ch)
  | v_new x y : passes M U -> sinks T M (common n M U) U = [x] -> In y (others U x) -> M x y = false -> visited M h ch U (add_anc M x (others U x), (U, common n M U) :: h, true).
  Lemma visit_visited M h ch U : visited M h ch U (visit n T (M, h, ch) U).
  Proof.
    unfold visit. destruct (match lookup U h with Some H' => leqb (common n M U) H' | None => false end) eqn:E.
    { destruct (lookup U h) as [H|] eqn:F; [|discriminate]. apply leqb_iff in E. now apply v_skip with H. }
    clear E. destruct (forallb (nongauss T (common n M U)) U) eqn:E1; cbn [negb].
    2:{ apply v_fail. intros [P _]. enough (false = true) by discriminate. rewrite <- E1. apply forallb_forall. exact P. }
    destruct (forallb (fun p => corr T (common n M U, fst p) (common n M U, snd p)) (pairs U)) eqn:E2; cbn [negb].
    2:{ apply v_fail. intros [_ P]. enough (false = true) by discriminate. rewrite <- E2. apply forallb_forall. intros [x y] H. now apply P. }
    rewrite forallb_forall in E1, E2. assert (P : passes M U) by (split; [exact E1|intros x y H; exact (E2 _ H)]).
    destruct (sinks T M (common n M U) U) as [|x [|x' r]] eqn:F.
    - apply v_none; [exact P|]. rewrite F. discriminate.
    - destruct (forallb (M x) (others U x)) eqn:G.
      + apply v_old with x; [exact P|exact F|]. now apply forallb_forall.
      + assert (X : exists y, In y (others U x) /\ M x y = false).
        { revert G. generalize (others U x). induction l as [|y l IH]; cbn; [discriminate|]. destruct (M x y) eqn:Q; cbn; [|intros _; exists y; auto]. intros G. destruct (IH G) as (z & Hz & Ez). exists z. auto. }
        destruct X as (y & Hy & Ey). now apply v_new with y.
    - apply v_none; [exact P|]. rewrite F. discriminate.
  Qed.
  Lemma in_sinks M H U x : In x (sinks T M H U) <-> In x U /\ (forall y, In y U -> y <> x -> M y x = false) /\ ~ (forall y, In y U -> y <> x -> M x y = true) /\ indep T H x (others U x) = true.
  Proof.
    unfold sinks, exists_ancestor. rewrite filter_In, andb_true_iff, negb_true_iff, orb_false_iff. split.
    - intros [H1 [[H2 H3] H4]]. split; [exact H1|]. split; [|split; [|exact H4]].
      + intros y Hy Ny. destruct (M y x) eqn:Q; [|reflexivity]. rewrite <- H2. symmetry. apply existsb_exists. exists y. split; [apply in_others; auto|exact Q].
      + intros A. enough (true = false) by discriminate. rewrite <- H3. symmetry. apply forallb_forall. intros y Hy. apply in_others in Hy. now apply A.
    - intros (H1 & H2 & H3 & H4). split; [exact H1|]. split; [|exact H4]. split.
      + destruct (existsb (fun y => M y x) (others U x)) eqn:Q; [|reflexivity]. apply existsb_exists in Q. destruct Q as (y & Hy & Q). apply in_others in Hy. rewrite H2 in Q by tauto. discriminate.
      + destruct (forallb (M x) (others U x)) eqn:Q; [|reflexivity]. exfalso. apply H3. rewrite forallb_forall in Q. intros y Hy Ny. apply Q, in_others. auto.
  Qed.
  Definition below (U : list nat) : Prop := forall x, In x U -> x < n.

  Lemma combs_below k U : In U (combs k (seq 0 n)) -> below U.
  Proof. intros H x Hx. apply combs_uq in H. destruct H as (_ & H & _). apply in_seq0. now apply H. Qed.
  Lemma visit_good M h ch U st : good M -> below U -> visited M h ch U st -> good (fst (fst st)).
  Proof.
    intros G B V. destruct V as [| | | |x y P F Hy Ey]; cbn [fst]; try assumption. intros i j H. assert (Hx : In x (sinks T M (common n M U) U)) by (rewrite F; now left).
    apply in_sinks in Hx. destruct Hx as (Ix & A1 & _ & _). apply add_iff in H. destruct H as [H|[-> H]].
    - destruct (G i j H) as (H1 & H2 & H3 & H4). repeat split; try assumption. destruct (add_anc M x (others U x) j i) eqn:Q; [|reflexivity]. apply add_iff in Q. destruct Q as [Q|[-> Q]]; [congruence|].
      apply in_others in Q. rewrite (A1 i) in H by tauto. discriminate.
    - apply in_others in H. destruct H as [H N]. repeat split; auto. destruct (add_anc M x (others U x) j x) eqn:Q; [|reflexivity]. apply add_iff in Q. destruct Q as [Q|[Q _]]; [|congruence]. rewrite (A1 j) in Q by auto. discriminate.
  Qed.
  Lemma visit_hinv M h ch U st : hinv M h -> visited M h ch U st -> hinv (fst (fst st)) (snd (fst st)).
  Proof.
    intros HI V. destruct V as [| |P F|x P F A|x y P F Hy Ey]; cbn [fst snd]; try assumption; intros V H E; cbn [lookup] in E.
    - destruct (leqb V U) eqn:Q; [|now apply HI]. apply leqb_iff in Q as ->. injection E as <-. exists M. split; [apply sub_refl|]. split; [reflexivity|]. split; [exact P|]. intros x Hx. now apply F in Hx.
    - destruct (leqb V U) eqn:Q; [|now apply HI]. apply leqb_iff in Q as ->. injection E as <-. exists M. split; [apply sub_refl|]. split; [reflexivity|]. split; [exact P|]. intros x' Hx y Hy Ny. assert (x' = x) by congruence. subst. apply A, in_others. auto.
    - destruct (leqb V U) eqn:Q; [|apply recorded_mono with M; [apply sub_add|now apply HI]]. apply leqb_iff in Q as ->. injection E as <-. exists M. split; [apply sub_add|]. split; [reflexivity|]. split; [exact P|].
      intros x' Hx z Hz Nz. assert (x' = x) by congruence. subst. apply add_iff. right. split; [reflexivity|]. apply in_others. auto.
  Qed.
  Lemma visit_evidence M h ch U st l : 1 <= l <= mx -> In U (combs (S l) (seq 0 n)) -> from_evidence M -> visited M h ch U st -> from_evidence (fst (fst st)).
  Proof.
    intros Hl HU EV V. destruct V as [| | | |x y P F Hy Ey]; cbn [fst]; try assumption. intros i j H. apply add_iff in H. destruct H as [H|[-> H]].
    - destruct (EV i j H) as (M' & V & K1 & K2 & K3). exists M', V. split; [|auto]. apply sub_trans with M; [exact K1|apply sub_add].
    - apply in_others in H. exists M, U. split; [apply sub_add|]. split; [now exists l|]. split; [tauto|]. split; [intros ->; tauto|]. auto.
  Qed.
  Lemma visit_sub M h ch U st : visited M h ch U st -> sub M (fst (fst st)).
  Proof. intros V; destruct V; cbn [fst]; try apply sub_refl. apply sub_add. Qed.
  (** The order that the tests never contradict. *)
  Definition never_misled (A : anc) : Prop := forall M U x, sub M A -> (exists l, 1 <= l <= mx /\ In U (combs (S l) (seq 0 n))) -> passes M U -> sinks T M (common n M U) U = [x] -> forall y, In y U -> y <> x -> A x y = true.
  Lemma visit_sound A M h ch U st l : never_misled A -> 1 <= l <= mx -> In U (combs (S l) (seq 0 n)) -> sub M A -> visited M h ch U st -> sub (fst (fst st)) A.
  Proof.
    intros NM Hl HU S1 V. destruct V as [| | | |x y P F Hy Ey]; cbn [fst]; try assumption. intros i j H. apply add_iff in H. destruct H as [H|[-> H]]; [now apply S1|]. apply in_others in H. apply (NM M U x); try tauto. now exists l.
  Qed.

  (** Number of ancestor pairs. *)
  Definition npairs (M : anc) : nat := length (filter (fun p => M (fst p) (snd p)) (list_prod (seq 0 n) (seq 0 n))).
  Lemma filter_mono {A} (f g : A -> bool) l : (forall x, In x l -> f x = true -> g x = true) -> length (filter f l) <= length (filter g l).
  Proof.
    induction l as [|a l IH]; intros H; cbn; [lia|]. assert (I : length (filter f l) <= length (filter g l)) by (apply IH; intros x Hx; apply H; now right).
    destruct (f a) eqn:E; [rewrite (H a (or_introl eq_refl) E); cbn; lia|]. destruct (g a); cbn; lia.
  Qed.
  Lemma filter_strict {A} (f g : A -> bool) l a : (forall x, In x l -> f x = true -> g x = true) -> In a l -> f a = false -> g a = true -> length (filter f l) < length (filter g l).
  Proof.
    induction l as [|b l IH]; [easy|]; intros H [-> | Ha] E1 E2; cbn.
    - rewrite E1, E2. cbn. assert (I : length (filter f l) <= length (filter g l)) by (apply filter_mono; intros x Hx; apply H; now right). lia.
    - assert (I : length (filter f l) < length (filter g l)) by (apply IH; auto; intros x Hx; apply H; now right).
      destruct (f b) eqn:E; [rewrite (H b (or_introl eq_refl) E); cbn; lia|]. destruct (g b); cbn; lia.
  Qed.
  Lemma npairs_le M : npairs M <= n * n.
  Proof.
    unfold npairs. etransitivity; [apply (filter_mono _ (fun _ => true)); reflexivity|]. replace (filter _ _) with (list_prod (seq 0 n) (seq 0 n)); [rewrite prod_length, seq_length; lia|].
    generalize (list_prod (seq 0 n) (seq 0 n)). induction l as [|a l IH]; cbn; congruence.
  Qed.
  Lemma visit_count M h ch U st : below U -> visited M h ch U st -> (npairs M <= npairs (fst (fst st))) /\ (ch = false -> snd st = true -> npairs M < npairs (fst (fst st))) /\ (ch = true -> snd st = true) /\ (ch = false -> snd st = false -> fst (fst st) = M).
  Proof.
    intros B V. destruct V as [| | | |x y P F Hy Ey]; cbn [fst snd]; try (repeat split; intros; try congruence; lia).
    assert (L : npairs M < npairs (add_anc M x (others U x))); [|repeat split; intros; try congruence; lia].
    assert (Hx : In x (sinks T M (common n M U) U)) by (rewrite F; now left). apply in_sinks in Hx. pose proof (proj1 (in_others U x y) Hy) as [Iy Ny].
    apply filter_strict with (x, y); [intros [i j] _; apply sub_add| |exact Ey|apply add_iff; auto]. apply in_prod; apply in_seq0; apply B; tauto.
  Qed.

  Lemma round_spec l L st : 1 <= l <= mx -> incl L (combs (S l) (seq 0 n)) ->
    let M := fst (fst st) in let st' := fold_left (visit n T) L st in let M' := fst (fst st') in
    good M -> hinv M (snd (fst st)) -> from_evidence M ->
    good M' /\ hinv M' (snd (fst st')) /\ from_evidence M' /\ sub M M' /\ (forall A, never_misled A -> sub M A -> sub M' A) /\
    npairs M <= npairs M' /\ (snd st = false -> snd st' = true -> npairs M < npairs M') /\ (snd st = true -> snd st' = true) /\ (snd st = false -> snd st' = false -> M' = M).
  Proof.
    intros Hl. revert st. induction L as [|U L IH]; intros st HL; cbv zeta; intros G HI EV; cbn [fold_left].
    - split; [exact G|]. split; [exact HI|]. split; [exact EV|]. split; [apply sub_refl|]. split; [auto|]. split; [lia|]. split; [congruence|]. split; auto.
    - destruct st as [[M h] ch]. cbn [fst snd] in *. pose proof (visit_visited M h ch U) as V. remember (visit n T (M, h, ch) U) as st1 eqn:E1. clear E1.
      assert (HU : In U (combs (S l) (seq 0 n))) by (apply HL; now left). assert (B : below U) by (intros x Hx; now apply (combs_below (S l) U HU)).
      destruct (IH st1 (fun x Hx => HL x (or_intror Hx)) (visit_good M h ch U st1 G B V) (visit_hinv M h ch U st1 HI V) (visit_evidence M h ch U st1 l Hl HU EV V)) as (K1 & K2 & K3 & K4 & K5 & K6 & K7 & K8 & K9).
      destruct (visit_count M h ch U st1 B V) as (C1 & C2 & C3 & C4).
      split; [exact K1|]. split; [exact K2|]. split; [exact K3|]. split; [apply sub_trans with (fst (fst st1)); [now apply (visit_sub M h ch U)|exact K4]|].
      split; [intros A NM SA; apply K5; [exact NM|]; now apply (visit_sound A M h ch U st1 l)|]. split; [lia|].
      split; [|split].
      + intros Q1 Q2. destruct (snd st1) eqn:Q; [specialize (C2 Q1 eq_refl); lia|specialize (K7 eq_refl Q2); lia].
      + auto.
      + intros Q1 Q2. destruct (snd st1) eqn:Q; [rewrite K8 in Q2 by reflexivity; discriminate|]. rewrite (K9 eq_refl Q2). now apply C4.
  Qed.

  (** An unchanged round decides nothing new for any of its sets. *)
  Definition settled (M : anc) (U : list nat) : Prop := recorded M U (common n M U) \/ ~ passes M U.
  Lemma visit_settled M h ch U st : below U -> hinv M h -> ch = false -> visited M h ch U st -> snd st = false -> settled M U.
  Proof.
    intros B HI Ech V Es. pose proof (visit_hinv M h ch U st HI V) as HI'. destruct V as [H E1 E2|E|P F|x P F A|x y P F Hy Ey]; cbn [fst snd] in *; try congruence.
    - left. subst. now apply HI.
    - now right.
    - left. apply HI'. cbn. rewrite (proj2 (leqb_iff U U) eq_refl). reflexivity.
    - left. apply HI'. cbn. rewrite (proj2 (leqb_iff U U) eq_refl). reflexivity.
  Qed.
  Lemma round_settled l L : 1 <= l <= mx -> forall st, incl L (combs (S l) (seq 0 n)) -> snd st = false -> let M := fst (fst st) in
    good M -> hinv M (snd (fst st)) -> from_evidence M -> snd (fold_left (visit n T) L st) = false -> forall U, In U L -> settled M U.
  Proof.
    intros Hl. induction L as [|U L IH]; intros st HL E0; cbv zeta; intros G HI EV; cbn [fold_left]; intros E U' HU'; [destruct HU'|].
    destruct st as [[M h] ch]. cbn [fst snd] in *. pose proof (visit_visited M h ch U) as V. remember (visit n T (M, h, ch) U) as st1 eqn:E1. clear E1.
    assert (HU : In U (combs (S l) (seq 0 n))) by (apply HL; now left). assert (B : below U) by (intros x Hx; now apply (combs_below (S l) U HU)).
    assert (HL' : incl L (combs (S l) (seq 0 n))) by (intros x Hx; apply HL; now right).
    pose proof (visit_good M h ch U st1 G B V) as G1. pose proof (visit_hinv M h ch U st1 HI V) as H1. pose proof (visit_evidence M h ch U st1 l Hl HU EV V) as EV1.
    destruct (round_spec l L st1 Hl HL' G1 H1 EV1) as (_ & _ & _ & _ & _ & _ & _ & K8 & _). assert (Q : snd st1 = false) by (destruct (snd st1); [rewrite K8 in E by reflexivity; discriminate|reflexivity]).
    destruct (visit_count M h ch U st1 B V) as (_ & _ & _ & C4). pose proof (C4 E0 Q) as EM. destruct HU' as [<-|HU'].
    - now apply (visit_settled M h ch U st1).
    - rewrite <- EM. now apply (IH st1).
  Qed.

  Definition measure (l : nat) (M : anc) : nat := (n * n - npairs M) * S mx + (mx - l).
  Lemma extract_spec : forall m l M h, 1 <= l <= mx -> good M -> hinv M h -> from_evidence M -> measure l M < m -> (forall l', 1 <= l' < l -> forall U, In U (combs (S l') (seq 0 n)) -> settled M U) ->
    exists M', (forall fuel, m <= fuel -> extract fuel n mx T l M h = Some M') /\ good M' /\ from_evidence M' /\ (forall A, never_misled A -> sub M A -> sub M' A) /\
      forall l', 1 <= l' <= mx -> forall U, In U (combs (S l') (seq 0 n)) -> settled M' U.
  Proof.
    induction m as [|m IH]; intros l M h Hl G HI EV Hm Hs; [lia|].
    pose proof (round_spec l _ (M, h, false) Hl (incl_refl _) G HI EV) as RS. pose proof (round_settled l _ Hl (M, h, false) (incl_refl _) eq_refl G HI EV) as RT.
    assert (EX : forall f, extract (S f) n mx T l M h = let '(M', h', ch) := fold_left (visit n T) (combs (S l) (seq 0 n)) (M, h, false) in
      if ch then extract f n mx T 1 M' h' else if Nat.ltb l mx then extract f n mx T (S l) M' h' else Some M') by reflexivity.
    destruct (fold_left (visit n T) (combs (S l) (seq 0 n)) (M, h, false)) as [[M1 h1] ch]. cbn [fst snd] in *. cbv zeta in *.
    destruct RS as (K1 & K2 & K3 & K4 & K5 & K6 & K7 & _ & K9). destruct ch.
    - specialize (K7 eq_refl eq_refl). pose proof (npairs_le M1) as LE. destruct (IH 1 M1 h1 ltac:(lia) K1 K2 K3) as (M' & E & R1 & R2 & R3 & R4).
      + unfold measure in *. assert (n * n - npairs M1 + 1 <= n * n - npairs M) by lia. nia.
      + intros l' Hl'. lia.
      + exists M'. split; [intros [|f] Hf; [lia|]; rewrite EX; apply E; lia|]. split; [exact R1|]. split; [exact R2|]. split; [|exact R4]. intros A NM SA. apply R3; auto.
    - specialize (K9 eq_refl eq_refl). subst M1. specialize (RT eq_refl). destruct (Nat.ltb_spec l mx) as [Q|Q].
      + destruct (IH (S l) M h1 ltac:(lia) K1 K2 K3) as (M' & E & R1 & R2 & R3 & R4).
        * unfold measure in *. lia.
        * intros l' Hl' U HU. destruct (Nat.eq_dec l' l) as [->|N]; [now apply RT|]. apply (Hs l'); [lia|exact HU].
        * exists M'. split; [intros [|f] Hf; [lia|]; rewrite EX; apply E; lia|]. auto.
      + exists M. split; [intros [|f] Hf; [lia|]; now rewrite EX|]. split; [exact K1|]. split; [exact K3|]. split; [auto|]. intros l' Hl' U HU. destruct (Nat.eq_dec l' l) as [->|N]; [now apply RT|]. apply (Hs l'); [lia|exact HU].
  Qed.
  Lemma ancestors_spec : 1 <= mx -> exists M, (forall fuel, n * n * S mx + S mx <= fuel -> ancestors fuel n mx T = Some M) /\ good M /\ from_evidence M /\ (forall A, never_misled A -> sub M A) /\
      forall l, 1 <= l <= mx -> forall U, In U (combs (S l) (seq 0 n)) -> settled M U.
  Proof.
    intros Hm. destruct (extract_spec (n * n * S mx + S mx) 1 (fun _ _ => false) []) as (M & E & R1 & R2 & R3 & R4); try lia; try easy.
    - unfold measure. pose proof (Nat.le_sub_l (n * n) (npairs (fun _ _ => false))). nia.
    - exists M. split; [exact E|]. split; [exact R1|]. split; [exact R2|]. split; [|exact R4]. intros A NM. apply R3; [exact NM|easy].
  Qed.
End Search.
