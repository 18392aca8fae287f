(** C142-C145: CAM-UV. *)
From Verif Require Import Base GraphSpec GraphProofs UtilsModel UtilsProofs SkelModel LingamModel LingamProofs RCDModel RCDProofs RCDProps CAMUVModel.
From Coq Require Import Permutation Sorted.
Local Open Scope nat_scope.

(** ** Specification *)
(** [S] is a sorted set; the p-value of "the residual of c on the other variables of S and its parents so far is independent of their residuals". *)
Definition set_of (d : nat) (l : list nat) (f : nat -> Prop) : Prop := StronglySorted lt l /\ forall k, In k l <-> k < d /\ f k.
Definition pval_of (d : nat) (C : cam) (P : anc) (S : list nat) (c : nat) (p : Z) : Prop :=
  exists H R, set_of d H (fun k => (In k S /\ k <> c) \/ P c k = true) /\ map snd R = others S c /\ (forall r, In r R -> set_of d (fst r) (fun k => P (snd r) k = true)) /\ p = hsic C (H, c) R.
(** c is found as the child of the other variables of S, given the parents P found so far. *)
Definition found (d : nat) (C : cam) (N P : anc) (S : list nat) (c : nat) : Prop :=
  In c S /\ (forall x y, In x S -> In y S -> P x y = false) /\ (forall y, In y S -> y <> c -> N c y = true) /\
  (exists p, pval_of d C P S c p /\ (alpha C < p)%Z /\ forall c' p', In c' S -> (forall y, In y S -> y <> c' -> N c' y = true) -> pval_of d C P S c' p' -> (p' <= p)%Z) /\
  (forall y, In y S -> y <> c -> exists Hc Hy, set_of d Hc (fun k => P c k = true) /\ set_of d Hy (fun k => P y k = true) /\ (hsic C (Hc, c) [(Hy, y)] <= alpha C)%Z).
(** N: the pairs that are not independent. *)
Definition Nb (d : nat) (C : cam) (i j : nat) : Prop := i < d /\ j < d /\ i <> j /\ (hsic C ([], Nat.min i j) [([], Nat.max i j)] < alpha C)%Z.

(** ** Proofs *)
Lemma set_unique d l r f : set_of d l f -> set_of d r f -> l = r.
Proof. intros [S1 E1] [S2 E2]. apply sorted_unique; try assumption. intros x. rewrite E1, E2. reflexivity. Qed.
Lemma as_set_of d g : set_of d (as_set d g) (fun k => g k = true).
Proof. split; [apply filter_sorted_lt, FinderProps.seq_sorted|apply in_as_set]. Qed.
Lemma set_of_ext d l f g : (forall k, k < d -> (f k <-> g k)) -> set_of d l f -> set_of d l g.
Proof. intros H [S1 E]. split; [exact S1|]. intros k. rewrite E. split; intros [K1 K2]; (split; [exact K1|]); now apply H. Qed.
Lemma neighborhoods_iff d C i j : neighborhoods d C i j = true <-> Nb d C i j.
Proof.
  unfold neighborhoods, Nb. assert (G : forall L A, (forall x y, In (x, y) L -> x < y) -> fold_left (nb_step C) L A i j = true <-> A i j = true \/ (In (i, j) L \/ In (j, i) L) /\ (hsic C ([], Nat.min i j) [([], Nat.max i j)] < alpha C)%Z).
  { induction L as [|[x y] L IH]; intros A HL; cbn [fold_left]; [cbn; tauto|]. rewrite IH by (intros u v H; apply HL; now right). assert (Lxy : x < y) by (apply HL; now left).
    assert (St : nb_step C A (x, y) i j = true <-> A i j = true \/ ((x, y) = (i, j) \/ (x, y) = (j, i)) /\ (hsic C ([], Nat.min i j) [([], Nat.max i j)] < alpha C)%Z).
    { unfold nb_step. destruct (Z.ltb_spec (hsic C ([], x) [([], y)]) (alpha C)) as [E|E].
      - rewrite !add_iff. cbn. split.
        + intros [[H|[Q [R|[]]]]|[Q [R|[]]]]; [auto| |]; subst; right; (split; [auto|]); [rewrite (Nat.min_l x j), (Nat.max_r x j) by lia|rewrite (Nat.min_r y j), (Nat.max_l y j) by lia]; auto.
        + intros [H|([Q|Q] & _)]; [auto| |]; injection Q as -> ->; auto.
      - split; [auto|]. intros [H|([Q|Q] & H3)]; [exact H| |]; injection Q as -> ->; rewrite ?(Nat.min_l i j), ?(Nat.max_r i j), ?(Nat.min_r i j), ?(Nat.max_l i j) in H3 by lia; lia. }
    rewrite St. cbn [In]. tauto. }
  rewrite G by (intros x y H; apply pairs_seq in H; lia). rewrite !pairs_seq. split; [intros [H|(H1 & H2)]; [discriminate|]; lia|intros (H1 & H2 & H3 & H4)]. right. split; [|exact H4]. lia.
Qed.

Section Loop.
  Variables (d mx : nat) (C : cam).
  Hypothesis Ha : (0 <= alpha C)%Z.
  Hypothesis Hiter : forall S, Permutation (iter C S) S.
  Notation N := (neighborhoods d C).
  Definition yinv (P : anc) (Y : nat -> list nat) : Prop := forall k, Y k = as_set d (P k).
  Definition pv (P : anc) (S : list nat) (c : nat) : Z := hsic C (as_set d (fun k => memb k (others S c) || P c k), c) (map (fun k => (as_set d (P k), k)) (others S c)).
  Lemma pv_spec P S c : pval_of d C P S c (pv P S c).
  Proof.
    eexists. eexists. split; [|split; [|split; [|reflexivity]]].
    - eapply set_of_ext; [|apply as_set_of]. intros k _. cbn beta. rewrite orb_true_iff, memb_In, in_others. reflexivity.
    - rewrite map_map. cbn [snd]. apply map_id.
    - intros r Hr. apply in_map_iff in Hr. destruct Hr as (k & <- & _). cbn [fst snd]. apply as_set_of.
  Qed.
  Lemma pv_unique P S c p : pval_of d C P S c p -> p = pv P S c.
  Proof.
    intros (H & R & H1 & H2 & H3 & ->). destruct (pv_spec P S c) as (H' & R' & H1' & H2' & H3' & ->). rewrite (set_unique d H H' _ H1 H1'). f_equal.
    clear - H2 H3 H2' H3'. rewrite <- H2 in H2'. clear H2. revert R' H2' H3'. induction R as [|r R IH]; intros [|r' R'] E H3'; try discriminate; [reflexivity|]. cbn in E. injection E as E1 E2. f_equal.
    - destruct r as [h k], r' as [h' k']. cbn in E1. subst k'. f_equal. apply (set_unique d h h' (fun x => P k x = true)); [now apply (H3 (h, k)); left|now apply (H3' (h', k)); left].
    - apply IH; try assumption; intros x Hx; [apply H3|apply H3']; now right.
  Qed.
  Definition cor (S : list nat) (c : nat) : bool := check_correlation N c (others S c).
  Lemma cor_iff S c : cor S c = true <-> forall y, In y S -> y <> c -> N c y = true.
  Proof. unfold cor, check_correlation. rewrite forallb_forall. split; [intros H y Hy Ny; apply H, in_others; auto|intros H y Hy; apply in_others in Hy; apply H; tauto]. Qed.
  Lemma get_child_spec P Y S : yinv P Y -> match get_child d C P N Y S with
    | (Some c, p) => In c S /\ cor S c = true /\ p = pv P S c /\ (0 < p)%Z /\ forall c', In c' S -> cor S c' = true -> (pv P S c' <= p)%Z
    | (None, p) => p = 0%Z /\ forall c', In c' S -> cor S c' = true -> (pv P S c' <= 0)%Z end.
  Proof.
    intros HY. assert (ST : forall best c, child_step d C P N Y S best c = if cor S c then if Z.ltb (snd best) (pv P S c) then (Some c, pv P S c) else best else best).
    { intros best c. unfold child_step, cor, pv. replace (map (fun k => (Y k, k)) (others S c)) with (map (fun k => (as_set d (P k), k)) (others S c)); [reflexivity|]. apply map_ext. intros k. now rewrite HY. }
    assert (G : forall L done best, (match best with (Some c, p) => In c S /\ cor S c = true /\ p = pv P S c /\ (0 < p)%Z /\ forall c', In c' done -> cor S c' = true -> (pv P S c' <= p)%Z
      | (None, p) => p = 0%Z /\ forall c', In c' done -> cor S c' = true -> (pv P S c' <= 0)%Z end) -> incl L S ->
      match fold_left (child_step d C P N Y S) L best with (Some c, p) => In c S /\ cor S c = true /\ p = pv P S c /\ (0 < p)%Z /\ forall c', In c' (done ++ L) -> cor S c' = true -> (pv P S c' <= p)%Z
      | (None, p) => p = 0%Z /\ forall c', In c' (done ++ L) -> cor S c' = true -> (pv P S c' <= 0)%Z end).
    { induction L as [|c L IH]; intros done best HB HL; cbn [fold_left]; [rewrite app_nil_r; exact HB|]. replace (done ++ c :: L) with ((done ++ [c]) ++ L) by (now rewrite <- app_assoc). apply IH; [|intros x Hx; apply HL; now right].
      rewrite ST. assert (Ic : In c S) by (apply HL; now left). destruct best as [[b|] p]; cbn [snd].
      - destruct HB as (B1 & B2 & B3 & B4 & B5). destruct (cor S c) eqn:E.
        + destruct (Z.ltb_spec p (pv P S c)) as [Q|Q].
          * repeat split; auto; [lia|]. intros c' Hc E'. apply in_app_or in Hc. destruct Hc as [Hc|[<-|[]]]; [specialize (B5 c' Hc E'); lia|lia].
          * repeat split; auto. intros c' Hc E'. apply in_app_or in Hc. destruct Hc as [Hc|[<-|[]]]; [auto|lia].
        + repeat split; auto. intros c' Hc E'. apply in_app_or in Hc. destruct Hc as [Hc|[<-|[]]]; [auto|congruence].
      - destruct HB as (-> & B5). destruct (cor S c) eqn:E.
        + destruct (Z.ltb_spec 0 (pv P S c)) as [Q|Q].
          * repeat split; auto. intros c' Hc E'. apply in_app_or in Hc. destruct Hc as [Hc|[<-|[]]]; [specialize (B5 c' Hc E'); lia|lia].
          * split; [reflexivity|]. intros c' Hc E'. apply in_app_or in Hc. destruct Hc as [Hc|[<-|[]]]; [auto|lia].
        + split; [reflexivity|]. intros c' Hc E'. apply in_app_or in Hc. destruct Hc as [Hc|[<-|[]]]; [auto|congruence]. }
    specialize (G (iter C S) [] (None, 0%Z)). unfold get_child. cbn [app] in G. specialize (G (conj eq_refl (fun c' (H : In c' []) => match H with end)) (fun x Hx => Permutation_in _ (Hiter S) Hx)).
    destruct (fold_left (child_step d C P N Y S) (iter C S) (None, 0%Z)) as [[c|] p].
    - destruct G as (G1 & G2 & G3 & G4 & G5). repeat split; auto. intros c' Hc. apply G5. now apply (Permutation_in _ (Permutation_sym (Hiter S))).
    - destruct G as (G1 & G5). split; [exact G1|]. intros c' Hc. apply G5. now apply (Permutation_in _ (Permutation_sym (Hiter S))).
  Qed.
  Lemma unidentified_iff P S : StronglySorted lt S -> (forall x, P x x = false) -> unidentified P S = true <-> forall x y, In x S -> In y S -> P x y = false.
  Proof.
    intros SS IR. unfold unidentified. rewrite forallb_forall. split.
    - intros H x y Hx Hy. destruct (Nat.lt_trichotomy x y) as [L|[->|L]]; [| apply IR|].
      + specialize (H (x, y) (proj2 (sorted_pairs S x y SS) (conj Hx (conj Hy L)))). cbn in H. apply negb_true_iff, orb_false_iff in H. tauto.
      + specialize (H (y, x) (proj2 (sorted_pairs S y x SS) (conj Hy (conj Hx L)))). cbn in H. apply negb_true_iff, orb_false_iff in H. tauto.
    - intros H [x y] Q. apply (sorted_pairs S x y SS) in Q. cbn. rewrite !H by tauto. reflexivity.
  Qed.
  Lemma add_parents_spec c ps : forall P Y, yinv P Y -> let r := fold_left (add_parent d c) ps (P, Y) in yinv (fst r) (snd r) /\ forall i j, fst r i j = true <-> P i j = true \/ i = c /\ In j ps.
  Proof.
    induction ps as [|p ps IH]; intros P Y HY; cbv zeta; cbn [fold_left fst snd]; [split; [exact HY|]; cbn; tauto|].
    destruct (IH (add_anc P c [p]) (fun k => if Nat.eqb k c then as_set d (add_anc P c [p] c) else Y k)) as [I1 I2].
    - intros k. destruct (Nat.eqb_spec k c) as [->|Nk]; [reflexivity|]. rewrite HY. apply as_set_ext. intros j _. apply Bool.eq_iff_eq_true. rewrite add_iff. tauto.
    - split; [exact I1|]. intros i j. unfold add_parent at 1. cbn [fst snd]. rewrite I2, add_iff. cbn [In]. intuition.
  Qed.
  Lemma dep_iff P Y S c : yinv P Y -> dependent_without C Y (others S c) c = true <-> forall y, In y S -> y <> c -> (hsic C (as_set d (P c), c) [(as_set d (P y), y)] <= alpha C)%Z.
  Proof.
    intros HY. unfold dependent_without. rewrite forallb_forall. split.
    - intros H y Hy Ny. specialize (H y (proj2 (in_others S c y) (conj Hy Ny))). apply negb_true_iff, Z.ltb_ge in H. now rewrite !HY in H.
    - intros H y Hy. apply in_others in Hy. apply negb_true_iff, Z.ltb_ge. rewrite !HY. apply H; tauto.
  Qed.
  (** What one visit does. *)
  Definition good' (P : anc) : Prop := forall i j, P i j = true -> i < d /\ j < d /\ i <> j /\ P j i = false /\ N i j = true.
  Definition looked (S : list nat) : Prop := StronglySorted lt S /\ (forall x, In x S -> x < d) /\ 2 <= length S.
  Lemma found_iff P S c : looked S -> good' P -> found d C N P S c <-> In c S /\ unidentified P S = true /\ cor S c = true /\ (alpha C < pv P S c)%Z /\ (forall c', In c' S -> cor S c' = true -> (pv P S c' <= pv P S c)%Z) /\
    (forall y, In y S -> y <> c -> (hsic C (as_set d (P c), c) [(as_set d (P y), y)] <= alpha C)%Z).
  Proof.
    intros (SS & LB & LN) G. assert (IR : forall x, P x x = false) by (intros x; destruct (P x x) eqn:Q; [|reflexivity]; apply G in Q; tauto). rewrite (unidentified_iff P S SS IR), cor_iff. unfold found. split.
    - intros (H1 & H2 & H3 & (p & Hp & Hl & Hmax) & H5). pose proof (pv_unique P S c p Hp) as ->. repeat split; auto.
      + intros c' Ic Cc. apply (Hmax c'); [exact Ic|now apply cor_iff|apply pv_spec].
      + intros y Hy Ny. destruct (H5 y Hy Ny) as (Hc & Hy' & A1 & A2 & A3). now rewrite (set_unique d _ Hc _ (as_set_of d (P c)) A1), (set_unique d _ Hy' _ (as_set_of d (P y)) A2).
    - intros (H1 & H2 & H3 & H4 & H5 & H6). repeat split; auto.
      + exists (pv P S c). split; [apply pv_spec|]. split; [exact H4|]. intros c' p' Ic Cc Hp. rewrite (pv_unique P S c' p' Hp). apply H5; [exact Ic|now apply cor_iff].
      + intros y Hy Ny. exists (as_set d (P c)), (as_set d (P y)). split; [apply as_set_of|]. split; [apply as_set_of|]. now apply H6.
  Qed.
  Lemma cam_visit_cases P Y ch S : looked S -> good' P -> yinv P Y -> let st := cam_visit d C N (P, Y, ch) S in
    (st = (P, Y, ch) /\ forall c, found d C N P S c -> exists c', c' <> c /\ In c' S /\ cor S c' = true /\ pv P S c' = pv P S c /\ get_child d C P N Y S = (Some c', pv P S c')) \/
    (exists c, found d C N P S c /\ snd st = true /\ yinv (fst (fst st)) (snd (fst st)) /\ forall i j, fst (fst st) i j = true <-> P i j = true \/ i = c /\ In j S /\ j <> c).
  Proof.
    intros HS G HY st. subst st. unfold cam_visit. destruct (unidentified P S) eqn:EU; cbn [negb].
    2:{ left. split; [reflexivity|]. intros c Hc. apply (found_iff P S c HS G) in Hc. destruct Hc as (_ & Q & _). congruence. }
    pose proof (get_child_spec P Y S HY) as GC. destruct (get_child d C P N Y S) as [[c|] p].
    - destruct GC as (G1 & G2 & G3 & G4 & G5). destruct (Z.ltb_spec (alpha C) p) as [Q|Q]; cbn [negb].
      + destruct (dependent_without C Y (others S c) c) eqn:ED; cbn [negb].
        * rewrite (dep_iff P Y S c HY) in ED. right. exists c. split; [apply (found_iff P S c HS G); subst p; repeat split; auto|].
          destruct (others S c) as [|o os] eqn:EO.
          { exfalso. destruct HS as (SS & _ & LN). rewrite (others_length S c (sorted_NoDup S SS) G1), EO in LN. cbn in LN. lia. }
          rewrite <- EO. destruct (add_parents_spec c (others S c) P Y HY) as [A1 A2]. cbn [fst snd]. split; [reflexivity|]. split; [exact A1|]. intros i j. rewrite A2, in_others. reflexivity.
        * left. split; [reflexivity|]. intros c0 Hc. apply (found_iff P S c0 HS G) in Hc. destruct Hc as (K1 & K2 & K3 & K4 & K5 & K6). destruct (Nat.eq_dec c c0) as [->|Nc].
          { exfalso. apply (dep_iff P Y S c0 HY) in K6. congruence. }
          exists c. split; [exact Nc|]. split; [exact G1|]. split; [exact G2|]. rewrite <- G3. split; [|reflexivity]. specialize (G5 c0 K1 K3). specialize (K5 c G1 G2). lia.
      + left. split; [reflexivity|]. intros c0 Hc. apply (found_iff P S c0 HS G) in Hc. destruct Hc as (K1 & K2 & K3 & K4 & K5 & K6). specialize (G5 c0 K1 K3). lia.
    - destruct GC as (-> & G5). left. split; [reflexivity|]. intros c0 Hc. apply (found_iff P S c0 HS G) in Hc. destruct Hc as (K1 & K2 & K3 & K4 & K5 & K6). specialize (G5 c0 K1 K3). lia.
  Qed.
  Definition evid (P : anc) : Prop := forall i j, P i j = true -> exists Q S, sub Q P /\ looked S /\ length S <= Nat.max 2 mx /\ In j S /\ j <> i /\ found d C N Q S i.
  Definition misled_never (A : anc) : Prop := forall Q S c, sub Q A -> looked S -> length S <= Nat.max 2 mx -> found d C N Q S c -> forall j, In j S -> j <> c -> A c j = true.
  (** A set that yields nothing more, unless two candidates have the same best p-value. *)
  Definition exhausted (P : anc) (S : list nat) : Prop := forall c, found d C N P S c -> exists c', c' <> c /\ In c' S /\ cor S c' = true /\ pv P S c' = pv P S c.
  Lemma round_cam L : (forall S, In S L -> looked S /\ length S <= Nat.max 2 mx) -> forall st, let P := fst (fst st) in good' P -> yinv P (snd (fst st)) -> evid P ->
    let st' := fold_left (cam_visit d C N) L st in let P' := fst (fst st') in
    good' P' /\ yinv P' (snd (fst st')) /\ evid P' /\ sub P P' /\ (forall A, misled_never A -> sub P A -> sub P' A) /\ (snd st = true -> snd st' = true) /\
    (snd st = false -> (snd st' = true /\ npairs d P < npairs d P') \/ (snd st' = false /\ st' = st /\ forall S, In S L -> exhausted P S)).
  Proof.
    induction L as [|S0 L IH]; intros HL st; cbv zeta; intros G HY EV; cbn [fold_left].
    - split; [exact G|]. split; [exact HY|]. split; [exact EV|]. split; [apply sub_refl|]. split; [auto|]. split; [auto|]. intros Q. right. split; [exact Q|]. split; [reflexivity|]. intros S1 [].
    - destruct st as [[P Y] ch]. cbn [fst snd] in *. destruct (HL S0 (or_introl eq_refl)) as [HS0 HS1]. destruct (cam_visit_cases P Y ch S0 HS0 G HY) as [[E1 E2]|(c & F & Es & Yi & Pi)].
      + rewrite E1. destruct (IH (fun S1 H1 => HL S1 (or_intror H1)) (P, Y, ch) G HY EV) as (K1 & K2 & K3 & K4 & K5 & K6 & K7). cbn [fst snd] in *. repeat (split; [assumption|]). intros Q. destruct (K7 Q) as [K|(K8 & K9 & K10)]; [now left|right].
        split; [exact K8|]. split; [exact K9|]. intros S1 [<-|H1]; [|now apply K10]. intros c0 Hc. destruct (E2 c0 Hc) as (c' & ? & ? & ? & ? & _). now exists c'.
      + set (st1 := cam_visit d C N (P, Y, ch) S0) in *. set (P1 := fst (fst st1)) in *. pose proof (proj1 (found_iff P S0 c HS0 G) F) as (C1 & C2 & C3 & _). destruct HS0 as (SS & SB & SL).
        assert (IR : forall x, P x x = false) by (intros x; destruct (P x x) eqn:Q; [|reflexivity]; apply G in Q; tauto). rewrite (unidentified_iff P S0 SS IR) in C2. rewrite cor_iff in C3.
        assert (S01 : sub P P1) by (intros i j H; apply Pi; now left).
        assert (G1 : good' P1).
        { intros i j H. apply Pi in H. destruct H as [H|(-> & H & Nj)].
          - destruct (G i j H) as (A1 & A2 & A3 & A4 & A5). repeat split; try assumption. destruct (P1 j i) eqn:Q; [|reflexivity]. apply Pi in Q. destruct Q as [Q|(-> & Q & Nq)]; [congruence|]. rewrite C2 in H by auto. discriminate.
          - repeat split; auto. destruct (P1 j c) eqn:Q; [|reflexivity]. apply Pi in Q. destruct Q as [Q|(-> & _)]; [|congruence]. rewrite C2 in Q by auto. discriminate. }
        assert (EV1 : evid P1).
        { intros i j H. apply Pi in H. destruct H as [H|(-> & H & Nj)]; [destruct (EV i j H) as (Q & S1 & A1 & A2); exists Q, S1; split; [now apply sub_trans with P|exact A2]|]. exists P, S0. split; [exact S01|]. split; [repeat split; assumption|]. auto. }
        assert (LT : npairs d P < npairs d P1).
        { assert (E : exists y, In y S0 /\ y <> c). { destruct S0 as [|a [|b r]]; cbn in SL; try lia. destruct (Nat.eq_dec a c) as [->|Na]; [|exists a; cbn; auto]. exists b. split; [cbn; auto|]. inversion SS as [|? ? _ Q]; subst. rewrite Forall_forall in Q. specialize (Q b (or_introl eq_refl)). lia. }
          destruct E as (y & Iy & Ny). apply filter_strict with (c, y); [intros [i j] _; apply S01|apply in_prod; apply in_seq0; auto|cbn; now apply C2|cbn; apply Pi; auto]. }
        destruct (IH (fun S1 H1 => HL S1 (or_intror H1)) st1 G1 Yi EV1) as (K1 & K2 & K3 & K4 & K5 & K6 & K7). split; [exact K1|]. split; [exact K2|]. split; [exact K3|]. split; [now apply sub_trans with P1|].
        split; [intros A MN SA; apply K5; [exact MN|]; intros i j H; apply Pi in H; destruct H as [H|(-> & H & Nj)]; [now apply SA|]; apply (MN P S0 c); auto; repeat split; assumption|].
        specialize (K6 Es). split; [auto|]. intros _. left. split; [exact K6|].
        assert (LE : npairs d P1 <= npairs d (fst (fst (fold_left (cam_visit d C N) L st1)))) by (apply filter_mono; intros [i j] _; apply K4). lia.
  Qed.
  Lemma combs_looked t S : 2 <= t <= Nat.max 2 mx -> In S (combs t (seq 0 d)) <-> looked S /\ length S = t.
  Proof.
    intros Ht. rewrite combs_uq. unfold looked. split.
    - intros (H1 & H2 & H3). repeat split; auto; [|lia]. intros x Hx. apply in_seq0. now apply H2.
    - intros ((H1 & H2 & H3) & H4). repeat split; auto. intros x Hx. apply in_seq0. now apply H2.
  Qed.
  Definition meas (t : nat) (P : anc) : nat := (d * d - npairs d P) * S (Nat.max 2 mx) + (Nat.max 2 mx - t).
  Lemma cam_loop_spec : forall m t P Y, 2 <= t <= Nat.max 2 mx -> good' P -> yinv P Y -> evid P -> meas t P < m -> (forall S, looked S -> length S < t -> exhausted P S) ->
    exists P', (forall fuel, m <= fuel -> cam_loop fuel d mx C N t P Y = Some P') /\ good' P' /\ evid P' /\ (forall A, misled_never A -> sub P A -> sub P' A) /\ forall S, looked S -> length S <= Nat.max 2 mx -> exhausted P' S.
  Proof.
    induction m as [|m IH]; intros t P Y Ht G HY EV Hm HX; [lia|].
    pose proof (round_cam (combs t (seq 0 d)) ltac:(intros S1 H1; apply combs_looked in H1; [|exact Ht]; split; [tauto|lia]) (P, Y, false) G HY EV) as RS. cbv zeta in RS. cbn [fst snd] in RS.
    assert (EX : forall f, cam_loop (S f) d mx C N t P Y = let '(P', Y', ch) := fold_left (cam_visit d C N) (combs t (seq 0 d)) (P, Y, false) in
      if ch then cam_loop f d mx C N 2 P' Y' else if Nat.ltb mx (S t) then Some P' else cam_loop f d mx C N (S t) P' Y') by reflexivity.
    destruct (fold_left (cam_visit d C N) (combs t (seq 0 d)) (P, Y, false)) as [[P1 Y1] ch]. cbn [fst snd] in *. destruct RS as (K1 & K2 & K3 & K4 & K5 & _ & K7). destruct (K7 eq_refl) as [[-> LT]|(-> & E & EXH)].
    - pose proof (npairs_le d P1) as LE. destruct (IH 2 P1 Y1 ltac:(lia) K1 K2 K3) as (P' & E & R1 & R2 & R3 & R4).
      + unfold meas in *. assert (d * d - npairs d P1 + 1 <= d * d - npairs d P) by lia. nia.
      + intros S1 (_ & _ & Q) L. lia.
      + exists P'. split; [intros [|f] Hf; [lia|]; rewrite EX; apply E; lia|]. split; [exact R1|]. split; [exact R2|]. split; [|exact R4]. intros A NM SA. apply R3; auto.
    - injection E as -> ->. assert (HX' : forall S1, looked S1 -> length S1 < S t -> exhausted P S1).
      { intros S1 H1 L1. destruct (Nat.eq_dec (length S1) t) as [Q|Q]; [apply EXH, combs_looked; auto|apply HX; [exact H1|lia]]. }
      destruct (Nat.ltb_spec mx (S t)) as [Q|Q].
      + exists P. split; [intros [|f] Hf; [lia|]; now rewrite EX|]. split; [exact K1|]. split; [exact K3|]. split; [auto|]. intros S1 H1 L1. apply HX'; [exact H1|]. lia.
      + destruct (IH (S t) P Y ltac:(lia) K1 K2 K3) as (P' & E & R1 & R2 & R3 & R4); [unfold meas in *; lia|exact HX'|].
        exists P'. split; [intros [|f] Hf; [lia|]; rewrite EX; apply E; lia|]. auto.
  Qed.
  Lemma cam_loop_start : exists P, (forall fuel, d * d * S (Nat.max 2 mx) + S (Nat.max 2 mx) <= fuel -> cam_loop fuel d mx C N 2 (fun _ _ => false) (fun _ => []) = Some P) /\ good' P /\ evid P /\ (forall A, misled_never A -> sub P A) /\ forall S, looked S -> length S <= Nat.max 2 mx -> exhausted P S.
  Proof.
    destruct (cam_loop_spec (d * d * S (Nat.max 2 mx) + S (Nat.max 2 mx)) 2 (fun _ _ => false) (fun _ => [])) as (P & E & R1 & R2 & R3 & R4); try lia; try easy.
    - intros k. unfold as_set. generalize (seq 0 d). induction l as [|x l IHl]; cbn; [reflexivity|exact IHl].
    - unfold meas. pose proof (Nat.le_sub_l (d * d) (npairs d (fun _ _ => false))). nia.
    - intros S1 (_ & _ & Q) L. lia.
    - exists P. split; [exact E|]. split; [exact R1|]. split; [exact R2|]. split; [|exact R4]. intros A NM. apply R3; [exact NM|easy].
  Qed.
  Lemma cam_loop_det fuel P : cam_loop fuel d mx C N 2 (fun _ _ => false) (fun _ => []) = Some P -> good' P /\ evid P /\ (forall A, misled_never A -> sub P A) /\ forall S, looked S -> length S <= Nat.max 2 mx -> exhausted P S.
  Proof.
    intros E. destruct cam_loop_start as (P' & E' & R). assert (X : forall f t A Y R, cam_loop f d mx C N t A Y = Some R -> forall g, f <= g -> cam_loop g d mx C N t A Y = Some R).
    { induction f as [|f IH]; intros t A Y R0 Q g Hg; [discriminate|]. destruct g as [|g]; [lia|]. cbn [cam_loop] in *. destruct (fold_left (cam_visit d C N) (combs t (seq 0 d)) (A, Y, false)) as [[M1 h1] ch]. destruct ch; [apply IH; [exact Q|lia]|]. destruct (Nat.ltb mx (S t)); [exact Q|apply IH; [exact Q|lia]]. }
    assert (Q : P = P') by (pose proof (X _ _ _ _ _ E (Nat.max fuel (d * d * S (Nat.max 2 mx) + S (Nat.max 2 mx))) ltac:(lia)) as Q1; rewrite E' in Q1 by lia; congruence). now subst P'.
  Qed.
End Loop.

Lemma prune_rows d C P0 : (forall i, P0 i i = false) -> let A k := fold_left (prune_step d C) (seq 0 k) P0 in let P := A d in
  (forall i j, i < d -> (P i j = true <-> P0 i j = true /\ (hsic C (as_set d (fun k => P0 i k && negb (Nat.eqb k j)), i) [(as_set d (if Nat.ltb j i then P j else P0 j), j)] <= alpha C)%Z)).
Proof.
  intros IR A P i j Hi. assert (ST : forall k, A (S k) = prune_step d C (A k) k) by (intros k; unfold A; rewrite seq_S, fold_left_app; reflexivity).
  assert (UN : forall k a b, k <= a -> A k a b = P0 a b). { induction k as [|k IH]; intros a b L; [reflexivity|]. rewrite ST. unfold prune_step. destruct (Nat.eqb_spec a k); [lia|]. cbn [andb negb]. rewrite andb_true_r. apply IH. lia. }
  assert (FI : forall k a b, a < k -> A k a b = A (S a) a b). { induction k as [|k IH]; intros a b L; [lia|]. destruct (Nat.eq_dec a k) as [->|Na]; [reflexivity|]. rewrite ST. unfold prune_step at 1. destruct (Nat.eqb_spec a k); [lia|]. cbn [andb negb]. rewrite andb_true_r. apply IH. lia. }
  unfold P at 1. rewrite FI by exact Hi. rewrite ST. unfold prune_step. rewrite Nat.eqb_refl. cbn [andb]. rewrite UN by lia. rewrite andb_true_iff, negb_true_iff, Z.ltb_ge.
  replace (as_set d (fun k => A i i k && negb (Nat.eqb k j))) with (as_set d (fun k => P0 i k && negb (Nat.eqb k j))) by (apply as_set_ext; intros k _; now rewrite UN by lia).
  destruct (P0 i j) eqn:E; [|intuition discriminate]. replace (as_set d (A i j)) with (as_set d (if Nat.ltb j i then P j else P0 j)); [reflexivity|]. apply as_set_ext. intros k _. destruct (Nat.ltb_spec j i) as [L|L].
  - unfold P. rewrite (FI d j k) by lia. now rewrite (FI i j k).
  - now rewrite UN.
Qed.

(** ** C142: execute ends; the parents are antisymmetric and neighbours *)
Theorem C142_terminates_antisymmetric : forall d mx C, (0 <= alpha C)%Z -> (forall S, Permutation (iter C S) S) -> exists P U,
  (forall fuel, d * d * S (Nat.max 2 mx) + S (Nat.max 2 mx) <= fuel -> execute fuel d mx C = Some (P, U)) /\
  forall i j, i < d -> P i j = true -> j < d /\ i <> j /\ P j i = false /\ Nb d C i j.
Proof.
  intros d mx C Ha Hi. destruct (cam_loop_start d mx C Ha Hi) as (P0 & E & G & _). eexists. eexists. split.
  - intros fuel Hf. unfold execute, find_parents. rewrite (E fuel Hf). reflexivity.
  - intros i j Li H. assert (IR : forall x, P0 x x = false) by (intros x; destruct (P0 x x) eqn:Q; [|reflexivity]; apply G in Q; tauto). pose proof (prune_rows d C P0 IR) as PR. cbv zeta in PR.
    pose proof (proj1 (proj1 (PR i j Li) H)) as H0. destruct (G i j H0) as (A1 & A2 & A3 & A4 & A5). split; [exact A2|]. split; [exact A3|]. split; [|now apply neighborhoods_iff].
    destruct (fold_left (prune_step d C) (seq 0 d) P0 j i) eqn:Q; [|reflexivity]. apply (PR j i A2) in Q. destruct Q. congruence.
Qed.
Lemma execute_parts fuel d mx C P U : (0 <= alpha C)%Z -> (forall S, Permutation (iter C S) S) -> execute fuel d mx C = Some (P, U) -> exists P0, cam_loop fuel d mx C (neighborhoods d C) 2 (fun _ _ => false) (fun _ => []) = Some P0 /\
  P = fold_left (prune_step d C) (seq 0 d) P0 /\ U = filter (u_test d C (neighborhoods d C) P) (pairs (seq 0 d)) /\ (forall x, P0 x x = false).
Proof.
  intros Ha Hi E. unfold execute, find_parents in E. destruct (cam_loop fuel d mx C (neighborhoods d C) 2 (fun _ _ => false) (fun _ => [])) as [P0|] eqn:F; [|discriminate]. injection E as <- <-. exists P0. repeat split.
  intros x. destruct (cam_loop_det d mx C Ha Hi fuel P0 F) as (G & _). destruct (P0 x x) eqn:Q; [|reflexivity]. apply G in Q. tauto.
Qed.

(** ** C143: where the parents come from *)
(** The parents before pruning, P0, were each found in some set with the parents known then; no set of at most max(2, num_explanatory_vals) variables yields a new child, unless
    its best p-value is attained twice; and j stays a parent of i exactly if the residual of i on its other parents is dependent on the residual of j on its parents
    (already pruned for j < i, not yet for j > i). *)
Theorem C143_parents : forall fuel d mx C P U, (0 <= alpha C)%Z -> (forall S, Permutation (iter C S) S) -> execute fuel d mx C = Some (P, U) ->
  let N := neighborhoods d C in exists P0 : anc,
  (forall i j, P0 i j = true -> exists Q S, (forall a b, Q a b = true -> P0 a b = true) /\ looked d S /\ length S <= Nat.max 2 mx /\ In j S /\ j <> i /\ found d C N Q S i) /\
  (forall S c, looked d S -> length S <= Nat.max 2 mx -> found d C N P0 S c -> exists c' p, c' <> c /\ In c' S /\ pval_of d C P0 S c p /\ pval_of d C P0 S c' p) /\
  (forall i j, i < d -> (P i j = true <-> P0 i j = true /\ exists H K, set_of d H (fun k => P0 i k = true /\ k <> j) /\ set_of d K (fun k => (if Nat.ltb j i then P j k else P0 j k) = true) /\ (hsic C (H, i) [(K, j)] <= alpha C)%Z)).
Proof.
  intros fuel d mx C P U Ha Hi E N. destruct (execute_parts fuel d mx C P U Ha Hi E) as (P0 & E0 & -> & -> & IR). destruct (cam_loop_det d mx C Ha Hi fuel P0 E0) as (G & EV & _ & EX). exists P0. split; [exact EV|]. split.
  - intros S c HS HL HF. destruct (EX S HS HL c HF) as (c' & A1 & A2 & A3 & A4). exists c', (pv d C P0 S c). split; [exact A1|]. split; [exact A2|]. split; [apply pv_spec|]. rewrite <- A4. apply pv_spec.
  - intros i j Li. rewrite (prune_rows d C P0 IR i j Li). set (PP := fold_left (prune_step d C) (seq 0 d) P0).
    assert (SA : set_of d (as_set d (fun k => P0 i k && negb (Nat.eqb k j))) (fun k => P0 i k = true /\ k <> j)) by (eapply set_of_ext; [|apply as_set_of]; intros k _; cbn beta; rewrite andb_true_iff, negb_true_iff, Nat.eqb_neq; reflexivity).
    assert (SB : set_of d (as_set d (if Nat.ltb j i then PP j else P0 j)) (fun k => (if Nat.ltb j i then PP j k else P0 j k) = true)) by (eapply set_of_ext; [|apply as_set_of]; intros k _; cbn beta; destruct (Nat.ltb j i); reflexivity).
    split; intros [H1 H2]; (split; [exact H1|]).
    + eexists. eexists. split; [exact SA|]. split; [exact SB|exact H2].
    + destruct H2 as (H & K & A1 & A2 & A3). now rewrite (set_unique d _ H _ SA A1), (set_unique d _ K _ SB A2).
Qed.
(** If the tests never mislead about the relation A, only parents in A are returned. *)
Theorem C143_sound : forall fuel d mx C P U (A : anc), (0 <= alpha C)%Z -> (forall S, Permutation (iter C S) S) -> execute fuel d mx C = Some (P, U) ->
  (forall Q S c, (forall a b, Q a b = true -> A a b = true) -> looked d S -> length S <= Nat.max 2 mx -> found d C (neighborhoods d C) Q S c -> forall j, In j S -> j <> c -> A c j = true) ->
  forall i j, i < d -> P i j = true -> A i j = true.
Proof.
  intros fuel d mx C P U A Ha Hi E MN i j Li H. destruct (execute_parts fuel d mx C P U Ha Hi E) as (P0 & E0 & -> & -> & IR). destruct (cam_loop_det d mx C Ha Hi fuel P0 E0) as (_ & _ & SO & _).
  apply SO; [exact MN|]. apply (prune_rows d C P0 IR i j Li) in H. apply H.
Qed.

(** ** C144: the pairs with an unobserved path *)
Lemma pairs_NoDup l : NoDup l -> NoDup (pairs l).
Proof.
  induction l as [|a l IH]; cbn; intros ND; [constructor|]. inversion ND as [|? ? N1 N2]; subst. assert (F : NoDup (map (pair a) l)) by (apply FinFun.Injective_map_NoDup; [intros u v Q; now injection Q|exact N2]). revert F. assert (Dj : forall p, In p (map (pair a) l) -> ~ In p (pairs l)).
  { intros [u v] Q R. apply in_map_iff in Q. destruct Q as (w & Q & _). injection Q as <- <-. apply in_pairs in R. destruct R as (l1 & l2 & l3 & ->). apply N1. rewrite in_app_iff. right. now left. }
  revert Dj. generalize (map (pair a) l). induction l0 as [|p l0 IH0]; cbn; intros Dj F; [now apply IH|]. inversion F as [|? ? F1 F2]; subst. constructor; [|apply IH0; auto]. rewrite in_app_iff. intros [Q|Q]; [contradiction|]. apply (Dj p); auto.
Qed.
Theorem C144_unobserved_pairs : forall fuel d mx C P U, (0 <= alpha C)%Z -> (forall S, Permutation (iter C S) S) -> execute fuel d mx C = Some (P, U) ->
  NoDup U /\ forall i j, In (i, j) U <-> i < j /\ j < d /\ P i j = false /\ P j i = false /\ Nb d C i j /\
    exists H K, set_of d H (fun k => P i k = true) /\ set_of d K (fun k => P j k = true) /\ (hsic C (H, i) [(K, j)] < alpha C)%Z.
Proof.
  intros fuel d mx C P U Ha Hi E. destruct (execute_parts fuel d mx C P U Ha Hi E) as (P0 & E0 & EP & -> & IR). clear EP. split; [apply NoDup_filter, pairs_NoDup, seq_NoDup|].
  intros i j. rewrite filter_In, pairs_seq. unfold u_test. assert (SY : neighborhoods d C j i = neighborhoods d C i j) by (apply Bool.eq_iff_eq_true; rewrite !neighborhoods_iff; unfold Nb; rewrite (Nat.min_comm j i), (Nat.max_comm j i); intuition). rewrite SY. split.
  - intros [[L1 L2] Q]. destruct (P j i || P i j) eqn:E1; [discriminate|]. apply orb_false_iff in E1. destruct (neighborhoods d C i j) eqn:E2; [|discriminate]. cbn [negb orb] in Q. apply Z.ltb_lt in Q. apply neighborhoods_iff in E2. split; [exact L1|]. split; [exact L2|]. split; [tauto|]. split; [tauto|]. split; [exact E2|].
    exists (as_set d (P i)), (as_set d (P j)). split; [apply as_set_of|]. split; [apply as_set_of|exact Q].
  - intros (L1 & L2 & P1 & P2 & NB & H & K & S1 & S2 & Q). split; [auto|]. rewrite P1, P2. apply neighborhoods_iff in NB. rewrite NB. cbn [orb negb]. apply Z.ltb_lt. now rewrite (set_unique d _ H _ (as_set_of d (P i)) S1), (set_unique d _ K _ (as_set_of d (P j)) S2).
Qed.
(** create_data_for_evaluation lists every (parent, child) pair once. *)
Theorem C144_causal_pairs : forall d P, NoDup (causal_pairs d P) /\ forall i j, In (j, i) (causal_pairs d P) <-> i < d /\ j < d /\ P i j = true.
Proof.
  intros d P. split.
  - unfold causal_pairs. generalize (seq_NoDup d 0). generalize (seq 0 d) as l. induction l as [|a l IH]; cbn; intros ND; [constructor|]. inversion ND as [|? ? N1 N2]; subst.
    assert (F : NoDup (map (fun i2 => (i2, a)) (as_set d (P a)))) by (apply FinFun.Injective_map_NoDup; [intros u v Q; now injection Q|apply as_set_NoDup]).
    revert F. assert (Dj : forall p, In p (map (fun i2 => (i2, a)) (as_set d (P a))) -> ~ In p (flat_map (fun i1 => map (fun i2 => (i2, i1)) (as_set d (P i1))) l)).
    { intros p Q R. apply in_map_iff in Q. destruct Q as (w & <- & _). apply in_flat_map in R. destruct R as (x & Hx & R). apply in_map_iff in R. destruct R as (y & R & _). injection R as -> ->. contradiction. }
    revert Dj. generalize (map (fun i2 => (i2, a)) (as_set d (P a))). induction l0 as [|p l0 IH0]; cbn; intros Dj F; [now apply IH|]. inversion F as [|? ? F1 F2]; subst. constructor; [|apply IH0; auto]. rewrite in_app_iff. intros [Q|Q]; [contradiction|]. apply (Dj p); auto.
  - intros i j. unfold causal_pairs. rewrite in_flat_map. split.
    + intros (x & Hx & Q). apply in_map_iff in Q. destruct Q as (y & Q & Hy). injection Q as -> ->. apply in_as_set in Hy. apply in_seq0 in Hx. tauto.
    + intros (H1 & H2 & H3). exists i. split; [now apply in_seq0|]. apply in_map_iff. exists j. split; [reflexivity|]. now apply in_as_set.
Qed.

(** ** C145: the parents need not be acyclic *)
(** Every pair is dependent; the residual of x1 on x0, of x2 on x1 and of x0 on x2 are independent. *)
Definition cam_cycle : cam := mkCam (fun a bs => match a, bs with ([0], 1), [_] => 9%Z | ([1], 2), [_] => 9%Z | ([2], 0), [_] => 9%Z | _, _ => 0%Z end) 1 (fun S => S).
Theorem C145_acyclic_refuted : exists fuel d mx C P U, (0 <= alpha C)%Z /\ (forall S, Permutation (iter C S) S) /\ execute fuel d mx C = Some (P, U) /\ P 1 0 = true /\ P 2 1 = true /\ P 0 2 = true.
Proof.
  assert (Q : match execute 20 3 2 cam_cycle with Some (P, U) => P 1 0 = true /\ P 2 1 = true /\ P 0 2 = true | None => False end) by (vm_compute; auto).
  destruct (execute 20 3 2 cam_cycle) as [[P U]|] eqn:E; [|destruct Q]. exists 20, 3, 2, cam_cycle, P, U. split; [cbn; lia|]. split; [reflexivity|]. auto.
Qed.

(** ** Concrete cases: x0 -> x1, x0 and x2 share an unobserved cause; x1 and x2 are independent. *)
Definition cam_ex : cam := mkCam (fun a bs => match a, bs with ([0], 1), [_] => 9%Z | ([], 1), [([], 2)] => 9%Z | _, _ => 0%Z end) 1 (@rev nat).
Example C143_ex : match execute 20 3 3 cam_ex with Some (P, U) => causal_pairs 3 P = [(0, 1)] /\ U = [(0, 2)] | None => False end /\ (forall S, Permutation (iter cam_ex S) S).
Proof. split; [vm_compute; auto|]. intros S. cbn. symmetry. apply Permutation_rev. Qed.
Example C143_found_ex : found 3 cam_ex (neighborhoods 3 cam_ex) (fun _ _ => false) [0; 1] 1.
Proof.
  apply found_iff.
  - split; [repeat constructor|]. split; [intros x [<-|[<-|[]]]; lia|cbn; lia].
  - intros i j H. discriminate.
  - split; [cbn; auto|]. split; [reflexivity|]. split; [reflexivity|]. split; [vm_compute; reflexivity|]. split.
    + intros c' [<-|[<-|[]]] _; vm_compute; discriminate.
    + intros y [<-|[<-|[]]] Ny; vm_compute; try discriminate.
Qed.
Print Assumptions C143_parents.
