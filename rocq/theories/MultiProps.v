(** Properties of MultiGroupDirectLiNGAM. *)
From Verif Require Import Base UtilsModel GraphSpec GraphProofs UtilsProofs LingamModel LingamSpec LingamProofs LingamMain LingamProps MultiModel.
From Coq Require Import Sorted  Permutation.
Local Open Scope Z_scope.

Lemma mg_dl gs d K Bs d' : mg_fit gs d = Some (K, Bs, d') <-> exists n, check_list gs = Some n /\ order_loop n (mg_score gs) d [] (seq 0 n) = Some (K, d') /\
  Bs = map (fun g => estimate_adjacency_matrix (g_lasso g) (d_knw d) K) gs.
Proof.
  unfold mg_fit. destruct (check_list gs) as [n|]; [|split; [discriminate|intros (? & ? & _); discriminate]].
  split.
  - intros H. destruct (order_loop n (mg_score gs) d [] (seq 0 n)) as [[K0 d0]|] eqn:E; [|discriminate]. injection H as <- <- <-. exists n. auto.
  - intros (m & Em & E & ->). injection Em as ->. now rewrite E.
Qed.
Lemma loop_fit n score lasso d K d' : order_loop n score d [] (seq 0 n) = Some (K, d') -> dl_fit n score lasso d = Some (K, estimate_adjacency_matrix lasso (d_knw d) K, d').
Proof. intros E. unfold dl_fit. now rewrite E. Qed.
Lemma fit_loop n score lasso d K B d' : dl_fit n score lasso d = Some (K, B, d') -> order_loop n score d [] (seq 0 n) = Some (K, d') /\ B = estimate_adjacency_matrix lasso (d_knw d) K.
Proof. unfold dl_fit. destruct (order_loop n score d [] (seq 0 n)) as [[K0 d0]|]; [|discriminate]. intros H. injection H as <- <- <-. auto. Qed.
Lemma check_iff gs n : check_list gs = Some n <-> (2 <= length gs)%nat /\ (forall g, In g gs -> g_cols g = n) /\ exists s, forall g, In g gs -> g_size g = s.
Proof.
  unfold check_list. destruct gs as [|g [|h r]]; [split; [discriminate|cbn; lia]|split; [discriminate|cbn; lia]|].
  destruct (forallb (fun h0 => Nat.eqb (g_cols h0) (g_cols g)) (g :: h :: r) && forallb (fun h0 => Nat.eqb (g_size h0) (g_size g)) (g :: h :: r)) eqn:E.
  - apply andb_true_iff in E. destruct E as [E1 E2]. rewrite forallb_forall in E1, E2. split.
    + intros Q. injection Q as <-. split; [cbn; lia|]. split; [intros x Hx; now apply Nat.eqb_eq, E1|]. exists (g_size g). intros x Hx. now apply Nat.eqb_eq, E2.
    + intros (_ & H & _). f_equal. apply H. now left.
  - split; [discriminate|]. intros (_ & H1 & s & H2). exfalso. apply andb_false_iff in E.
    destruct E as [E|E]; apply not_true_iff_false in E; apply E; apply forallb_forall; intros x Hx; apply Nat.eqb_eq.
    + rewrite (H1 x Hx). symmetry. apply H1. now left.
    + rewrite (H2 x Hx). symmetry. apply H2. now left.
Qed.

(** ** C174: one order for all data sets *)
(** One order over all variables, one matrix per data set, and every arrow of every matrix goes forward in that order: the graphs of all data sets taken
    together have no directed cycle. *)
Theorem C174_common_order : forall gs d K Bs d', mg_fit gs d = Some (K, Bs, d') ->
  exists n, (forall g, In g gs -> g_cols g = n) /\ Permutation K (seq 0 n) /\ length Bs = length gs /\
    (forall B, In B Bs -> forall a b, arrow B a b -> before K a b) /\ acyclic (fun a b => exists B, In B Bs /\ arrow B a b).
Proof.
  intros gs d K Bs d' H. apply mg_dl in H. destruct H as (n & C & E & ->). exists n. apply check_iff in C. destruct C as (_ & C & _). split; [exact C|].
  assert (HP : Permutation K (seq 0 n)) by now apply (loop_fit n _ (fun _ _ => [])), fit_order in E. split; [exact HP|]. split; [now rewrite map_length|].
  assert (HB : forall B, In B (map (fun g => estimate_adjacency_matrix (g_lasso g) (d_knw d) K) gs) -> forall a b, arrow B a b -> before K a b).
  { intros B HB a b Q. apply in_map_iff in HB. destruct HB as (g & <- & _). apply (C114_coefficients_follow_order (g_lasso g) (d_knw d) K (perm_NoDup n K HP)). exact Q. }
  split; [exact HB|]. apply (rank_acyclic' _ (pos K)). intros a b (B & H1 & H2). apply before_pos; [now apply perm_NoDup in HP|]. now apply (HB B).
Qed.
(** With knowledge applied in the strong way, a new object fits exactly the lists of at least two data sets of one shape for which some order is
    compatible with the knowledge. *)
Theorem C174_fit_succeeds_iff : forall n pk gs d, dl_init n (Some pk) false = Some d -> (forall g, In g gs -> g_cols g = n) ->
  ((exists K Bs d', mg_fit gs d = Some (K, Bs, d')) <-> (2 <= length gs)%nat /\ (exists s, forall g, In g gs -> g_size g = s) /\ orderable n pk).
Proof.
  intros n pk gs d EI HC. split.
  - intros (K & Bs & d' & H). apply mg_dl in H. destruct H as (m & C & E & _). apply check_iff in C. destruct C as (C1 & C2 & C3). split; [exact C1|]. split; [exact C3|].
    assert (m = n). { destruct gs as [|g gs]; [cbn in C1; lia|]. rewrite <- (C2 g), <- (HC g); [reflexivity|now left|now left]. } subst m.
    apply (C116_fit_succeeds_iff n pk (mg_score gs) (fun _ _ => []) d EI). do 3 eexists. apply loop_fit. exact E.
  - intros (H1 & H2 & HO). apply (C116_fit_succeeds_iff n pk (mg_score gs) (fun _ _ => []) d EI) in HO. destruct HO as (K & B & d' & E). apply fit_loop in E. destruct E as [E _].
    do 3 eexists. apply mg_dl. exists n. split; [apply check_iff; auto|]. split; [exact E|reflexivity].
Qed.
(** ... and the order respects the knowledge, in every data set. *)
Theorem C174_knowledge_respected : forall n pk gs d K Bs d', dl_init n (Some pk) false = Some d -> (forall g, In g gs -> g_cols g = n) -> mg_fit gs d = Some (K, Bs, d') ->
  forall a b, (a < n)%nat -> (b < n)%nat -> asks_before pk a b -> before K a b /\ (forall B, In B Bs -> ~ reach1 (arrow B) b a) /\
    forall i j, pk i j = 0 -> forall B, In B Bs -> B i j = 0.
Proof.
  intros n pk gs d K Bs d' EI HC H a b Ha Hb HA. apply mg_dl in H. destruct H as (m & C & E & ->). apply check_iff in C. destruct C as (C1 & C2 & _).
  assert (m = n). { destruct gs as [|g gs]; [cbn in C1; lia|]. rewrite <- (C2 g), <- (HC g); [reflexivity|now left|now left]. } subst m.
  split; [apply (C116_order_respects_knowledge n pk _ (fun _ _ => []) d K _ d' EI (loop_fit _ _ _ _ _ _ E) a b Ha Hb HA)|]. split.
  - intros B HB. apply in_map_iff in HB. destruct HB as (g & <- & _). apply (C116_order_respects_knowledge n pk _ _ d K _ d' EI (loop_fit _ _ (g_lasso g) _ _ _ E) a b Ha Hb HA).
  - intros i j Z0 B HB. apply in_map_iff in HB. destruct HB as (g & <- & _). apply (C116_excluded_coefficients n pk _ _ d K _ d' EI (loop_fit _ _ (g_lasso g) _ _ _ E)); eauto.
Qed.

(** ** C175: the data sets are exchangeable *)
Lemma loop_ext s1 s2 : (forall d K U, search_causal_order s1 d K U = search_causal_order s2 d K U) -> forall s d K U, order_loop s s1 d K U = order_loop s s2 d K U.
Proof. intros H. induction s as [|s IH]; intros d K U; [reflexivity|]. cbn [order_loop]. rewrite H. destruct (search_causal_order s2 d K U); [apply IH|reflexivity]. Qed.
Lemma oplus_swap a x y : oplus (oplus a x) y = oplus (oplus a y) x.
Proof. destruct a, x, y; cbn; auto. f_equal. lia. Qed.
Lemma mg_score_perm gs gs' K U Uc Vj i : Permutation gs gs' -> mg_score gs K U Uc Vj i = mg_score gs' K U Uc Vj i.
Proof.
  intros H. unfold mg_score. generalize (Some 0). induction H; intros o; [reflexivity|cbn; apply IHPermutation|cbn; now rewrite oplus_swap|now rewrite IHPermutation1, IHPermutation2].
Qed.
Lemma search_ext s1 s2 : (forall K U Uc Vj i, s1 K U Uc Vj i = s2 K U Uc Vj i) -> forall d K U, search_causal_order s1 d K U = search_causal_order s2 d K U.
Proof.
  intros H d K U. unfold search_causal_order. destruct (search_candidate d U) as [Uc Vj]. destruct Uc as [|m [|m' r]]; [reflexivity|reflexivity|].
  f_equal. f_equal. f_equal. apply map_ext. intros i. apply H.
Qed.
(** Listing the data sets in another order changes neither success nor the causal order, and every data set keeps its matrix. *)
Theorem C175_order_of_data_sets : forall gs gs' d, Permutation gs gs' ->
  (mg_fit gs d = None <-> mg_fit gs' d = None) /\
  forall K Bs d', mg_fit gs d = Some (K, Bs, d') -> exists Bs', mg_fit gs' d = Some (K, Bs', d') /\ Permutation (combine gs Bs) (combine gs' Bs').
Proof.
  assert (M : forall gs gs' d K Bs d', Permutation gs gs' -> mg_fit gs d = Some (K, Bs, d') -> exists Bs', mg_fit gs' d = Some (K, Bs', d') /\ Permutation (combine gs Bs) (combine gs' Bs')).
  { intros gs gs' d K Bs d' HP H. apply mg_dl in H. destruct H as (n & C & E & ->).
    exists (map (fun g => estimate_adjacency_matrix (g_lasso g) (d_knw d) K) gs'). split.
    - apply mg_dl. exists n. split; [|split; [|reflexivity]].
      + apply check_iff in C. destruct C as (C1 & C2 & s & C3). apply check_iff. rewrite <- (Permutation_length HP).
        assert (HI : forall g, In g gs' -> In g gs) by (intros g; apply Permutation_in; now apply Permutation_sym). split; [exact C1|]. split; [intros g Hg; now apply C2, HI|]. exists s. intros g Hg. now apply C3, HI.
      + rewrite <- E. apply loop_ext. apply search_ext. intros. symmetry. now apply mg_score_perm.
    - assert (Q : forall l, combine l (map (fun g => estimate_adjacency_matrix (g_lasso g) (d_knw d) K) l) = map (fun g => (g, estimate_adjacency_matrix (g_lasso g) (d_knw d) K)) l) by (induction l as [|x l IH]; [reflexivity|cbn; now rewrite IH]).
      rewrite !Q. now apply Permutation_map. }
  intros gs gs' d HP. split; [|now intros; eapply M; eauto]. split; intros N.
  - destruct (mg_fit gs' d) as [[[K Bs] d']|] eqn:E; [|reflexivity]. destruct (M gs' gs d K Bs d' (Permutation_sym HP) E) as (Bs' & E' & _). congruence.
  - destruct (mg_fit gs d) as [[[K Bs] d']|] eqn:E; [|reflexivity]. destruct (M gs gs' d K Bs d' HP E) as (Bs' & E' & _). congruence.
Qed.
Lemma argmax_scale c : (0 < c)%nat -> forall l b bi i, argmax_from (oscale c b) bi i (map (oscale c) l) = argmax_from b bi i l.
Proof.
  intros Hc. assert (B : forall x y, beats (oscale c x) (oscale c y) = beats x y).
  { intros [x|] [y|]; try reflexivity. cbn. destruct (Z.ltb_spec y x), (Z.ltb_spec (Z.of_nat c * y) (Z.of_nat c * x)); try reflexivity; exfalso; nia. }
  induction l as [|x l IH]; intros b bi i; [reflexivity|]. cbn [map argmax_from]. rewrite B. destruct (beats x b); apply IH.
Qed.
Lemma np_argmax_scale c l : (0 < c)%nat -> np_argmax (map (oscale c) l) = np_argmax l.
Proof. intros Hc. destruct l as [|x l]; [reflexivity|]. cbn [map np_argmax]. now apply argmax_scale. Qed.
Lemma mg_score_repeat g k K U Uc Vj i : mg_score (repeat g k) K U Uc Vj i = if Nat.eqb k 0 then Some 0 else oscale (k * g_size g) (g_score g K U Uc Vj i).
Proof.
  unfold mg_score. assert (H : forall q o, fold_left (fun s g0 => oplus s (oscale (g_size g0) (g_score g0 K U Uc Vj i))) (repeat g q) o =
    if Nat.eqb q 0 then o else oplus o (oscale (q * g_size g) (g_score g K U Uc Vj i))).
  { induction q as [|q IH]; intros o; [reflexivity|]. cbn [repeat fold_left]. rewrite IH. destruct (Nat.eqb_spec q 0) as [E|N]; [rewrite E, Nat.mul_1_l; reflexivity|].
    destruct o as [o|], (g_score g K U Uc Vj i) as [z|]; cbn [oplus oscale Nat.eqb]; auto. f_equal. nia. }
  rewrite H. destruct (Nat.eqb k 0); [reflexivity|]. destruct (oscale _ _); reflexivity.
Qed.
(** Copies of one data set give what DirectLiNGAM gives on that data set: the same order, and its matrix for every copy. *)
Theorem C175_copies_of_one_data_set : forall g k d, (2 <= k)%nat -> (0 < g_size g)%nat ->
  mg_fit (repeat g k) d = match dl_fit (g_cols g) (g_score g) (g_lasso g) d with None => None | Some (K, B, d') => Some (K, repeat B k, d') end.
Proof.
  intros g k d Hk Hs. unfold mg_fit, dl_fit. replace (check_list (repeat g k)) with (Some (g_cols g)).
  2:{ symmetry. apply check_iff. rewrite repeat_length. split; [exact Hk|]. split; [|exists (g_size g)]; intros h Hh; now rewrite (repeat_spec _ _ _ Hh). }
  rewrite (loop_ext (mg_score (repeat g k)) (g_score g)).
  - destruct (order_loop (g_cols g) (g_score g) d [] (seq 0 (g_cols g))) as [[K d']|]; [|reflexivity]. f_equal. f_equal. f_equal. clear. induction k as [|k IH]; [reflexivity|cbn; now rewrite IH].
  - intros d0 K U. unfold search_causal_order. destruct (search_candidate d0 U) as [Uc Vj]. destruct Uc as [|m [|m' r]]; [reflexivity|reflexivity|]. f_equal. f_equal.
    rewrite <- (np_argmax_scale (k * g_size g) (map (g_score g K U (m :: m' :: r) Vj) (m :: m' :: r))) by nia. f_equal. rewrite map_map. apply map_ext. intros i. rewrite mg_score_repeat. destruct (Nat.eqb_spec k 0); [lia|reflexivity].
Qed.
(** Data sets with different numbers of rows are rejected, although the search weights the data sets by their sizes. *)
Theorem C175_different_sizes_refuted : forall gs d g h, In g gs -> In h gs -> g_size g <> g_size h -> mg_fit gs d = None.
Proof.
  intros gs d g h Hg Hh N. unfold mg_fit. destruct (check_list gs) as [n|] eqn:C; [|reflexivity]. exfalso. apply check_iff in C. destruct C as (_ & _ & s & C). apply N. rewrite (C g Hg), (C h Hh). reflexivity.
Qed.

(** ** C176: bootstrap *)
Lemma effects_out n g B : forall K T a b, (~ before K b a) -> mg_effects n g B K T a b = T a b.
Proof.
  induction K as [|f r IH]; intros T a b N; [reflexivity|]. cbn [mg_effects]. rewrite IH by (intros (l1 & l2 & l3 & E); apply N; exists (f :: l1), l2, l3; now rewrite E).
  assert (H : forall l T, (forall t, In t l -> In t r) -> fold_left (fun T to => upd T to f (mg_effect n g B f to)) l T a b = T a b).
  { induction l as [|t l IHl]; intros T0 Hl; [reflexivity|]. cbn [fold_left]. rewrite IHl by (intros; apply Hl; now right). apply upd_other.
    destruct (Nat.eq_dec a t) as [->|]; [|now left]. right. intros ->. apply N. assert (I : In t r) by (apply Hl; now left). apply in_split in I. destruct I as (m1 & m2 & ->). exists [], m1, m2. reflexivity. }
  apply H. auto.
Qed.
Lemma effects_in n g B : forall K T a b, NoDup K -> before K b a -> mg_effects n g B K T a b = mg_effect n g B b a.
Proof.
  induction K as [|f r IH]; intros T a b ND (l1 & l2 & l3 & E); [destruct l1; discriminate|]. inversion ND as [|? ? N1 N2]; subst. cbn [mg_effects]. destruct l1 as [|x l1]; cbn in E; injection E as -> E.
  - assert (I : In a r) by (rewrite E; apply in_or_app; right; now left).
    rewrite effects_out by (intros H; apply before_in in H; tauto).
    assert (H : forall l T, NoDup l -> (In a l \/ T a b = mg_effect n g B b a) -> fold_left (fun T to => upd T to b (mg_effect n g B b to)) l T a b = mg_effect n g B b a).
    { induction l as [|t l IHl]; intros T0 NDl Hl; [destruct Hl as [[]|Hl]; exact Hl|]. cbn [fold_left]. inversion NDl; subst. apply IHl; [assumption|].
      destruct (Nat.eq_dec t a) as [->|N]; [right; apply upd_same|]. destruct Hl as [[Hl|Hl]|Hl]; [contradiction|now left|]. right. rewrite upd_other; [exact Hl|left; congruence]. }
    apply H; auto.
  - apply IH; [exact N2|]. exists l1, l2, l3. exact E.
Qed.
Lemma bootstrap_at n : forall samples d out s K Bs Es, mg_bootstrap n samples d = Some out -> nth_error out s = Some (K, Bs, Es) ->
  exists gs d0 d1, nth_error samples s = Some gs /\ mg_fit gs d0 = Some (K, Bs, d1) /\ Es = map (fun gB => mg_effects n (fst gB) (snd gB) K zeros) (combine gs Bs) /\ (s = 0%nat -> d0 = d).
Proof.
  induction samples as [|gs r IH]; intros d out s K Bs Es H E; [injection H as <-; destruct s; discriminate|]. cbn [mg_bootstrap] in H.
  destruct (mg_fit gs d) as [[[K0 B0] d']|] eqn:F; [|discriminate]. destruct (mg_bootstrap n r d') as [o|] eqn:R; [|discriminate]. injection H as <-. destruct s as [|s].
  - cbn [nth_error] in E. injection E as <- <- <-. exists gs, d, d'. auto.
  - cbn [nth_error] in E. destruct (IH d' o s K Bs Es R E) as (g0 & d0 & d1 & H1 & H2 & H3 & _). exists g0, d0, d1. repeat split; auto. discriminate.
Qed.
Lemma bootstrap_length n : forall samples d out, mg_bootstrap n samples d = Some out -> length out = length samples.
Proof.
  induction samples as [|gs r IH]; intros d out H; [injection H as <-; reflexivity|]. cbn [mg_bootstrap] in H. destruct (mg_fit gs d) as [[[K0 B0] d']|]; [|discriminate].
  destruct (mg_bootstrap n r d') as [o|] eqn:R; [|discriminate]. injection H as <-. cbn. f_equal. eauto.
Qed.
(** Every sample contributes, for every data set g, the matrix of a fit of the resampled data sets (hence an acyclic one, along one order K per sample)
    and the table of effects: T[to, from] is the estimate on the resampled data set from its own matrix where [from] comes before [to], zero elsewhere. *)
Theorem C176_samples : forall n samples d out, mg_bootstrap n samples d = Some out -> length out = length samples /\
  forall s K Bs Es, nth_error out s = Some (K, Bs, Es) -> exists gs, nth_error samples s = Some gs /\ length Bs = length gs /\ length Es = length gs /\
    forall i g B T, nth_error gs i = Some g -> nth_error Bs i = Some B -> nth_error Es i = Some T ->
      (forall a b, arrow B a b -> before K a b) /\ acyclic (arrow B) /\
      forall from to, (before K from to -> T to from = mg_effect n g B from to) /\ (~ before K from to -> T to from = 0).
Proof.
  intros n samples d out H. split; [now apply (bootstrap_length n samples d)|]. intros s K Bs Es E. destruct (bootstrap_at n samples d out s K Bs Es H E) as (gs & d0 & d1 & H1 & H2 & -> & _).
  destruct (C174_common_order _ _ _ _ _ H2) as (m & _ & HP & HL & HB & _). assert (ND : NoDup K) by now apply perm_NoDup in HP.
  exists gs. split; [exact H1|]. split; [exact HL|]. split; [rewrite map_length, combine_length; lia|]. intros i g B T Hg HBi HT.
  assert (I : In B Bs) by (apply nth_error_In in HBi; exact HBi). split; [now apply HB|]. split; [apply (rank_acyclic' _ (pos K)); intros a b Q; apply before_pos; auto; now apply (HB B)|].
  assert (EC : nth_error (combine gs Bs) i = Some (g, B)).
  { clear - Hg HBi. revert gs Bs Hg HBi. induction i as [|i IH]; intros [|x gs] [|y Bs]; cbn; intros; try discriminate; [congruence|]. now apply IH. }
  rewrite nth_error_map, EC in HT. cbn in HT. injection HT as <-. intros from to. split; intros Q; [now apply effects_in|now apply effects_out].
Qed.
(** The estimate: the coefficient of the cause, the first one, in the regression of the effect on the cause and on its parents (in increasing order). *)
Theorem C176_effect_regression : forall n g B from to, exists ps, mg_effect n g B from to = hd 0 (g_lasso g (from :: ps) to) /\ StronglySorted lt ps /\
  forall j, In j ps <-> (j < n)%nat /\ B from j <> 0.
Proof.
  intros n g B from to. exists (filter (fun j => 0 <? Z.abs (B from j)) (seq 0 n)). split; [unfold mg_effect; now destruct (g_lasso _ _ _)|]. split.
  - assert (G : forall k a, StronglySorted lt (filter (fun j => 0 <? Z.abs (B from j)) (seq a k)) /\ forall x, In x (filter (fun j => 0 <? Z.abs (B from j)) (seq a k)) -> (a <= x)%nat); [|apply G].
    induction k as [|k IH]; intros a; cbn [seq filter]; [split; [constructor|intros x []]|]. destruct (IH (S a)) as [H1 H2]. destruct (0 <? Z.abs (B from a)).
    + split; [constructor; [exact H1|]; apply Forall_forall; intros x Hx; apply H2 in Hx; lia|]. intros x [<-|Hx]; [lia|apply H2 in Hx; lia].
    + split; [exact H1|]. intros x Hx. apply H2 in Hx. lia.
  - intros j. rewrite filter_In, in_seq0. split; intros [H1 H2]; split; try assumption; [apply Z.ltb_lt in H2; lia|apply Z.ltb_lt; lia].
Qed.
(** The first sample respects prior knowledge applied in the strong way. *)
Theorem C176_first_sample_knowledge : forall n pk gs r d K Bs Es out, dl_init n (Some pk) false = Some d -> (forall g, In g gs -> g_cols g = n) ->
  mg_bootstrap n (gs :: r) d = Some ((K, Bs, Es) :: out) -> forall a b, (a < n)%nat -> (b < n)%nat -> asks_before pk a b -> before K a b /\ forall B, In B Bs -> ~ reach1 (arrow B) b a.
Proof.
  intros n pk gs r d K Bs Es out EI HC H a b Ha Hb HA. destruct (bootstrap_at n (gs :: r) d _ 0 K Bs Es H eq_refl) as (g0 & d0 & d1 & H1 & H2 & _ & H3). cbn in H1. injection H1 as <-. rewrite (H3 eq_refl) in H2.
  destruct (C174_knowledge_respected n pk gs d K Bs d1 EI HC H2 a b Ha Hb HA) as (Q1 & Q2 & _). auto.
Qed.
(** The other samples need not: fitting consumes the knowledge about the order.  Two samples of the same data, the knowledge "0 has a path to 1", and
    the second sample puts 1 before 0 with an arrow from 1 to 0. *)
Definition pk01 : mat := fun i j => if Nat.eqb i 1 && Nat.eqb j 0 then 1 else -1.
Definition late : group := mkG 5 2 (fun _ _ _ _ i => Some (Z.of_nat i)) (fun ps _ => map (fun _ => 1) ps).
Theorem C176_later_samples_refuted : exists n pk gs d K1 B1 E1 K2 B2 E2, dl_init n (Some pk) false = Some d /\ asks_before pk 0%nat 1%nat /\ (forall g, In g gs -> g_cols g = n) /\
  mg_bootstrap n [gs; gs] d = Some [(K1, B1, E1); (K2, B2, E2)] /\ before K2 1%nat 0%nat /\ exists B, In B B2 /\ arrow B 1%nat 0%nat.
Proof.
  exists 2%nat, pk01, [late; late]. do 7 eexists. split; [reflexivity|]. split; [now left|]. split; [intros g [<-|[<-|[]]]; reflexivity|]. split; [reflexivity|].
  split; [exists [], [], []; reflexivity|]. eexists. split; [now left|]. unfold arrow. vm_compute. discriminate.
Qed.
Example C174_nonvacuous : exists d K Bs d', dl_init 2 (Some pk01) false = Some d /\ mg_fit [late; late] d = Some (K, Bs, d') /\ asks_before pk01 0 1 /\ exists B, In B Bs /\ arrow B 0%nat 1%nat.
Proof. do 4 eexists. split; [reflexivity|]. split; [reflexivity|]. split; [now left|]. eexists. split; [now left|]. unfold arrow. vm_compute. discriminate. Qed.
