(** The bootstrap loop, the table of total effects, the effects of get_paths, time series and longitudinal results. *)
From Verif Require Import Base UtilsModel GraphSpec BootModel BootSpec BootProofs BootProps BootMoreModel BootMoreSpec BootMoreProofs.
From Coq Require Import Permutation Sorted Lia.
Local Open Scope Z_scope.

(** ** C214: the bootstrap loop *)
(** One result per draw: the matrix of the model fitted to the draw; the effect of j on i is that model's estimate on the ORIGINAL data when j precedes i in
    its causal order, and zero otherwise. *)
Theorem C214_bootstrap : forall Data (fit : Data -> list nat * mat) estimate (X : Data) draws,
  length (bootstrap fit estimate X draws) = length draws /\
  forall k D, nth_error draws k = Some D -> exists A T, nth_error (bootstrap fit estimate X draws) k = Some (A, T) /\ A = snd (fit D) /\
    forall i j, (before (fst (fit D)) j i -> T i j = estimate (fit D) X j i) /\ (~ before (fst (fit D)) j i -> T i j = 0).
Proof.
  intros Data fit estimate X draws. unfold bootstrap. split; [apply map_length|]. intros k D E. eexists. eexists. split; [rewrite nth_error_map, E; reflexivity|]. split; [reflexivity|].
  intros i j. apply (order_effects_spec (estimate (fit D) X) (fst (fit D)) (fun _ _ => 0) i j).
Qed.
(** So two draws with the same model have the same effects, whatever the resampled data. *)
Theorem C214_data_independent : forall Data (fit : Data -> list nat * mat) estimate (X : Data) draws k k' D D' r r', nth_error draws k = Some D -> nth_error draws k' = Some D' -> fit D = fit D' ->
  nth_error (bootstrap fit estimate X draws) k = Some r -> nth_error (bootstrap fit estimate X draws) k' = Some r' -> r = r'.
Proof.
  intros Data fit estimate X draws k k' D D' r r' E E' F. unfold bootstrap. rewrite !nth_error_map, E, E'. cbn [option_map]. rewrite F. congruence.
Qed.
(** The effects are not re-estimated on the resampled data: a regression slope (here scaled by the number of pairs) through the origin of two points, on a draw of two
    copies of the first point. *)
Definition slope_fit (D : list (Z * Z)) : list nat * mat := ([0; 1]%nat, fun i j => match i, j with 1%nat, 0%nat => fold_left (fun s p => s + fst p * snd p) D 0 / fold_left (fun s p => s + fst p * fst p) D 0 | _, _ => 0 end).
Definition slope_estimate (model : list nat * mat) (D : list (Z * Z)) (from to : nat) : Z := fold_left (fun s p => s + fst p * snd p) D 0 / fold_left (fun s p => s + fst p * fst p) D 0.
Theorem C214_resampled_effects_refuted : exists (fit : list (Z * Z) -> list nat * mat) estimate X D A T, (forall p, In p D -> In p X) /\ length D = length X /\
  bootstrap fit estimate X [D] = [(A, T)] /\ before (fst (fit D)) 0 1 /\ estimate (fit D) D 0%nat 1%nat = 1 /\ A 1%nat 0%nat = 1 /\ T 1%nat 0%nat = 2.
Proof.
  exists slope_fit, slope_estimate, [(1, 1); (1, 3)], [(1, 1); (1, 1)]. eexists. eexists. split; [intros p [<-|[<-|[]]]; now left|]. split; [reflexivity|]. split; [reflexivity|]. split; [exists [], [], []; reflexivity|]. repeat split; reflexivity.
Qed.
(** The model is left fitted to the last draw. *)
Theorem C214_model_after : forall Data (fit : Data -> list nat * mat) draws D before0, left_model fit (draws ++ [D]) before0 = fit D.
Proof. intros. unfold left_model. rewrite fold_left_app. reflexivity. Qed.
(** MultiGroupDirectLiNGAM: the effects of group g are estimated from the resampled data of the groups. *)
Theorem C214_multi_group : forall Data (fit : list Data -> list nat * list mat) estimate draws g,
  length (multi_bootstrap fit estimate draws g) = length draws /\
  forall k D, nth_error draws k = Some D -> exists A T, nth_error (multi_bootstrap fit estimate draws g) k = Some (A, T) /\ A = nth g (snd (fit D)) (fun _ _ => 0) /\
    forall i j, (before (fst (fit D)) j i -> T i j = nth g (estimate (fit D) D j i) 0) /\ (~ before (fst (fit D)) j i -> T i j = 0).
Proof.
  intros Data fit estimate draws g. unfold multi_bootstrap. split; [apply map_length|]. intros k D E. eexists. eexists. split; [rewrite nth_error_map, E; reflexivity|]. split; [reflexivity|].
  intros i j. apply (order_effects_spec (fun from to => nth g (estimate (fit D) D from to) 0) (fst (fit D)) (fun _ _ => 0) i j).
Qed.

(** ** C215: the table of total effects *)
(** Each pair with an effect above the threshold in some sample is listed once, with the number of samples above the threshold (its probability is this number over the
    number of samples), most probable first, and with the median of its effects over ALL the samples where the effect is not zero. *)
Theorem C215_total_causal_effects : forall argsort, sorts argsort -> forall r c samples m,
  (total_causal_effects argsort r c samples m = None <-> rejected m) /\
  forall l, total_causal_effects argsort r c samples m = Some l ->
    NoDup (map (fun x => fst (fst x)) l) /\
    (forall i j e k, In (i, j, e, k) l -> (i < r)%nat /\ (j < c)%nat /\ k = Z.of_nat (holds_in (fun B : mat => level m <? Z.abs (B i j)) samples) /\ 0 < k /\
       twice_median (filter (fun x => negb (x =? 0)) (map (fun B : mat => B i j) samples)) e) /\
    (forall i j, (i < r)%nat -> (j < c)%nat -> (exists B, In B samples /\ level m < Z.abs (B i j)) -> In (i, j) (map (fun x => fst (fst x)) l)) /\
    StronglySorted (fun x y => snd y <= snd x) l.
Proof.
  intros argsort HS r c samples m. unfold total_causal_effects.
  destruct (threshold_cases m) as [[-> R2]|[-> R2]]; [split; [tauto|discriminate]|]. split; [split; [discriminate|tauto]|]. intros l E. injection E as <-.
  set (thr := level m). set (dirs := filter (fun d => 0 <? above thr samples d) (positions r c)). set (eff := fun d : nat * nat => median2 (filter (fun e => 0 <? Z.abs e) (map (fun B : mat => B (fst d) (snd d)) samples))).
  rewrite map_map. destruct (reorder_argsort argsort (fun d => - above thr samples d) dirs HS) as [HP HSo]. set (ord := argsort (map (fun d => - above thr samples d) dirs)) in *.
  rewrite !reorder_map. set (ds := reorder ord dirs) in *. rewrite (combine_map3 eff (above thr samples) ds).
  assert (T0 : 0 <= thr). { unfold thr. destruct m as [z|]; cbn; [|lia]. destruct (Z.le_gt_cases z 0) as [L|L]; [|lia]. exfalso. apply R2. exists z. auto. }
  assert (Iff : forall i j, In (i, j) ds <-> (i < r)%nat /\ (j < c)%nat /\ 0 < above thr samples (i, j)).
  { intros i j. split; [intros H; apply (Permutation_in _ HP) in H|intros H; apply (Permutation_in _ (Permutation_sym HP))]; unfold dirs in *; rewrite filter_In, in_positions, Z.ltb_lt in *; tauto. }
  split; [|split; [|split]].
  - rewrite map_map. cbn [fst]. rewrite map_id. apply (Permutation_NoDup (Permutation_sym HP)), NoDup_filter, positions_NoDup.
  - intros i j e k H. apply in_map_iff in H. destruct H as ([i' j'] & Q & H). injection Q as -> -> <- <-. apply Iff in H. destruct H as (Hi & Hj & H0). split; [exact Hi|]. split; [exact Hj|]. split; [apply (above_count thr samples (i, j))|]. split; [exact H0|].
    unfold eff. cbn [fst snd]. rewrite (filter_ext (fun e => 0 <? Z.abs e) (fun x => negb (x =? 0))) by (intros x; destruct (Z.ltb_spec 0 (Z.abs x)), (Z.eqb_spec x 0); cbn; try reflexivity; lia).
    apply median2_spec. rewrite above_count in H0. cbn [fst snd] in H0. unfold holds_in in H0. destruct (filter (fun B : mat => thr <? Z.abs (B i j)) samples) as [|B f] eqn:Q; [cbn in H0; lia|].
    assert (HB : In B (filter (fun B : mat => thr <? Z.abs (B i j)) samples)) by (rewrite Q; now left). apply filter_In in HB. destruct HB as [HB L]. apply Z.ltb_lt in L.
    intros N. assert (K : In (B i j) (filter (fun x => negb (x =? 0)) (map (fun B : mat => B i j) samples))) by (apply filter_In; split; [apply in_map_iff; exists B; auto|destruct (Z.eqb_spec (B i j) 0); [lia|reflexivity]]). rewrite N in K. destruct K.
  - intros i j Hi Hj (B & HB & L). rewrite map_map. cbn [fst]. rewrite map_id. apply Iff. split; [exact Hi|]. split; [exact Hj|]. rewrite above_count. cbn [fst snd]. unfold holds_in.
    assert (K : In B (filter (fun B : mat => thr <? Z.abs (B i j)) samples)) by (apply filter_In; split; [exact HB|now apply Z.ltb_lt]). destruct (filter (fun B : mat => thr <? Z.abs (B i j)) samples); [destruct K|cbn [length]; lia].
  - eapply StronglySorted_map; [|exact HSo]. intros a b _ _ L. cbn beta in L. cbn [snd]. lia.
Qed.
(** The docstring excludes effects below the threshold; a listed effect can be: of the effects 10, 1, 1 with threshold 5 the pair is listed with the effect 1 (here doubled)
    and the probability 1/3, although the median of the effects above the threshold is 10. *)
Definition effect_10 (z : Z) : mat := fun i j => match i, j with 1%nat, 0%nat => z | _, _ => 0 end.
Theorem C215_effects_above_threshold_refuted : forall argsort, sorts argsort -> exists samples min l i j e k, total_causal_effects argsort 2 2 samples (Some min) = Some l /\ In (i, j, e, k) l /\
  Z.abs e < 2 * min /\ ~ twice_median (filter (fun x => min <? Z.abs x) (map (fun B : mat => B i j) samples)) e.
Proof.
  intros argsort HS. exists [effect_10 10; effect_10 1; effect_10 1], 5. destruct (C215_total_causal_effects argsort HS 2 2 [effect_10 10; effect_10 1; effect_10 1] (Some 5)) as [H1 H2].
  destruct (total_causal_effects argsort 2 2 [effect_10 10; effect_10 1; effect_10 1] (Some 5)) as [l|] eqn:E; [|exfalso; destruct (proj1 H1 eq_refl) as (z & Q & L); injection Q as <-; lia].
  destruct (H2 l eq_refl) as (_ & HI & HC & _). assert (K : In (1, 0)%nat (map (fun x => fst (fst x)) l)) by (apply HC; [lia|lia|exists (effect_10 10); split; [now left|cbn; lia]]).
  apply in_map_iff in K. destruct K as ([[[i j] e] k] & Q & K). cbn [fst] in Q. injection Q as -> ->. exists l, 1%nat, 0%nat, e, k. split; [reflexivity|]. split; [exact K|]. destruct (HI _ _ _ _ K) as (_ & _ & _ & _ & s & HP & HSo & HM). cbn in HP.
  assert (He : e = 2).
  { assert (C10 : In 10 s /\ In 1 s) by (split; apply (Permutation_in _ (Permutation_sym HP)); cbn; auto). assert (Iz : forall z, In z s -> z = 10 \/ z = 1) by (intros z Hz; apply (Permutation_in _ HP) in Hz; destruct Hz as [<-|[<-|[<-|[]]]]; auto).
    assert (CO : count_occ Z.eq_dec s 10 = 1%nat) by (rewrite (proj1 (Permutation_count_occ Z.eq_dec _ _) HP); reflexivity).
    pose proof (Permutation_length HP) as LL. cbn in LL. destruct s as [|a [|b [|c [|d s]]]]; try (cbn in LL; discriminate).
    inversion HSo as [|? ? S1 F1]; subst. inversion S1 as [|? ? S2 F2]; subst. rewrite Forall_forall in F1, F2. pose proof (F1 b ltac:(cbn; auto)). pose proof (F2 c ltac:(cbn; auto)).
    assert (Hb : b = 1). { destruct (Iz b ltac:(cbn; auto)) as [Hb|]; [rewrite Hb in *|assumption]. destruct (Iz c ltac:(cbn; auto)) as [-> | ->]; [|lia]. exfalso. cbn in CO. destruct (Z.eq_dec a 10); discriminate. }
    destruct HM as [(u & x & v & Q & L & ->)|(u & x & y & v & Q & L & ->)].
    - apply (f_equal (@length Z)) in Q as Q'. rewrite app_length in Q'. cbn in Q'. destruct u as [|u1 [|u2 u]]; cbn in L, Q'; try lia. cbn in Q. injection Q as _ -> _. lia.
    - apply (f_equal (@length Z)) in Q as Q'. rewrite app_length in Q'. cbn in Q'. lia. }
  subst e. split; [lia|]. intros (s' & HP' & _ & HM'). cbn in HP'. apply Permutation_sym, Permutation_length_1_inv in HP'. subst s'. destruct HM' as [(u & x & v & Q & L & M)|(u & x & y & v & Q & L & M)].
  - destruct u as [|u1 u]; cbn in Q; [injection Q as <- _; lia|injection Q as _ Q; destruct u; discriminate].
  - destruct u as [|u1 u]; cbn in Q; [discriminate|injection Q as _ Q; destruct u; discriminate].
Qed.

(** ** C216: the effects of the paths *)
(** The effect of a listed path is the median, over the samples that have the path, of the product of the coefficients along it. *)
Theorem C216_path_effects : forall argsort, sorts argsort -> forall n samples from to min, (from < n)%nat -> (to < n)%nat -> from <> to -> (forall B, In B samples -> acyclic (strong n B 0)) ->
  exists fuel l isp, (forall f, (fuel <= f)%nat -> get_paths_effects f argsort n samples from to min = Ret l) /\
    (forall B p, isp B p = true <-> path_from (strong n B 0) from to p) /\ ranking (fun p => holds_in (fun B => isp B p) samples) None (map (fun x => (fst (fst x), snd x)) l) /\
    forall p e k, In (p, e, k) l -> twice_median (map (fun B => product_along B p) (filter (fun B => isp B p) samples)) e.
Proof.
  intros argsort HS n samples from to min Hf Ht N HA.
  assert (G : exists fuel ps es, (forall f, (fuel <= f)%nat -> collect_effects f n from to samples = Ret (ps, es)) /\ length ps = length es /\ (forall p, count_occ nlist_dec ps p = holds_in (fun B => pathb n B from to p) samples) /\
    forall p, map snd (filter (fun x => if nlist_dec (fst x) p then true else false) (combine ps es)) = map (fun B => product_along B p) (filter (fun B => pathb n B from to p) samples)).
  { induction samples as [|B s IH]; [exists 0%nat, [], []; auto|]. destruct IH as (f1 & q & fs & E1 & L1 & C1 & M1); [intros B' H; apply HA; now right|].
    destruct (C124_find_all_paths n B from to 0 Hf Ht N (HA B (or_introl eq_refl))) as (f2 & ps & E2 & ND & HP). exists (Nat.max f1 f2), (ps ++ q), (map (product_along B) ps ++ fs). split; [|split; [|split]].
    - intros f Hfu. cbn [collect_effects]. rewrite E2 by lia. rewrite E1 by lia. reflexivity.
    - rewrite !app_length, map_length. now rewrite L1.
    - intros p. rewrite count_occ_app, C1. unfold holds_in. cbn [filter]. specialize (HP p). rewrite <- pathb_iff in HP. destruct (pathb n B from to p) eqn:Q.
      + pose proof (proj1 (NoDup_count_occ nlist_dec ps) ND p). pose proof (proj1 (count_occ_In nlist_dec ps p) (proj2 HP eq_refl)). cbn [length]. lia.
      + assert (NI : ~ In p ps) by (intros I; apply HP in I; discriminate). apply (count_occ_not_In nlist_dec) in NI. lia.
    - intros p. assert (CA : combine (ps ++ q) (map (product_along B) ps ++ fs) = combine ps (map (product_along B) ps) ++ combine q fs) by (clear; induction ps as [|x ps IH]; [reflexivity|]; cbn; now rewrite IH).
      rewrite CA, filter_app, map_app, M1. specialize (HP p). rewrite <- pathb_iff in HP. cbn [filter].
      assert (Z0 : forall l, ~ In p l -> filter (fun x : list nat * Z => if nlist_dec (fst x) p then true else false) (combine l (map (product_along B) l)) = []).
      { clear. induction l as [|x l IH]; intros NI; [reflexivity|]. cbn [combine map filter fst]. destruct (nlist_dec x p) as [->|_]; [exfalso; apply NI; now left|]. apply IH. intros I. apply NI. now right. }
      destruct (pathb n B from to p) eqn:Q; cbn [map].
      + assert (I : In p ps) by now apply HP. apply in_split in I. destruct I as (a & b & ->). apply NoDup_remove_2 in ND. rewrite in_app_iff in ND.
        assert (CB : combine (a ++ p :: b) (map (product_along B) (a ++ p :: b)) = combine a (map (product_along B) a) ++ (p, product_along B p) :: combine b (map (product_along B) b)) by (clear; induction a as [|x a IH]; [reflexivity|]; cbn; now rewrite IH).
        rewrite CB, filter_app. cbn [filter fst]. rewrite !Z0 by tauto. destruct (nlist_dec p p); [reflexivity|contradiction].
      + rewrite Z0; [reflexivity|]. intros I. apply HP in I. discriminate. }
  destruct G as (fuel & ps & es & E & L & C & M). exists fuel, (map (fun x => (fst x, path_median ps es (fst x), snd x)) (tally nlist_dec argsort ps None)), (fun B p => pathb n B from to p).
  pose proof (tally_ranking nlist_dec argsort HS ps None) as HR. split; [intros f Hfu; unfold get_paths_effects; now rewrite E|]. split; [intros B p; apply pathb_iff|]. split.
  - rewrite map_map. cbn [fst snd]. rewrite (map_ext _ (fun x => x)) by (intros [a b]; reflexivity). rewrite map_id. eapply ranking_ext; [|exact HR]. exact C.
  - intros p e k H. apply in_map_iff in H. destruct H as ([p' k'] & Q & H). cbn [fst snd] in Q. injection Q as -> <- ->. destruct HR as (_ & HR & _). destruct (HR _ _ H) as [-> H0]. rewrite C in H0. unfold path_median. rewrite M. apply median2_spec.
    unfold holds_in in H0. intros K. apply (f_equal (@length Z)) in K. rewrite map_length in K. cbn [length] in K. lia.
Qed.

(** ** C217: longitudinal counts *)
Definition has_lagged (p lags t : nat) (thr : Z) (split : bool) (d : nat * nat * Z) (T : tensor) : bool :=
  let '(i, c, s) := d in Nat.ltb i p && Nat.ltb c (lags * p) && (thr <? Z.abs (T t (c / p)%nat i (c mod p)%nat)) && (s =? if split then Z.sgn (T t (c / p)%nat i (c mod p)%nat) else 0).
Lemma in_rect_keys r c thr split B d : In d (rect_keys r c thr split B) <-> let '(i, j, s) := d in (i < r)%nat /\ (j < c)%nat /\ thr < Z.abs (B i j) /\ s = if split then Z.sgn (B i j) else 0.
Proof.
  destruct d as [[i j] s]. unfold rect_keys. rewrite in_flat_map. split.
  - intros ([a b] & Hp & K). cbn [fst snd] in K. unfold over in K. destruct (Z.ltb_spec thr (Z.abs (B a b))) as [L|L]; [|destruct K]. destruct K as [K|[]]. injection K as -> -> <-. apply in_positions in Hp. tauto.
  - intros (Hi & Hj & L & ->). exists (i, j). split; [now apply in_positions|]. cbn [fst snd]. unfold over. apply Z.ltb_lt in L. rewrite L. now left.
Qed.
Lemma rect_keys_NoDup r c thr split B : NoDup (rect_keys r c thr split B).
Proof.
  apply NoDup_flat_map; [apply positions_NoDup| |].
  - intros d _. destruct (over thr B (fst d) (snd d)); repeat constructor. auto.
  - intros [a b] [a' b'] x _ _ H1 H2. cbn [fst snd] in *. destruct (over thr B a b); [|destruct H1]. destruct (over thr B a' b'); [|destruct H2]. destruct H1 as [<-|[]], H2 as [Q|[]]. now injection Q as -> ->.
Qed.
(** At each time point, the directions found in the matrices of that time point: the column lag * p + j stands for variable j, [lag] steps earlier. *)
Theorem C217_longitudinal_counts : forall argsort, sorts argsort -> forall p lags steps samples top m split,
  (long_direction_counts argsort p lags steps samples top m split = None <-> rejected top \/ rejected m) /\
  forall l, long_direction_counts argsort p lags steps samples top m split = Some l -> length l = steps /\
    forall t lt, nth_error l t = Some lt -> ranking (fun d => holds_in (has_lagged p lags t (level m) split d) samples) (option_map Z.to_nat top) lt.
Proof.
  intros argsort HS p lags steps samples top m split. unfold long_direction_counts.
  destruct (top_cases top) as [[-> R1]|[-> R1]]; [split; [tauto|discriminate]|]. destruct (threshold_cases m) as [[-> R2]|[-> R2]]; [split; [tauto|discriminate]|].
  split; [split; [discriminate|tauto]|]. intros l E. injection E as <-. split; [now rewrite map_length, seq_length|]. intros t lt Ht. rewrite nth_error_map in Ht.
  destruct (nth_error (seq 0 steps) t) as [t'|] eqn:Q; [|discriminate]. injection Ht as <-. assert (t' = t). { pose proof (nth_error_nth _ _ 0%nat Q) as K. assert (t < length (seq 0 steps))%nat by (apply nth_error_Some; congruence). rewrite seq_length in *. rewrite seq_nth in K by assumption. lia. } subst t'.
  eapply ranking_ext; [|apply tally_ranking, HS]. intros d. cbn beta. rewrite count_flat by (intros; apply rect_keys_NoDup). apply holds_ext. intros T _. pose proof (in_rect_keys p (lags * p) (level m) split (joined_at p T t) d) as K.
  destruct d as [[i c] s]. unfold joined_at in K. unfold has_lagged.
  assert (K' : In (i, c, s) (rect_keys p (lags * p) (level m) split (joined_at p T t)) <-> (Nat.ltb i p && Nat.ltb c (lags * p) && (level m <? Z.abs (T t (c / p)%nat i (c mod p)%nat)) && (s =? if split then Z.sgn (T t (c / p)%nat i (c mod p)%nat) else 0))%bool = true)
    by (rewrite K, !andb_true_iff, !Nat.ltb_lt, Z.ltb_lt, Z.eqb_eq; tauto). clear K.
  destruct (in_dec dir_dec (i, c, s) _) as [I|I]; [symmetry; now apply K'|]. destruct (_ && _)%bool eqn:Z0; [exfalso; apply I, K'; reflexivity|reflexivity].
Qed.
Lemma column p lag j : (j < p)%nat -> ((lag * p + j) / p = lag)%nat /\ ((lag * p + j) mod p = j)%nat.
Proof. intros H. split; [symmetry; apply Nat.div_unique with j; lia|symmetry; apply Nat.mod_unique with lag; lia]. Qed.
(** What the columns mean. *)
Theorem C217_columns : forall p lags t thr split T i lag j s, (j < p)%nat ->
  has_lagged p lags t thr split (i, (lag * p + j)%nat, s) T = true <-> (i < p)%nat /\ (lag < lags)%nat /\ thr < Z.abs (T t lag i j) /\ s = (if split then Z.sgn (T t lag i j) else 0).
Proof.
  intros p lags t thr split T i lag j s Hj. unfold has_lagged. destruct (column p lag j Hj) as [-> ->]. rewrite !andb_true_iff, !Nat.ltb_lt, Z.ltb_lt, Z.eqb_eq.
  assert ((lag * p + j < lags * p)%nat <-> (lag < lags)%nat) by nia. tauto.
Qed.
(** ** C218: probability blocks *)
(** For time series the joined matrix is split into one block per lag: the entry (i, j) of block b counts the samples with an arrow from variable j, b steps earlier, to i. *)
Theorem C218_blocks : forall n k samples m,
  (probability_blocks n k samples m = None <-> rejected m) /\
  forall l, probability_blocks n k samples m = Some l -> length l = k /\ forall b P, nth_error l b = Some P ->
    forall i j, P i j = Z.of_nat (holds_in (fun B : mat => level m <? Z.abs (B i (b * n + j)%nat)) samples).
Proof.
  intros n k samples m. unfold probability_blocks. destruct (threshold_cases m) as [[-> R2]|[-> R2]]; [split; [tauto|discriminate]|]. split; [split; [discriminate|tauto]|].
  intros l E. injection E as <-. split; [now rewrite map_length, seq_length|]. intros b P H i j. rewrite nth_error_map in H. destruct (nth_error (seq 0 k) b) as [b'|] eqn:Q; [|discriminate]. injection H as <-.
  assert (b' = b). { pose proof (nth_error_nth _ _ 0%nat Q) as K. assert (b < length (seq 0 k))%nat by (apply nth_error_Some; congruence). rewrite seq_length in *. rewrite seq_nth in K by assumption. lia. } subst b'.
  apply (above_count (level m) samples (i, (b * n + j)%nat)).
Qed.
Theorem C218_longitudinal : forall samples m, (long_probabilities samples m = None <-> rejected m) /\
  forall P, long_probabilities samples m = Some P -> forall t lag i j, P t lag i j = Z.of_nat (holds_in (fun T : tensor => level m <? Z.abs (T t lag i j)) samples).
Proof.
  intros samples m. unfold long_probabilities. destruct (threshold_cases m) as [[-> R2]|[-> R2]]; [split; [tauto|discriminate]|]. split; [split; [discriminate|tauto]|].
  intros P E t lag i j. injection E as <-. rewrite above_count. cbn [fst snd]. f_equal. unfold holds_in. induction samples as [|T s IH]; [reflexivity|]. cbn [map filter]. destruct (level m <? Z.abs (T t lag i j)); cbn [length]; now rewrite IH.
Qed.

(** ** Concrete cases *)
Example C215_ex : total_causal_effects isort 2 2 [effect_10 10; effect_10 1; effect_10 4] (Some 3) = Some [((1, 0)%nat, 8, 2)].
Proof. vm_compute. reflexivity. Qed.
Example C216_ex : get_paths_effects 100 isort 4 [diamond; diamond; one_B] 0 3 0 = Ret [([0; 1; 3]%nat, 20, 2%nat); ([0; 2; 3]%nat, -42, 2%nat)].
Proof. vm_compute. reflexivity. Qed.
Example C217_ex : long_direction_counts isort 2 2 2 [fun t l => if Nat.eqb t l then effect_10 (-3) else fun _ _ => 0] None None true = Some [[((1, 0)%nat, -1, 1%nat)]; [((1, 2)%nat, -1, 1%nat)]].
Proof. vm_compute. reflexivity. Qed.
