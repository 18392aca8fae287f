(** C232-C234: the measures of DirectLiNGAM. *)
From Verif Require Import Base UtilsModel UtilsProofs BICModel BICProofs EffectModel EffectProofs ChisqProps KCIProofs LingamModel LingamProofs LingamProps DLModel DLProofs.
From Coq Require Import Reals Psatz Permutation.
Local Open Scope R_scope.

(** * C232: units *)
Theorem C232_units : forall lsv kind n p d X a b, of_entries lsv -> (1 <= n)%nat -> (forall i, a i <> 0) ->
  fit_order lsv kind n p d (fun i s => a i * X i s + b i) = fit_order lsv kind n p d X.
Proof.
  intros lsv kind n p d X a b HL Hn Ha. symmetry. assert (A : forall k, affine n (Some (X k)) (Some (fun s => a k * X k s + b k))) by (intros k; exists (a k), (b k); split; [apply Ha|reflexivity]).
  unfold fit_order. destruct kind.
  - apply (fit_loop_rel n (pw_score n) (affine n)); [intros; now apply residual_affine|intros; now apply pw_score_affine|exact A].
  - apply (fit_loop_rel n (kernel_score lsv n) (signed n)); [intros; now apply residual_signed|intros; now apply kernel_score_signed|]. intros k. now apply scale_affine.
Qed.
(** * C233: the measure is one of the measures C115-C117 speak of, and what the pairwise measure is *)
Theorem C233_instance : forall lsv kind n p d X, exists score, fit_order lsv kind n p d X = order_loop p score d [] (seq 0 p).
Proof. intros lsv kind n p d X. unfold fit_order. destruct kind; eexists; apply fit_loop_scorer; reflexivity. Qed.
(** Without knowledge: every variable once, and each one chosen had the greatest measure among those that remained, in the data as they were then. *)
Theorem C233_no_knowledge : forall lsv kind n p soft X, exists K d', fit_order lsv kind n p (mkDL None soft []) X = Some (K, d') /\ Permutation K (seq 0 p) /\
  let ms := match kind with Pwling => pw_score n | KernelMeasure => kernel_score lsv n end in
  let X0 := fun i => match kind with Pwling => Some (X i) | KernelMeasure => scale n (Some (X i)) end in
  forall L1 m L2, K = L1 ++ m :: L2 -> let st := after n p X0 L1 in
    (forall i, In i (snd st) <-> (i < p)%nat /\ ~ In i L1) /\ forall i, In i (snd st) -> rbeats (ms (fst st) (snd st) (snd st) [] i) (ms (fst st) (snd st) (snd st) [] m) = false.
Proof.
  intros lsv kind n p soft X. set (ms := match kind with Pwling => pw_score n | KernelMeasure => kernel_score lsv n end).
  set (X0 := fun i => match kind with Pwling => Some (X i) | KernelMeasure => scale n (Some (X i)) end).
  destruct (C115_no_knowledge p (rank_scorer n p ms X0) (fun _ _ => []) soft) as (d & K & B & d' & Ed & EF & H). cbn [dl_init] in Ed. injection Ed as <-.
  pose proof (C115_order_is_permutation _ _ _ _ _ _ _ EF) as (HP & _ & _).
  unfold dl_fit in EF. destruct (order_loop p (rank_scorer n p ms X0) (mkDL None soft []) [] (seq 0 p)) as [[K0 d0]|] eqn:EO; [|discriminate]. injection EF as <- <- <-.
  exists K0, d0. split; [|split; [exact HP|]].
  { rewrite <- EO, <- (fit_loop_scorer n p ms X0 p (mkDL None soft []) X0 [] (seq 0 p) eq_refl). unfold fit_order, ms, X0. destruct kind; reflexivity. }
  cbv zeta. intros L1 m L2 EK. assert (ES : snd (after n p X0 L1) = fold_left others L1 (seq 0 p)).
  { unfold after. generalize (seq 0 p). generalize X0. clear. induction L1 as [|x L IH]; intros Y U; [reflexivity|]. cbn [fold_left]. apply IH. }
  specialize (H L1 m L2 EK). cbv zeta in H. destruct H as [H1 H2]. rewrite ES. split; [exact H1|]. intros i Hi. specialize (H2 i Hi). unfold rank_scorer in H2. cbv zeta in H2.
  rewrite rank_beats in H2; [exact H2|now apply in_map|]. apply in_map. apply H1. split.
  - assert (Q : In m (seq 0 p)) by (eapply Permutation_in; [exact HP|]; rewrite EK; apply in_or_app; right; now left). apply in_seq in Q. lia.
  - assert (N : NoDup K0) by (eapply Permutation_NoDup; [symmetry; exact HP|apply seq_NoDup]). rewrite EK in N. apply NoDup_remove_2 in N. intros Q. apply N. apply in_or_app. now left.
Qed.
(** The approximation never exceeds the entropy of the standard normal distribution. *)
Theorem C233_entropy_below_normal : forall n u, entropy_of n u <= (1 + ln (2 * PI)) / 2.
Proof.
  intros n u. unfold entropy_of, k1, k2. set (a := (_ - gamma)). set (b := mean n _). pose proof (pow2_ge_0 a). pose proof (pow2_ge_0 b). lra.
Qed.
Lemma diff_swap n xi xj r q : diff_mutual_info n xj xi q r = option_map Ropp (diff_mutual_info n xi xj r q).
Proof. unfold diff_mutual_info. destruct (entropy n xj), (entropy n (over_std n r)), (entropy n xi), (entropy n (over_std n q)); cbn [option_map]; try reflexivity. f_equal. ring. Qed.
(** Of two variables at most one is charged for the pair. *)
Theorem C233_one_side_charged : forall n X Uc Vj i j, match pw_term n X Uc Vj i j, pw_term n X Uc Vj j i with
  | Some a, Some b => 0 <= a /\ 0 <= b /\ (a = 0 \/ b = 0) | None, None => True | _, _ => False end.
Proof.
  intros n X Uc Vj i j. unfold pw_term. cbv zeta. rewrite (diff_swap n (standardize n (X i)) (standardize n (X j))). set (d := diff_mutual_info _ _ _ _ _). destruct d as [d|]; cbn [option_map]; [|exact I].
  split; [apply pow2_ge_0|]. split; [apply pow2_ge_0|]. unfold Rmin. destruct (Rle_dec 0 d); [left; ring|]. right. destruct (Rle_dec 0 (- d)); [ring|lra].
Qed.
(** The columns compared by [diff_mutual_info] have mean 0 and variance 1; the residual that its entropy is taken of has variance 1 and is a multiple of the residual. *)
Theorem C233_standardized : forall n x u, (1 <= n)%nat ->
  (standardize n (Some x) = Some u -> mean n u = 0 /\ var n u = 1 /\ exists s, s > 0 /\ forall t, x t = mean n x + s * u t) /\
  (over_std n (Some x) = Some u -> var n u = 1 /\ exists s, s > 0 /\ forall t, x t = s * u t).
Proof.
  intros n x u Hn. split.
  - cbn [standardize]. destruct (Req_EM_T (var n x) 0) as [|V]; [discriminate|]. intros [= <-]. pose proof (var_pos n x V) as P.
    assert (E : forall t, (x t - mean n x) / sqrt (var n x) = / sqrt (var n x) * x t + - mean n x / sqrt (var n x)) by (intros; field; lra).
    split; [|split].
    + rewrite (mean_ext n _ (fun t => / sqrt (var n x) * x t + - mean n x / sqrt (var n x))) by (intros; apply E). rewrite mean_affine by exact Hn. field. lra.
    + rewrite (var_ext n _ (fun t => / sqrt (var n x) * x t + - mean n x / sqrt (var n x))) by (intros; apply E). rewrite var_affine by exact Hn.
      rewrite <- (sqrt_sqrt (var n x)) at 2 by apply var_nonneg. field. lra.
    + exists (sqrt (var n x)). split; [lra|]. intros t. field. lra.
  - cbn [over_std]. destruct (Req_EM_T (var n x) 0) as [|V]; [discriminate|]. intros [= <-]. pose proof (var_pos n x V) as P. split.
    + rewrite (var_ext n _ (fun t => / sqrt (var n x) * x t + 0)) by (intros; field; lra). rewrite var_affine by exact Hn.
      rewrite <- (sqrt_sqrt (var n x)) at 2 by apply var_nonneg. field. lra.
    + exists (sqrt (var n x)). split; [lra|]. intros t. field. lra.
Qed.
Theorem C233_score_nonpositive : forall n X U Uc Vj i r, pw_score n X U Uc Vj i = Some r -> r <= 0.
Proof.
  intros n X U Uc Vj i r. unfold pw_score. destruct (osum _) as [M|] eqn:E; [|discriminate]. cbn [option_map]. injection 1 as <-. enough (0 <= M) by lra. unfold osum in E. revert E.
  enough (G : forall l acc, 0 <= acc -> fold_left (fun s x => match s, x with Some a, Some b => Some (a + b) | _, _ => None end) (map (pw_term n X Uc Vj i) l) (Some acc) = Some M -> 0 <= M) by (apply G; lra).
  induction l as [|j l IH]; intros acc Ha; cbn [map fold_left]; [congruence|].
  pose proof (C233_one_side_charged n X Uc Vj i j) as P. destruct (pw_term n X Uc Vj i j) as [t|].
  - apply IH. destruct (pw_term n X Uc Vj j i); [lra|contradiction].
  - intros Q. exfalso. clear - Q. induction l as [|j l IH]; [discriminate|]. cbn [map fold_left] in Q. auto.
Qed.

(** * The order of the samples does not matter *)
Section Shuffled.
Variables (n : nat) (sg : nat -> nat).
Hypothesis SH : shuffle n sg.
Definition sh (x y : column) : Prop := match x, y with None, None => True | Some x, Some y => forall s, (s < n)%nat -> y s = x (sg s) | _, _ => False end.
Lemma sh_lt s : (s < n)%nat -> (sg s < n)%nat.
Proof. intros H. assert (Q : In (sg s) (seq 0 n)) by (eapply Permutation_in; [exact SH|]; apply in_map, in_seq; lia). apply in_seq in Q. lia. Qed.
Lemma mean_sh x y : (forall s, (s < n)%nat -> y s = x (sg s)) -> mean n y = mean n x.
Proof. intros E. unfold mean. f_equal. now apply (sh_sum' n sg SH). Qed.
Lemma var_sh x y : (forall s, (s < n)%nat -> y s = x (sg s)) -> var n y = var n x.
Proof. intros E. unfold var. apply mean_sh. intros s Hs. rewrite (E s Hs), (mean_sh x y E). reflexivity. Qed.
Lemma cov1_sh x y x' y' : (forall s, (s < n)%nat -> x' s = x (sg s)) -> (forall s, (s < n)%nat -> y' s = y (sg s)) -> cov1 n x' y' = cov1 n x y.
Proof. intros E F. unfold cov1. f_equal. apply (sh_sum' n sg SH). intros s Hs. rewrite (E s Hs), (F s Hs), (mean_sh x x' E), (mean_sh y y' F). reflexivity. Qed.
Lemma residual_sh x x' y y' : sh x x' -> sh y y' -> sh (residual n x y) (residual n x' y').
Proof.
  destruct x as [x|], x' as [x'|]; try contradiction; [|intros _ _; exact I]. destruct y as [y|], y' as [y'|]; try contradiction; [|intros _ _; exact I]. cbn [sh residual]. intros E F.
  rewrite (var_sh y y' F), (cov1_sh x y x' y' E F). destruct (Req_EM_T (var n y) 0); [exact I|]. cbn [sh]. intros s Hs. now rewrite (E s Hs), (F s Hs).
Qed.
Lemma standardize_sh x x' : sh x x' -> sh (standardize n x) (standardize n x').
Proof. destruct x as [x|], x' as [x'|]; try contradiction; [|intros _; exact I]. cbn [sh standardize]. intros E. rewrite (var_sh x x' E), (mean_sh x x' E). destruct (Req_EM_T (var n x) 0); [exact I|]. cbn [sh]. intros s Hs. now rewrite (E s Hs). Qed.
Lemma over_std_sh x x' : sh x x' -> sh (over_std n x) (over_std n x').
Proof. destruct x as [x|], x' as [x'|]; try contradiction; [|intros _; exact I]. cbn [sh over_std]. intros E. rewrite (var_sh x x' E). destruct (Req_EM_T (var n x) 0); [exact I|]. cbn [sh]. intros s Hs. now rewrite (E s Hs). Qed.
Lemma scale_sh x x' : sh x x' -> sh (scale n x) (scale n x').
Proof. destruct x as [x|], x' as [x'|]; try contradiction; [|intros _; exact I]. cbn [sh scale]. intros E. rewrite (var_sh x x' E), (mean_sh x x' E). intros s Hs. now rewrite (E s Hs). Qed.
Lemma entropy_sh x x' : sh x x' -> entropy n x' = entropy n x.
Proof.
  destruct x as [x|], x' as [x'|]; try contradiction; [|reflexivity]. cbn [sh entropy option_map]. intros E. f_equal. unfold entropy_of.
  rewrite (mean_sh (fun s => ln (cosh (x s))) (fun s => ln (cosh (x' s)))) by (intros s Hs; now rewrite (E s Hs)).
  rewrite (mean_sh (fun s => x s * exp (- x s ^ 2 / 2)) (fun s => x' s * exp (- x' s ^ 2 / 2))) by (intros s Hs; now rewrite (E s Hs)). reflexivity.
Qed.
Lemma pw_term_sh X X' Uc Vj i j : (forall k, sh (X k) (X' k)) -> pw_term n X Uc Vj i j = pw_term n X' Uc Vj i j.
Proof.
  intros A. pose proof (standardize_sh _ _ (A i)) as Si. pose proof (standardize_sh _ _ (A j)) as Sj. unfold pw_term. cbv zeta. f_equal. unfold diff_mutual_info.
  rewrite (entropy_sh _ _ Si), (entropy_sh _ _ Sj).
  rewrite (entropy_sh (over_std n (if memb i Vj && memb j Uc then standardize n (X i) else residual n (standardize n (X i)) (standardize n (X j)))) (over_std n (if memb i Vj && memb j Uc then standardize n (X' i) else residual n (standardize n (X' i)) (standardize n (X' j))))).
  2:{ apply over_std_sh. destruct (memb i Vj && memb j Uc); [exact Si|now apply residual_sh]. }
  rewrite (entropy_sh (over_std n (if memb j Vj && memb i Uc then standardize n (X j) else residual n (standardize n (X j)) (standardize n (X i)))) (over_std n (if memb j Vj && memb i Uc then standardize n (X' j) else residual n (standardize n (X' j)) (standardize n (X' i))))).
  2:{ apply over_std_sh. destruct (memb j Vj && memb i Uc); [exact Sj|now apply residual_sh]. }
  reflexivity.
Qed.
(** Both halves of a block matrix permuted alike. *)
Definition both (s : nat) : nat := if Nat.ltb s n then sg s else (n + sg (s - n))%nat.
Lemma both_shuffle : shuffle (2 * n) both.
Proof.
  unfold shuffle. replace (2 * n)%nat with (n + n)%nat by lia. rewrite seq_app, map_app. apply Permutation_app.
  - rewrite (map_ext_in _ sg); [exact SH|]. intros s Hs. apply in_seq in Hs. unfold both. now rewrite (proj2 (Nat.ltb_lt s n)) by lia.
  - replace (seq (0 + n) n) with (map (fun s => (n + s)%nat) (seq 0 n)).
    + rewrite map_map. rewrite (map_ext_in _ (fun s => (n + sg s)%nat)).
      * rewrite <- (map_map sg (fun s => (n + s)%nat)). now apply Permutation_map.
      * intros s Hs. unfold both. rewrite (proj2 (Nat.ltb_ge (n + s) n)) by lia. do 2 f_equal. lia.
    + rewrite Nat.add_0_l. clear. enough (G : forall m k, map (fun s => (n + s)%nat) (seq k m) = seq (n + k) m) by (rewrite G; f_equal; lia).
      induction m as [|m IH]; intros k; [reflexivity|]. cbn [seq map]. rewrite IH. do 2 f_equal. lia.
Qed.
Definition invariant (lsv : nat -> rmat -> R) : Prop := forall m pi A B, shuffle m pi -> (forall i j, (i < m)%nat -> (j < m)%nat -> B i j = A (pi i) (pi j)) -> lsv m B = lsv m A.
Lemma rel_mm A A' B B' : related n sg A' A -> related n sg B' B -> related n sg (mm n A' B') (mm n A B).
Proof. intros EA EB i j Hi Hj. unfold mm. apply (sh_sum' n sg SH). intros k Hk. rewrite EA, EB by assumption. reflexivity. Qed.
Lemma sg_eqb i j : (i < n)%nat -> (j < n)%nat -> Nat.eqb (sg i) (sg j) = Nat.eqb i j.
Proof.
  intros Hi Hj. destruct (Nat.eqb_spec i j) as [-> |N]; [apply Nat.eqb_refl|]. apply Nat.eqb_neq. intros E.
  assert (ND : NoDup (map sg (seq 0 n))) by (eapply Permutation_NoDup; [symmetry; exact SH|apply seq_NoDup]).
  apply N. assert (L : length (map sg (seq 0 n)) = n) by now rewrite map_length, seq_length.
  apply (proj1 (NoDup_nth (map sg (seq 0 n)) 0%nat) ND); rewrite ?L; try assumption.
  rewrite !(nth_indep _ 0%nat (sg 0%nat)) by (rewrite L; assumption). rewrite !map_nth, !seq_nth by assumption. exact E.
Qed.
Lemma rel_ridged kp A A' : related n sg A' A -> related n sg (ridged n kp A') (ridged n kp A).
Proof. intros E i j Hi Hj. unfold ridged. rewrite (E i j Hi Hj), (sg_eqb i j Hi Hj). reflexivity. Qed.
Lemma rel_rbf w x x' : (forall s, (s < n)%nat -> x' s = x (sg s)) -> related n sg (rbf w x') (rbf w x).
Proof. intros E i j Hi Hj. unfold rbf. rewrite (E i Hi), (E j Hj). reflexivity. Qed.
Lemma rel_zero : related n sg (fun _ _ => 0) (fun _ _ => 0). Proof. intros i j _ _. reflexivity. Qed.
Lemma rel_block A B C D A' B' C' D' : related n sg A' A -> related n sg B' B -> related n sg C' C -> related n sg D' D ->
  forall i j, (i < 2 * n)%nat -> (j < 2 * n)%nat -> block n A' B' C' D' i j = block n A B C D (both i) (both j).
Proof.
  intros EA EB EC ED i j Hi Hj. unfold block, both.
  assert (T : forall s, (n <= s)%nat -> (s < 2 * n)%nat -> (n + sg (s - n) <? n)%nat = false /\ (n + sg (s - n) - n = sg (s - n))%nat) by (intros s H1 H2; split; [apply Nat.ltb_ge; lia|lia]).
  destruct (Nat.ltb_spec i n) as [Li|Li], (Nat.ltb_spec j n) as [Lj|Lj]; rewrite ?(proj2 (Nat.ltb_lt _ _) (sh_lt i Li)), ?(proj2 (Nat.ltb_lt _ _) (sh_lt j Lj)), ?(proj1 (T i Li Hi)), ?(proj2 (T i Li Hi)), ?(proj1 (T j Lj Hj)), ?(proj2 (T j Lj Hj));
    [apply EA|apply EB|apply EC|apply ED]; lia.
Qed.
Lemma kernel_term_sh lsv X X' Uc Vj j i : invariant lsv -> (forall k, sh (X k) (X' k)) -> kernel_term lsv n X Uc Vj j i = kernel_term lsv n X' Uc Vj j i.
Proof.
  intros L A. unfold kernel_term. destruct (if Nat.ltb 1000 n then _ else _) as [kp w]. cbv zeta. set (r := if _ && _ then X i else _). set (r' := if _ && _ then X' i else _).
  assert (Sr : sh r r') by (unfold r, r'; destruct (_ && _); [apply A|now apply residual_sh]). specialize (A j). destruct (X j) as [x|], (X' j) as [x'|]; try contradiction; [|reflexivity].
  destruct r as [y|], r' as [y'|]; try contradiction; [|reflexivity]. f_equal. cbn [sh] in A, Sr. unfold mutual_information. cbv zeta. f_equal.
  assert (E1 := rel_rbf w x x' A). assert (E2 := rel_rbf w y y' Sr).
  f_equal; symmetry; apply (L _ both _ _ both_shuffle); apply rel_block; try apply rel_zero; apply rel_mm; try apply rel_ridged; assumption.
Qed.
End Shuffled.
(** [lsv] as a function of the singular values: the same for rows and columns permuted alike. *)
Theorem C233_sample_order : forall lsv kind n p d X sg, invariant lsv -> shuffle n sg -> fit_order lsv kind n p d (fun i s => X i (sg s)) = fit_order lsv kind n p d X.
Proof.
  intros lsv kind n p d X sg HL SH. symmetry. assert (A : forall k, sh n sg (Some (X k)) (Some (fun s => X k (sg s)))) by (intros k s _; reflexivity). unfold fit_order. destruct kind.
  - apply (fit_loop_rel n (pw_score n) (sh n sg)); [intros; now apply residual_sh| |exact A]. intros Y Y' U Uc Vj i HY. unfold pw_score. do 2 f_equal. apply map_ext. intros j. now apply (pw_term_sh n sg SH).
  - apply (fit_loop_rel n (kernel_score lsv n) (sh n sg)); [intros; now apply residual_sh| |intros k; now apply scale_sh]. intros Y Y' U Uc Vj i HY. unfold kernel_score. do 2 f_equal. apply map_ext. intros j. now apply (kernel_term_sh n sg SH).
Qed.
(** The contracts of the singular values are met by other functions of the matrix as well: the trace. *)
Example contracts_met : let lsv := fun n (A : rmat) => rsum (fun i => A i i) (seq 0 n) in of_entries lsv /\ invariant lsv.
Proof.
  cbv zeta. split; [intros n A B E; apply rsum_ext; intros i Hi; apply in_seq in Hi; apply E; lia|].
  intros m pi A B SH E. apply (sh_sum' m pi SH). intros i Hi. now apply E.
Qed.

(** * C234: what remains after a variable has been chosen is not uncorrelated with it *)
Lemma rsum_dev n x : (1 <= n)%nat -> rsum (fun s => x s - mean n x) (seq 0 n) = 0.
Proof.
  intros Hn. assert (INR n <> 0) by (apply not_0_INR; lia). rewrite (rsum_ext _ (fun s => 1 * x s + (- mean n x) * 1)) by (intros; ring).
  rewrite rsum_plus, !rsum_mult, rsum_one. unfold mean. field. assumption.
Qed.
Lemma cov1_linear n x y z k : (1 <= n)%nat -> cov1 n (fun s => x s - k * y s) z = cov1 n x z - k * cov1 n y z.
Proof.
  intros Hn. unfold cov1. assert (EM : mean n (fun s => x s - k * y s) = mean n x - k * mean n y).
  { unfold mean. rewrite (rsum_ext _ (fun s => x s + (- k) * y s)) by (intros; ring). rewrite rsum_plus, rsum_mult. unfold Rdiv. ring. }
  rewrite EM. rewrite (rsum_ext _ (fun s => (x s - mean n x) * (z s - mean n z) + (- k) * ((y s - mean n y) * (z s - mean n z)))) by (intros; ring).
  rewrite rsum_plus, rsum_mult. unfold Rdiv. ring.
Qed.
Lemma cov1_self n y : (2 <= n)%nat -> cov1 n y y = var n y * INR n / (INR n - 1).
Proof.
  intros Hn. unfold cov1, var. unfold mean at 3. rewrite (rsum_ext (fun s => (y s - mean n y) * (y s - mean n y)) (fun s => (y s - mean n y) ^ 2)) by (intros; ring).
  assert (INR n <> 0) by (apply not_0_INR; lia). assert (INR n - 1 <> 0) by (apply (le_INR 2) in Hn; cbn in Hn; lra). field. split; assumption.
Qed.
(** The residual's covariance with the regressor is the old one divided by 1 - n: of the other sign, and zero only if it was zero before. *)
Theorem C234_residual_partial : forall n x y r, (2 <= n)%nat -> residual n (Some x) (Some y) = Some r -> cov1 n r y = - cov1 n x y / (INR n - 1) /\ (cov1 n r y = 0 <-> cov1 n x y = 0).
Proof.
  intros n x y r Hn E. assert (N1 : INR n - 1 <> 0) by (apply (le_INR 2) in Hn; cbn in Hn; lra). unfold residual in E. destruct (Req_EM_T (var n y) 0) as [V|V]; [discriminate|]. injection E as <-.
  assert (EQ : cov1 n (fun s => x s - cov1 n x y / var n y * y s) y = - cov1 n x y / (INR n - 1)).
  { rewrite cov1_linear by lia. rewrite cov1_self by exact Hn. field. split; assumption. }
  split; [exact EQ|]. rewrite EQ. split; intros H.
  - apply (Rmult_eq_compat_r (INR n - 1)) in H. unfold Rdiv in H. rewrite Rmult_assoc, Rinv_l in H by exact N1. lra.
  - rewrite H. unfold Rdiv. ring.
Qed.
Theorem C234_multiple_partial : forall n y c d r, (2 <= n)%nat -> residual n (Some (fun s => c * y s + d)) (Some y) = Some r -> forall s, r s = d - c / (INR n - 1) * y s.
Proof.
  intros n y c d r Hn E s. assert (N1 : INR n - 1 <> 0) by (apply (le_INR 2) in Hn; cbn in Hn; lra). unfold residual in E. destruct (Req_EM_T (var n y) 0) as [V|V]; [discriminate|]. injection E as <-.
  assert (EC : cov1 n (fun s => c * y s + d) y = c * (var n y * INR n / (INR n - 1))).
  { rewrite <- (cov1_self n y Hn). replace (cov1 n (fun s => c * y s + d) y) with (cov1 n (fun s => c * y s + d) (fun s => 1 * y s + 0)) by (apply cov1_ext; intros; ring). rewrite cov1_affine by lia. ring. }
  rewrite EC. field. split; assumption.
Qed.
Theorem C234_uncorrelated_refuted : exists n x y r, residual n (Some x) (Some y) = Some r /\ cov1 n r y <> 0 /\ forall s, x s = 2 * y s.
Proof.
  set (y := fun s : nat => INR s). exists 2%nat, (fun s => 2 * y s), y.
  assert (V : var 2 y = 1 / 4) by (unfold var, mean, rsum, y; cbn; field).
  destruct (residual 2 (Some (fun s => 2 * y s)) (Some y)) as [r|] eqn:E.
  2:{ exfalso. unfold residual in E. destruct (Req_EM_T (var 2 y) 0); [lra|discriminate]. }
  exists r. split; [exact E|]. split; [|reflexivity]. destruct (C234_residual_partial 2 _ y r (le_n 2) E) as [_ [Q _]]. intros Z. specialize (Q Z).
  assert (EC : cov1 2 (fun s => 2 * y s) y = 1) by (unfold cov1, mean, rsum, y; cbn; field). lra.
Qed.

(** * C235: integer data *)
Lemma truncate_near r : Rabs (truncate r - r) < 1 /\ (truncate r = r <-> exists z, r = IZR z).
Proof.
  assert (P : forall r, 0 <= IZR (Int_part r) - r + 1 /\ IZR (Int_part r) - r <= 0 /\ IZR (Int_part r) - r > -1) by (intros q; destruct (base_Int_part q); lra).
  assert (Q : forall z, IZR (Int_part (IZR z)) = IZR z).
  { intros z. f_equal. destruct (base_Int_part (IZR z)) as [A B]. apply le_IZR in A. assert (B' : IZR z - 1 < IZR (Int_part (IZR z))) by lra. rewrite <- minus_IZR in B'. apply lt_IZR in B'. lia. }
  unfold truncate. destruct (Rle_dec 0 r) as [H|H].
  - split; [unfold Rabs; destruct (Rcase_abs _); specialize (P r); lra|]. split; [intros E; exists (Int_part r); now symmetry|intros [z ->]; apply Q].
  - split; [unfold Rabs; destruct (Rcase_abs _); specialize (P (- r)); lra|]. split; [intros E; exists (- Int_part (- r))%Z; rewrite opp_IZR; now symmetry|].
    intros [z ->]. replace (- IZR z) with (IZR (- z)) by (rewrite opp_IZR; ring). rewrite Q, opp_IZR. ring.
Qed.
Lemma truncate_small r : Rabs r < 1 -> truncate r = 0.
Proof.
  intros H. assert (P : forall q, 0 <= q < 1 -> Int_part q = 0%Z).
  { intros q Hq. destruct (base_Int_part q) as [A B]. assert (IZR (Int_part q) < 1) by lra. assert (-1 < IZR (Int_part q)) by lra. apply lt_IZR in H0. apply lt_IZR in H1. lia. }
  unfold truncate. apply Rabs_def2 in H. destruct (Rle_dec 0 r); rewrite P by lra; ring.
Qed.
(** What the search continues with is less than one unit away from the residual, and is it only where the residual is an integer. *)
Theorem C235_cut_off_partial : forall n X U m i, In i U -> i <> m ->
  match regress_out n X U m i, regress_out_int n X U m i with
  | Some x, Some x' => forall s, Rabs (x' s - x s) < 1 /\ (x' s = x s <-> exists z, x s = IZR z)
  | None, None => True | _, _ => False end.
Proof.
  intros n X U m i Hi N. unfold regress_out, regress_out_int. rewrite (proj2 (memb_In i U) Hi). rewrite (proj2 (Nat.eqb_neq i m) N). cbn [andb negb]. destruct (residual n (X i) (X m)); [|exact I].
  cbn [option_map]. intros s. apply truncate_near.
Qed.
(** Two binary variables: nothing remains of the second when the first is removed, so that its standardized form is NaN; of the same numbers as floats something does. *)
Definition bin0 : rvec := fun s => nth s [0; 1; 1; 0] 0.
Definition bin1 : rvec := fun s => nth s [0; 1; 0; 0] 0.
Theorem C235_type_matters_refuted : exists X : nat -> column, X = (fun i => Some (if Nat.eqb i 0 then bin0 else bin1)) /\
  standardize 4 (regress_out_int 4 X [0; 1]%nat 0 1) = None /\ standardize 4 (regress_out 4 X [0; 1]%nat 0 1) <> None /\
  match regress_out_int 4 X [0; 1]%nat 0 1 with Some x => forall s, (s < 4)%nat -> x s = 0 | None => False end.
Proof.
  eexists. split; [reflexivity|]. unfold regress_out, regress_out_int. cbn [memb existsb Nat.eqb orb andb negb].
  assert (V : var 4 bin0 = 1 / 4) by (unfold var, mean, rsum, bin0; cbn; field).
  assert (C : cov1 4 bin1 bin0 = 1 / 6) by (unfold cov1, mean, rsum, bin0, bin1; cbn; field).
  assert (E : residual 4 (Some bin1) (Some bin0) = Some (fun s => bin1 s - cov1 4 bin1 bin0 / var 4 bin0 * bin0 s)) by (unfold residual; destruct (Req_EM_T (var 4 bin0) 0); [lra|reflexivity]).
  rewrite E, V, C. cbn [option_map].
  assert (T : forall s, (s < 4)%nat -> truncate (bin1 s - 1 / 6 / (1 / 4) * bin0 s) = 0).
  { intros s Hs. apply truncate_small. do 4 (destruct s as [|s]; [unfold bin0, bin1; cbn [nth]; apply Rabs_def1; lra|]). lia. }
  split; [|split; [|exact T]].
  - cbn [standardize]. destruct (Req_EM_T _ 0) as [_|N]; [reflexivity|]. exfalso. apply N. rewrite (var_ext 4 _ (fun _ => 0) T). unfold var, mean, rsum. cbn. field.
  - cbn [standardize]. destruct (Req_EM_T _ 0) as [N|_]; [|discriminate]. exfalso. revert N. unfold var, mean, rsum, bin0, bin1. cbn. lra.
Qed.
