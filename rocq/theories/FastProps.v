(** FastKCI. *)
From Verif Require Import Base UtilsModel BICModel BICProofs EffectModel EffectProofs VARModel VARProofs ChisqProps CALMProofs KCIModel KCIProofs KCIProps HSICModel HSICMedian FinderProps NullModel NullProofs NullProps.
From Coq Require Import Permutation Reals Lra Sorting.
Local Open Scope R_scope.

(** ** C224: blocks and averages *)
(** Each sample is in one block. *)
Lemma in_unique n lab k : In k (unique n lab) <-> exists s, (s < n)%nat /\ lab s = k.
Proof.
  unfold unique. rewrite filter_In, in_seq0, existsb_exists. split.
  - intros (_ & s & Hs & E). apply in_seq0 in Hs. apply Nat.eqb_eq in E. eauto.
  - intros (s & Hs & <-). split; [|exists s; split; [now apply in_seq0|apply Nat.eqb_refl]]. assert (L : (lab s <= list_max (map lab (seq 0 n)))%nat); [|lia].
    pose proof (proj1 (list_max_le (map lab (seq 0 n)) (list_max (map lab (seq 0 n)))) (le_n _)) as F. rewrite Forall_forall in F. apply F, in_map. now apply in_seq0.
Qed.
Lemma in_members n lab k s : In s (members n lab k) <-> (s < n)%nat /\ lab s = k. Proof. unfold members. rewrite filter_In, in_seq0, Nat.eqb_eq. tauto. Qed.
Lemma NoDup_unique n lab : NoDup (unique n lab). Proof. apply NoDup_filter, seq_NoDup. Qed.
Theorem C224_partition : forall n lab, Permutation (flat_map (members n lab) (unique n lab)) (seq 0 n).
Proof.
  intros n lab. apply NoDup_Permutation; [|apply seq_NoDup|].
  - apply NoDup_flat; [apply NoDup_unique|intros; apply NoDup_filter, seq_NoDup|]. intros a b x Ha Hb. apply in_members in Ha, Hb. destruct Ha, Hb. congruence.
  - intros s. rewrite in_flat_map, in_seq0. split; [intros (k & _ & H); now apply in_members in H|]. intros H. exists (lab s). split; [apply in_unique; eauto|now apply in_members].
Qed.
(** The statistic of a partition is the sum of the statistics of its blocks. *)
Section B.
Variable block : list nat -> (nat -> nat -> R) -> option (R * list R).
Variable lik : list nat -> R.
Variables least nullss n : nat.
Variable chi : nat -> nat -> nat -> R.
Variable lab : nat -> nat.
Notation acc_step := (fun (acc : option (R * list R * R)) (k : nat) => match acc with
    | None => None
    | Some (stat, null, ll) =>
      let idx := members n lab k in
      if Nat.ltb (length idx) least then acc
      else match block idx (chi k) with Some (v, nl) => Some (stat + v, vadd null nl, ll + lik idx) | None => None end
    end).
Lemma fold_none l : fold_left acc_step l None = None. Proof. induction l as [|k l IH]; [reflexivity|exact IH]. Qed.
Lemma fold_blocks (F : list nat -> R) (HF : forall idx c v nl, block idx c = Some (v, nl) -> v = F idx) : forall l s0 nl0 l0 s1 nl1 l1, fold_left acc_step l (Some (s0, nl0, l0)) = Some (s1, nl1, l1) ->
  s1 = s0 + rsum (fun k => if Nat.ltb (length (members n lab k)) least then 0 else F (members n lab k)) l.
Proof.
  induction l as [|k l IH]; intros s0 nl0 l0 s1 nl1 l1 E; [cbn [fold_left] in E; injection E as <- _ _; unfold rsum; cbn; ring|]. cbn [fold_left] in E. rewrite rsum_cons. destruct (Nat.ltb (length (members n lab k)) least).
  - rewrite (IH _ _ _ _ _ _ E). ring.
  - destruct (block (members n lab k) (chi k)) as [[v nl]|] eqn:B; [|rewrite fold_none in E; discriminate]. rewrite (IH _ _ _ _ _ _ E), (HF _ _ _ _ B). ring.
Qed.
Lemma fold_nulls (HF : forall idx c v nl, block idx c = Some (v, nl) -> length nl = nullss) : forall l s0 nl0 l0 s1 nl1 l1, length nl0 = nullss -> fold_left acc_step l (Some (s0, nl0, l0)) = Some (s1, nl1, l1) -> length nl1 = nullss.
Proof.
  induction l as [|k l IH]; intros s0 nl0 l0 s1 nl1 l1 L E; [cbn [fold_left] in E; injection E as _ <- _; exact L|]. cbn [fold_left] in E. destruct (Nat.ltb (length (members n lab k)) least); [now apply IH in E|].
  destruct (block (members n lab k) (chi k)) as [[v nl]|] eqn:B; [|rewrite fold_none in E; discriminate]. refine (IH _ _ _ _ _ _ _ E). unfold vadd. rewrite map_length, combine_length, L, (HF _ _ _ _ B). apply Nat.min_id.
Qed.
Lemma blocks_sum F (HF : forall idx c v nl, block idx c = Some (v, nl) -> v = F idx) st null ll : on_blocks block lik least nullss n lab chi = Some (st, null, ll) ->
  st = rsum (fun k => if Nat.ltb (length (members n lab k)) least then 0 else F (members n lab k)) (unique n lab).
Proof. intros E. unfold on_blocks in E. rewrite (fold_blocks F HF _ _ _ _ _ _ _ E). ring. Qed.
End B.
(** The KCI statistic of the samples of idx (Gaussian kernels, empirical widths). *)
Definition kci_stat median pinv (dx dy dz : nat) (X Y Z : data) (idx : list nat) : R :=
  fst (fst (kci_c median pinv (length idx) (Gaussian Empirical) (Gaussian Empirical) (Gaussian Empirical) dx dy dz (fun s => X (nth s idx 0%nat)) (fun s => Y (nth s idx 0%nat)) (fun s => Z (nth s idx 0%nat)))).
Definition hsic_stat median gsf (dx dy : nat) (X Y : data) (idx : list nat) : R :=
  snd (kci_u median gsf (length idx) (Gaussian Empirical) (Gaussian Empirical) dx dy (fun s => X (nth s idx 0%nat)) (fun s => Y (nth s idx 0%nat))).
Definition pinv_symmetric (pinv : nat -> rmat -> rmat) : Prop := forall n A, symmetric n A -> symmetric n (pinv n A).
Lemma center_sym n K : symmetric n K -> symmetric n (center n K).
Proof. intros H i j Hi Hj. unfold center. rewrite (H i j Hi Hj). unfold Rdiv. ring. Qed.
Lemma kernel_c_sym median n dz d k X : symmetric n (kernel_c median n dz d k X).
Proof.
  assert (D0 : forall i j, sqdist d X i j = sqdist d X j i) by (intros; unfold sqdist; apply rsum_ext; intros; ring).
  assert (L0 : forall i j, rdot d (X i) (X j) = rdot d (X j) (X i)) by (intros; unfold rdot; apply rsum_ext; intros; ring).
  intros i j _ _. destruct k as [w| |g]; [destruct w|..]; cbn [kernel_c]; unfold gaussian, linear_k, polynomial_k; rewrite ?(D0 i j), ?(L0 i j); reflexivity.
Qed.
Lemma gauss_sym n th d X : symmetric n (gaussian th d X).
Proof. intros i j _ _. unfold gaussian. replace (sqdist d X i j) with (sqdist d X j i); [reflexivity|]. unfold sqdist. apply rsum_ext. intros. ring. Qed.
Lemma sandwich_sym n R0 K : symmetric n R0 -> symmetric n K -> symmetric n (sandwich n R0 K).
Proof.
  intros HR HK i j Hi Hj. unfold sandwich, mmul. rewrite (rsum_ext _ (fun k => rsum (fun l => R0 i k * (K k l * R0 l j)) (seq 0 n))) by (intros; symmetry; apply rsum_mult). rewrite rsum_swap. apply rsum_ext. intros l Hl. apply in_seq0 in Hl.
  rewrite <- rsum_mult. apply rsum_ext. intros k Hk. apply in_seq0 in Hk. rewrite (HR i k), (HK k l), (HR l j) by assumption. ring.
Qed.
Lemma einsum_eq median pinv m dx dy dz X Y Z v A B : pinv_symmetric pinv -> kci_c median pinv m (Gaussian Empirical) (Gaussian Empirical) (Gaussian Empirical) dx dy dz X Y Z = (v, A, B) -> trace_product m A B = v.
Proof.
  intros PS E. unfold kci_c in E. injection E as <- <- <-. unfold trace_product, v_statistic, msum. apply rsum_ext. intros i Hi. apply in_seq0 in Hi. apply rsum_ext. intros j Hj. apply in_seq0 in Hj. f_equal.
  apply sandwich_sym; try assumption; [|apply center_sym, gauss_sym]. intros a b Ha Hb. unfold regressor. f_equal. apply PS; [|assumption|assumption]. intros c e Hc He. rewrite (center_sym m _ (gauss_sym _ _ _ _) c e Hc He). f_equal. f_equal. unfold eye. now rewrite Nat.eqb_sym.
Qed.
Theorem C224_additive : forall eigh order eigv median pinv lik nullss n dx dy dz X Y Z lab chi st null ll, pinv_symmetric pinv ->
  on_blocks (block_c eigh order eigv median pinv nullss n dx dy dz X Y Z) lik 6 nullss n lab chi = Some (st, null, ll) ->
  st = rsum (fun k => if Nat.ltb (length (members n lab k)) 6 then 0 else kci_stat median pinv dx dy dz X Y Z (members n lab k)) (unique n lab).
Proof.
  intros eigh order eigv median pinv lik nullss n dx dy dz X Y Z lab chi st null ll PS E. revert E. apply blocks_sum. intros idx c v nl B. unfold block_c in B. unfold kci_stat. fold (sub idx X) (sub idx Y) (sub idx Z).
  destruct (kci_c median pinv (length idx) _ _ _ dx dy dz (sub idx X) (sub idx Y) (sub idx Z)) as [[s A] B0] eqn:K. destruct (uuprod _ _ _ _ _ _ _) as [[[d M] size]|]; [|discriminate]. destruct (null_c _ _ _ _ _ _ _ _); [|discriminate].
  injection B as <- _. cbn [fst]. exact (einsum_eq _ _ _ _ _ _ _ _ _ _ _ _ PS K).
Qed.
Theorem C224_additive_unconditional : forall eigv median gsf lik nullss n dx dy X Y lab chi st null ll,
  on_blocks (block_u eigv median nullss dx dy X Y) lik 0 nullss n lab chi = Some (st, null, ll) -> st = rsum (fun k => hsic_stat median gsf dx dy X Y (members n lab k)) (unique n lab).
Proof.
  intros eigv median gsf lik nullss n dx dy X Y lab chi st null ll E. rewrite (rsum_ext _ (fun k => if Nat.ltb (length (members n lab k)) 0 then 0 else hsic_stat median gsf dx dy X Y (members n lab k))) by (intros; destruct (Nat.ltb_spec (length (members n lab x)) 0); [lia|reflexivity]).
  revert E. apply blocks_sum. intros idx c v nl B. unfold block_u in B. destruct (null_u _ _ _ _ _ _ _); [|discriminate]. injection B as <- _. reflexivity.
Qed.
(** So the names of the blocks do not matter to the statistic. *)
Lemma relabel_members n lab f k : (forall s t, (s < n)%nat -> (t < n)%nat -> f (lab s) = f (lab t) -> lab s = lab t) -> In k (unique n lab) -> members n (fun s => f (lab s)) (f k) = members n lab k.
Proof.
  intros Hf Hk. apply in_unique in Hk. destruct Hk as (t & Ht & <-). unfold members. apply filter_ext_in. intros s Hs. apply in_seq0 in Hs. apply Bool.eq_iff_eq_true. rewrite !Nat.eqb_eq. split; [now apply Hf|congruence].
Qed.
Theorem C224_relabel : forall (F : list nat -> R) n lab f, (forall s t, (s < n)%nat -> (t < n)%nat -> f (lab s) = f (lab t) -> lab s = lab t) ->
  rsum (fun k => F (members n (fun s => f (lab s)) k)) (unique n (fun s => f (lab s))) = rsum (fun k => F (members n lab k)) (unique n lab).
Proof.
  intros F n lab f Hf. rewrite (rsum_perm _ _ (map f (unique n lab))).
  - rewrite rsum_map. apply rsum_ext. intros k Hk. now rewrite relabel_members.
  - apply NoDup_Permutation; [apply NoDup_unique|apply NoDup_map_on; [apply NoDup_unique|]|].
    + intros x y Hx Hy E. apply in_unique in Hx, Hy. destruct Hx as (s & Hs & <-), Hy as (t & Ht & <-). now apply Hf.
    + intros k. rewrite in_unique, in_map_iff. split.
      * intros (s & Hs & <-). exists (lab s). split; [reflexivity|]. apply in_unique. eauto.
      * intros (j & <- & Hj). apply in_unique in Hj. destruct Hj as (s & Hs & <-). eauto.
Qed.
(** With all samples in one block it is the statistic of KCI. *)
Lemma unique_one n lab k : (0 < n)%nat -> (forall s, (s < n)%nat -> lab s = k) -> unique n lab = [k].
Proof.
  intros Hn H. pose proof (NoDup_unique n lab) as N. assert (I : forall j, In j (unique n lab) <-> j = k) by (intros j; rewrite in_unique; split; [intros (s & Hs & <-); auto|intros ->; exists 0%nat; auto]).
  destruct (unique n lab) as [|a l]; [exfalso; now apply (proj2 (I k) eq_refl)|]. assert (a = k) by (apply I; left; reflexivity). subst. destruct l as [|b l]; [reflexivity|]. exfalso. assert (b = k) by (apply I; right; left; reflexivity). subst. inversion N as [|? ? H1 _]. apply H1. now left.
Qed.
Lemma members_one n lab k : (forall s, (s < n)%nat -> lab s = k) -> members n lab k = seq 0 n.
Proof. intros H. unfold members. assert (E : forall l, (forall s, In s l -> lab s = k) -> filter (fun s => Nat.eqb (lab s) k) l = l) by (induction l as [|s l IH]; intros G; [reflexivity|]; cbn [filter]; rewrite (G s (or_introl eq_refl)), Nat.eqb_refl, IH; [reflexivity|intros; apply G; now right]). apply E. intros s Hs. apply H. now apply in_seq0. Qed.
Lemma seq_shuffle n : shuffle n (fun s => nth s (seq 0 n) 0%nat).
Proof. unfold shuffle. rewrite (map_ext_in _ (fun s => s)) by (intros s Hs; apply in_seq0 in Hs; rewrite seq_nth by exact Hs; reflexivity). now rewrite map_id. Qed.
Theorem C224_one_block : forall eigh order eigv median pinv lik nullss n dx dy dz X Y Z lab chi k st null ll, (6 <= n)%nat -> pinv_symmetric pinv -> pinv_ordered pinv -> (forall l m, Permutation l m -> median l = median m) -> (forall s, (s < n)%nat -> lab s = k) ->
  on_blocks (block_c eigh order eigv median pinv nullss n dx dy dz X Y Z) lik 6 nullss n lab chi = Some (st, null, ll) ->
  st = fst (fst (kci_c median pinv n (Gaussian Empirical) (Gaussian Empirical) (Gaussian Empirical) dx dy dz X Y Z)).
Proof.
  intros eigh order eigv median pinv lik nullss n dx dy dz X Y Z lab chi k st null ll Hn PS PO HM HL E. rewrite (C224_additive _ _ _ _ _ _ _ _ _ _ _ _ _ _ _ _ _ _ _ PS E).
  rewrite (unique_one n lab k) by (lia || exact HL). unfold rsum. cbn [map fold_right]. rewrite (members_one n lab k HL), seq_length. destruct (Nat.ltb_spec n 6); [lia|]. unfold kci_stat. rewrite seq_length.
  pose proof (C187_sample_order median pinv n (fun s => nth s (seq 0 n) 0%nat) (Gaussian Empirical) (Gaussian Empirical) (Gaussian Empirical) dx dy dz X Y Z (seq_shuffle n) HM PO) as S0. cbv beta in S0.
  destruct (kci_c median pinv n _ _ _ dx dy dz (fun s => X (nth s (seq 0 n) 0%nat)) _ _) as [[v' A'] B']. destruct (kci_c median pinv n _ _ _ dx dy dz X Y Z) as [[v A] B]. destruct S0 as (-> & _). cbn [fst]. ring.
Qed.
Theorem C224_one_block_unconditional : forall eigv median gsf lik nullss n dx dy X Y lab chi k st null ll, (0 < n)%nat -> (forall l m, Permutation l m -> median l = median m) -> (forall s, (s < n)%nat -> lab s = k) ->
  on_blocks (block_u eigv median nullss dx dy X Y) lik 0 nullss n lab chi = Some (st, null, ll) -> st = snd (kci_u median gsf n (Gaussian Empirical) (Gaussian Empirical) dx dy X Y).
Proof.
  intros eigv median gsf lik nullss n dx dy X Y lab chi k st null ll Hn HM HL E. rewrite (C224_additive_unconditional _ _ gsf _ _ _ _ _ _ _ _ _ _ _ _ E), (unique_one n lab k Hn HL). unfold rsum. cbn [map fold_right]. rewrite (members_one n lab k HL). unfold hsic_stat. rewrite seq_length.
  rewrite (C186_sample_order median gsf n (fun s => nth s (seq 0 n) 0%nat) (Gaussian Empirical) (Gaussian Empirical) dx dy X Y (seq_shuffle n) HM). ring.
Qed.

(** The averages: with weights rounded to 6 digits. *)
Definition rounds6 (r : R -> R) : Prop := forall x, Rabs (r x - x) <= 1 / 2000000 /\ (0 <= x -> 0 <= r x).
Lemma exp_sum_pos l : l <> [] -> 0 < rsum exp l.
Proof. destruct l as [|a l]; [congruence|]. intros _. rewrite rsum_cons. pose proof (exp_pos a). pose proof (proj1 (rsum_nonneg exp l (fun x _ => Rlt_le _ _ (exp_pos x)))). lra. Qed.
Lemma weights_sum r l : rounds6 r -> l <> [] -> INR (length l) < 2000000 -> 0 < rsum (fun v => v) (prob_weights r l) /\ forall w, In w (prob_weights r l) -> 0 <= w.
Proof.
  intros HR N L. pose proof (exp_sum_pos l N) as EP. assert (T1 : rsum (fun x => exp (x - logsumexp l)) l = 1).
  { rewrite (rsum_ext _ (fun x => / rsum exp l * exp x)) by (intros; unfold Rminus, logsumexp; rewrite exp_plus, exp_Ropp, exp_ln by exact EP; ring). rewrite rsum_mult. apply Rinv_l. lra. }
  split.
  - unfold prob_weights. rewrite rsum_map. assert (LB : forall m, rsum (fun x => exp (x - logsumexp l)) m - INR (length m) * (1 / 2000000) <= rsum (fun x => r (exp (x - logsumexp l))) m).
    { induction m as [|a m IH]; [unfold rsum; cbn; lra|]. rewrite !rsum_cons. cbn [length]. rewrite S_INR. destruct (HR (exp (a - logsumexp l))) as [H _]. apply Rabs_def2' in H || idtac. pose proof (Rle_abs (- (r (exp (a - logsumexp l)) - exp (a - logsumexp l)))) as H2. rewrite Rabs_Ropp in H2. lra. }
    specialize (LB l). rewrite T1 in LB. lra.
  - intros w Hw. apply in_map_iff in Hw. destruct Hw as (x & <- & _). apply HR, Rlt_le, exp_pos.
Qed.
Lemma average_between w x lo hi a : length w = length x -> (forall v, In v w -> 0 <= v) -> 0 < rsum (fun v => v) w -> (forall v, In v x -> lo <= v <= hi) -> average w x = Some a -> lo <= a <= hi.
Proof.
  intros L W P B. unfold average. destruct (Req_EM_T _ 0) as [E|_]; [lra|]. intros [= <-].
  assert (G : forall w x, length w = length x -> (forall v, In v w -> 0 <= v) -> (forall v, In v x -> lo <= v <= hi) -> lo * rsum (fun v => v) w <= rsum (fun p => fst p * snd p) (combine w x) <= hi * rsum (fun v => v) w).
  { clear. induction w as [|a w IH]; intros [|b x] L W B; try discriminate; [unfold rsum; cbn; lra|]. cbn [combine]. rewrite !rsum_cons. cbn [fst snd]. specialize (IH x ltac:(cbn in L; lia) (fun v H => W v (or_intror H)) (fun v H => B v (or_intror H))).
    pose proof (W a (or_introl eq_refl)). pose proof (B b (or_introl eq_refl)). nra. }
  specialize (G w x L W B). set (t := rsum (fun v => v) w) in *. set (u := rsum _ (combine w x)) in *. split.
  - apply (Rmult_le_reg_r t); [exact P|]. unfold Rdiv. rewrite Rmult_assoc, Rinv_l by lra. lra.
  - apply (Rmult_le_reg_r t); [exact P|]. unfold Rdiv. rewrite Rmult_assoc, Rinv_l by lra. lra.
Qed.
Lemma all_some_spec {A} (l : list (option A)) : (forall x, In x l -> x <> None) -> exists r, all_some l = Some r.
Proof. induction l as [|x l IH]; intros H; [now exists []|]. destruct IH as [r E]; [intros; apply H; now right|]. destruct x as [v|]; [|exfalso; exact (H None (or_introl eq_refl) eq_refl)]. cbn [all_some]. rewrite E. eauto. Qed.
Lemma all_some_map {A} (l : list (option A)) r : all_some l = Some r -> l = map Some r.
Proof. revert r. induction l as [|[v|] l IH]; intros r; cbn [all_some]; [intros [= <-]; reflexivity| |discriminate]. destruct (all_some l) as [r'|]; [|discriminate]. intros [= <-]. cbn [map]. now rewrite (IH r' eq_refl). Qed.
Lemma all_some_length {A} (l : list (option A)) r : all_some l = Some r -> length r = length l.
Proof. intros H. apply all_some_map in H. subst. now rewrite map_length. Qed.
(** The test gives a result whenever each run does; the p-value is between 0 and 1; the statistic is between the least and the greatest of the runs. *)
Theorem C224_defined : forall round6 nullss runs, rounds6 round6 -> runs <> [] -> INR (length runs) < 2000000 -> (forall r, In r runs -> r <> None) -> exists p st, fast_p round6 nullss runs = Some (p, st).
Proof.
  intros round6 nullss runs HR N L H. unfold fast_p. destruct (all_some_spec runs H) as [rs E]. rewrite E. pose proof (all_some_length _ _ E) as LE. assert (W : 0 < rsum (fun v => v) (prob_weights round6 (map snd rs))).
  { apply weights_sum; [exact HR| |rewrite map_length, LE; exact L]. intros Q. apply map_eq_nil in Q. subst. destruct runs; [congruence|discriminate]. }
  assert (AV : forall x, exists a, average (prob_weights round6 (map snd rs)) x = Some a) by (intros x; unfold average; destruct (Req_EM_T _ 0); [lra|eauto]).
  destruct (AV (map (fun r => fst (fst r)) rs)) as [a ->]. destruct (all_some_spec (map (fun i => average (prob_weights round6 (map snd rs)) (map (fun r => nth i (snd (fst r)) 0) rs)) (seq 0 nullss))) as [null ->]; [|eauto].
  intros x Hx. apply in_map_iff in Hx. destruct Hx as (i & <- & _). destruct (AV (map (fun r => nth i (snd (fst r)) 0) rs)) as [b ->]. discriminate.
Qed.
Theorem C224_range : forall round6 nullss runs p st, (0 < nullss)%nat -> fast_p round6 nullss runs = Some (p, st) -> 0 <= p <= 1.
Proof.
  intros round6 nullss runs p st Hn. unfold fast_p. destruct (all_some runs) as [rs|]; [|discriminate]. destruct (average _ _) as [a|]; [|discriminate]. destruct (all_some _) as [null|] eqn:E; [|discriminate]. intros [= <- _].
  apply spectral_range; [exact Hn|]. now rewrite (all_some_length _ _ E), map_length, seq_length.
Qed.
Theorem C224_between : forall round6 nullss runs p st lo hi, rounds6 round6 -> INR (length runs) < 2000000 -> (forall s null ll, In (Some (s, null, ll)) runs -> lo <= s <= hi) -> runs <> [] -> fast_p round6 nullss runs = Some (p, st) -> lo <= st <= hi.
Proof.
  intros round6 nullss runs p st lo hi HR L H N. unfold fast_p. destruct (all_some runs) as [rs|] eqn:E; [|discriminate]. pose proof (all_some_length _ _ E) as LE. destruct (average _ _) as [a|] eqn:AV; [|discriminate]. destruct (all_some (map _ (seq 0 nullss))) as [nl|] eqn:EN; [|discriminate]. intros E2. injection E2 as _ <-.
  assert (NR : map snd rs <> []) by (intros Q; apply map_eq_nil in Q; subst; destruct runs; [congruence|discriminate]).
  destruct (weights_sum round6 (map snd rs) HR NR ltac:(rewrite map_length, LE; exact L)) as [P W]. refine (average_between _ _ lo hi a _ W P _ AV).
  - unfold prob_weights. now rewrite !map_length.
  - intros v Hv. apply in_map_iff in Hv. destruct Hv as ([[s null] ll] & <- & Hr). apply (H s null ll). rewrite (all_some_map _ _ E). now apply in_map.
Qed.
(** With all samples in one block in each run, the statistic is that of KCI. *)
Theorem C224_reduces_to_kci : forall eigh order eigv median pinv round6 lik nullss n dx dy dz X Y Z runs p st, (6 <= n)%nat -> pinv_symmetric pinv -> pinv_ordered pinv -> (forall l m, Permutation l m -> median l = median m) -> rounds6 round6 -> runs <> [] -> INR (length runs) < 2000000 ->
  (forall lab chi, In (lab, chi) runs -> exists k, forall s, (s < n)%nat -> lab s = k) ->
  fast_c eigh order eigv median pinv round6 lik nullss n dx dy dz X Y Z runs = Some (p, st) -> st = fst (fst (kci_c median pinv n (Gaussian Empirical) (Gaussian Empirical) (Gaussian Empirical) dx dy dz X Y Z)).
Proof.
  intros eigh order eigv median pinv round6 lik nullss n dx dy dz X Y Z runs p st Hn PS PO HM HR N L H E. unfold fast_c in E. set (v := fst (fst _)).
  assert (B : v <= st <= v); [|lra]. refine (C224_between _ _ _ _ _ v v HR _ _ _ E); [rewrite map_length; exact L| |intros Q; apply map_eq_nil in Q; congruence].
  intros s null ll Hr. apply in_map_iff in Hr. destruct Hr as ([lab chi] & E1 & Hr). cbn [fst snd] in E1. destruct (H lab chi Hr) as [k HL]. rewrite (C224_one_block _ _ _ _ _ _ _ _ _ _ _ _ _ _ _ _ k _ _ _ Hn PS PO HM HL E1). fold v. lra.
Qed.

(** ** C225: small blocks and constants *)
Lemma fold_small block lik nullss n lab chi : (forall k, (length (members n lab k) < 6)%nat) -> on_blocks block lik 6 nullss n lab chi = Some (0, repeat 0 nullss, 0).
Proof.
  intros H. unfold on_blocks. assert (G : forall l acc, fold_left (fun (acc : option (R * list R * R)) (k : nat) => match acc with None => None | Some (stat, null, ll) => let idx := members n lab k in
      if Nat.ltb (length idx) 6 then acc else match block idx (chi k) with Some (v, nl) => Some (stat + v, vadd null nl, ll + lik idx) | None => None end end) l (Some acc) = Some acc).
  { induction l as [|k l IH]; intros [[a b] c]; [reflexivity|]. cbn [fold_left]. cbv zeta. destruct (Nat.ltb_spec (length (members n lab k)) 6); [apply IH|specialize (H k); lia]. }
  apply G.
Qed.
Lemma average_zero w x a : (forall v, In v x -> v = 0) -> average w x = Some a -> a = 0.
Proof.
  intros H. unfold average. destruct (Req_EM_T _ 0); [discriminate|]. intros [= <-]. rewrite (rsum_ext _ (fun _ => 0)); [rewrite rsum_0; unfold Rdiv; ring|]. intros [a b] Hp. apply in_combine_r in Hp. cbn [fst snd]. rewrite (H b Hp). ring.
Qed.
Lemma fast_zero round6 nullss runs : rounds6 round6 -> runs <> [] -> INR (length runs) < 2000000 -> (forall r, In r runs -> exists ll, r = Some (0, repeat 0 nullss, ll)) -> fast_p round6 nullss runs = Some (0, 0).
Proof.
  intros HR N L H. destruct (C224_defined round6 nullss runs HR N L) as (p & st & E); [intros r Hr; destruct (H r Hr) as [ll ->]; discriminate|]. assert (st = 0).
  { assert (0 <= st <= 0); [|lra]. refine (C224_between _ _ _ _ _ 0 0 HR L _ N E). intros s null ll Hr. destruct (H _ Hr) as [ll' Q]. injection Q as -> _ _. lra. }
  subst. rewrite E. f_equal. f_equal. unfold fast_p in E. destruct (all_some runs) as [rs|] eqn:ER; [|discriminate]. destruct (average _ _) as [a|]; [|discriminate]. destruct (all_some (map _ (seq 0 nullss))) as [null|] eqn:EN; [|discriminate]. injection E as <- ->.
  apply all_some_map in EN. assert (Z0 : forall x, In x null -> x = 0).
  { intros x Hx. assert (I : In (Some x) (map Some null)) by now apply in_map. rewrite <- EN in I. apply in_map_iff in I. destruct I as (i & AV & _). revert AV. apply average_zero. intros v Hv. apply in_map_iff in Hv. destruct Hv as (r & <- & Hr).
    destruct (H (Some r)) as [ll Q]; [rewrite (all_some_map _ _ ER); now apply in_map|]. injection Q as ->. cbn [fst snd]. apply nth_repeat. }
  unfold spectral_p. assert (F : filter (fun x => if Rlt_dec 0 x then true else false) null = []).
  { clear - Z0. induction null as [|x l IH]; [reflexivity|]. cbn [filter]. rewrite (Z0 x (or_introl eq_refl)). destruct (Rlt_dec 0 0); [lra|]. apply IH. intros y Hy. apply Z0. now right. }
  rewrite F. cbn. unfold Rdiv. ring.
Qed.
(** If all blocks have less than 6 samples FastKCI reports p = 0 whatever the data: the variables are declared dependent.  This is always so with less than 6 samples. *)
Theorem C225_small_blocks_refuted : forall eigh order eigv median pinv round6 lik nullss n dx dy dz X Y Z runs, rounds6 round6 -> runs <> [] -> INR (length runs) < 2000000 ->
  (forall lab chi k, In (lab, chi) runs -> (length (filter (fun s => Nat.eqb (lab s) k) (seq 0 n)) < 6)%nat) -> fast_c eigh order eigv median pinv round6 lik nullss n dx dy dz X Y Z runs = Some (0, 0).
Proof.
  intros eigh order eigv median pinv round6 lik nullss n dx dy dz X Y Z runs HR N L H. unfold fast_c. apply fast_zero; [exact HR|intros Q; apply map_eq_nil in Q; congruence|now rewrite map_length|]. intros r Hr. apply in_map_iff in Hr. destruct Hr as ([lab chi] & <- & Hr). exists 0. apply fold_small. intros k. exact (H lab chi k Hr).
Qed.
Theorem C225_few_samples_refuted : forall eigh order eigv median pinv round6 lik nullss n dx dy dz X Y Z runs, rounds6 round6 -> runs <> [] -> INR (length runs) < 2000000 -> (n < 6)%nat ->
  fast_c eigh order eigv median pinv round6 lik nullss n dx dy dz X Y Z runs = Some (0, 0).
Proof. intros. apply C225_small_blocks_refuted; try assumption. intros lab chi k _. pose proof (filter_len (fun s => Nat.eqb (lab s) k) (seq 0 n)) as F. rewrite seq_length in F. lia. Qed.
(** A constant variable is declared dependent on every other by the unconditional test (p = 0)... *)
Definition zero_values (eigv : nat -> rmat -> list R) : Prop := forall n A, (forall s t, (s < n)%nat -> (t < n)%nat -> A s t = 0) -> length (eigv n A) = n /\ forall x, In x (eigv n A) -> x = 0.
Definition values_length (eigv : nat -> rmat -> list R) : Prop := forall n A, length (eigv n A) = n.
Lemma simulate_nil nullss chi n : map (fun x => x / INR n) (simulate nullss [] chi) = repeat 0 nullss.
Proof.
  unfold simulate. rewrite map_map. cbn [length seq]. unfold rsum. cbn [map fold_right]. assert (G : forall k a, map (fun _ : nat => 0 / INR n) (seq a k) = repeat 0 k).
  { induction k as [|k IH]; intros a; [reflexivity|]. cbn [seq map repeat]. rewrite IH. f_equal. unfold Rdiv. ring. } apply G.
Qed.
Lemma zero_weights thresh l : 0 <= thresh -> l <> [] -> (forall x, In x l -> x = 0) -> keep_big thresh l = Some [].
Proof.
  intros Ht N H. unfold keep_big. rewrite (lmax_const l 0 N H). f_equal. clear N. induction l as [|a l IH]; [reflexivity|]. cbn [filter]. rewrite (H a (or_introl eq_refl)). unfold above. destruct (Rlt_dec (0 * thresh) 0); [lra|]. apply IH. intros x Hx. apply H. now right.
Qed.
Lemma null_u_zero eigv thresh nullss n A B chi : 0 <= thresh -> (0 < n <= 1000)%nat -> zero_values eigv -> values_length eigv -> (forall s t, (s < n)%nat -> (t < n)%nat -> A s t = 0) -> null_u eigv thresh nullss n A B chi = Some (repeat 0 nullss).
Proof.
  intros Ht Hn ZV VL H. destruct (ZV n A H) as [LA ZA]. unfold null_u, weights_u, num_eig. destruct (Nat.ltb_spec 1000 n); [lia|]. rewrite !firstn_desc by (apply VL || exact LA).
  rewrite zero_weights; [now rewrite simulate_nil|exact Ht| |].
  - pose proof (Permutation_length (desc_perm (eigv n A))) as P1. pose proof (Permutation_length (desc_perm (eigv n B))) as P2. rewrite VL in P1, P2. destruct (descending (eigv n A)); [cbn in P1; lia|]. destruct (descending (eigv n B)); [cbn in P2; lia|]. discriminate.
  - intros x Hx. apply in_flat_map in Hx. destruct Hx as (a & Ha & Hx). apply in_map_iff in Hx. destruct Hx as (b & <- & _). apply (Permutation_in _ (desc_perm _)) in Ha. rewrite (ZA a Ha). ring.
Qed.
Lemma constant_kernel_of median n d X : (0 < n)%nat -> const_cols n d X -> exists c, forall s t, (s < n)%nat -> (t < n)%nat -> kernel_of median n d (Gaussian Empirical) X s t = c.
Proof.
  intros Hn H. exists (exp 0). intros s t Hs Ht. cbn [kernel_of]. unfold gaussian. replace (sqdist d (zscore n X) s t) with 0; [f_equal; ring|]. unfold sqdist. symmetry. rewrite (rsum_ext _ (fun _ => 0)); [apply rsum_0|].
  intros c Hc. apply in_seq0 in Hc. rewrite !(constant_z n d X _ c H) by assumption. ring.
Qed.
Lemma vadd_zero k : vadd (repeat 0 k) (repeat 0 k) = repeat 0 k.
Proof. unfold vadd. induction k as [|k IH]; [reflexivity|]. cbn [repeat combine map]. rewrite IH. f_equal. cbn [fst snd]. ring. Qed.
Lemma members_nth n lab k s : (s < length (members n lab k))%nat -> (nth s (members n lab k) 0 < n)%nat.
Proof. intros H. apply (nth_In _ 0%nat) in H. now apply in_members in H. Qed.
Theorem C225_constant_refuted : forall eigv median round6 lik nullss n dx dy X Y runs, (n <= 1000)%nat -> rounds6 round6 -> zero_values eigv -> values_length eigv -> runs <> [] -> INR (length runs) < 2000000 ->
  const_cols n dx X -> fast_u eigv median round6 lik nullss n dx dy X Y runs = Some (0, 0).
Proof.
  intros eigv median round6 lik nullss n dx dy X Y runs Hn HR ZV VL N L HX. unfold fast_u. apply fast_zero; [exact HR|intros Q; apply map_eq_nil in Q; congruence|now rewrite map_length|]. intros r Hr. apply in_map_iff in Hr. destruct Hr as ([lab chi] & <- & _). cbn [fst snd].
  unfold on_blocks. assert (G : forall l ll, (forall k, In k l -> In k (unique n lab)) -> exists ll', fold_left (fun (acc : option (R * list R * R)) (k : nat) => match acc with None => None | Some (stat, null, ll) => let idx := members n lab k in
      if Nat.ltb (length idx) 0 then acc else match block_u eigv median nullss dx dy X Y idx (chi k) with Some (v, nl) => Some (stat + v, vadd null nl, ll + lik idx) | None => None end end) l (Some (0, repeat 0 nullss, ll)) = Some (0, repeat 0 nullss, ll')).
  { induction l as [|k l IH]; intros ll Hl; [now exists ll|]. cbn [fold_left]. cbv zeta. destruct (Nat.ltb_spec (length (members n lab k)) 0); [lia|].
    assert (LP : (0 < length (members n lab k))%nat). { pose proof (Hl k (or_introl eq_refl)) as I. apply in_unique in I. destruct I as (s & Hs & E). assert (I : In s (members n lab k)) by now apply in_members. destruct (members n lab k); [destruct I|cbn; lia]. }
    assert (LM : (length (members n lab k) <= 1000)%nat). { unfold members. pose proof (filter_len (fun s => Nat.eqb (lab s) k) (seq 0 n)) as F. rewrite seq_length in F. lia. }
    assert (B : block_u eigv median nullss dx dy X Y (members n lab k) (chi k) = Some (0, repeat 0 nullss)).
    { unfold block_u. destruct (constant_kernel_of median (length (members n lab k)) dx (sub (members n lab k) X) LP) as [c Hc].
      - intros s c Hs Hc. unfold sub. rewrite (HX _ c (members_nth n lab k s Hs) Hc), (HX _ c (members_nth n lab k 0%nat LP) Hc). reflexivity.
      - pose proof (center_const _ _ c LP Hc) as C0. rewrite null_u_zero by (assumption || lra || (split; assumption)). f_equal. f_equal. unfold v_statistic, msum. rewrite (rsum_ext _ (fun _ => 0)); [apply rsum_0|]. intros s Hs. apply in_seq0 in Hs. rewrite (rsum_ext _ (fun _ => 0)); [apply rsum_0|]. intros t Ht. apply in_seq0 in Ht. rewrite C0 by assumption. ring. }
    rewrite B, vadd_zero. replace (0 + 0) with 0 by ring. apply IH. intros j Hj. apply Hl. now right. }
  destruct (G (unique n lab) 0 (fun k Hk => Hk)) as [ll' E]. exists ll'. exact E.
Qed.
(** ... and the conditional test raises as soon as y is constant within a block of at least 6 samples. *)
Theorem C225_constant_block_refuted : forall eigh order eigv median pinv round6 lik nullss n dx dy dz X Y Z runs lab chi k, (forall l, Permutation (order l) l) -> (forall m, (0 < m)%nat -> zero_eigen eigh m) -> eigv 0%nat = (fun _ => []) ->
  In (lab, chi) runs -> (6 <= length (members n lab k))%nat -> (forall s t c, (s < n)%nat -> (t < n)%nat -> lab s = k -> lab t = k -> (c < dy)%nat -> Y s c = Y t c) ->
  fast_c eigh order eigv median pinv round6 lik nullss n dx dy dz X Y Z runs = None.
Proof.
  intros eigh order eigv median pinv round6 lik nullss n dx dy dz X Y Z runs lab chi k HO ZE E0 Hr H6 HY. unfold fast_c.
  assert (B : block_c eigh order eigv median pinv nullss n dx dy dz X Y Z (members n lab k) (chi k) = None).
  { unfold block_c. set (m := length (members n lab k)) in *. destruct (kci_c median pinv m _ _ _ dx dy dz _ _ _) as [[st A] B] eqn:E.
    assert (B0 : forall s t, (s < m)%nat -> (t < m)%nat -> B s t = 0).
    { unfold kci_c in E. assert (EB : B = sandwich m (regressor pinv m (1 / 1000) (center m (kernel_c median m dz dz (Gaussian Empirical) (zscore m (sub (members n lab k) Z))))) (center m (kernel_c median m dz dy (Gaussian Empirical) (zscore m (sub (members n lab k) Y))))) by (apply (f_equal snd) in E; now symmetry).
      rewrite EB. apply sandwich_zero. assert (CY : const_cols m dy (sub (members n lab k) Y)).
      { intros s c Hs Hc. unfold sub. assert (I1 := nth_In (members n lab k) 0%nat Hs). assert (I2 := nth_In (members n lab k) 0%nat (Nat.lt_le_trans 0 6 m ltac:(lia) H6)). apply in_members in I1, I2. destruct I1, I2. now apply HY. }
      destruct (constant_kernel_c median m dz dy (Gaussian Empirical) _ (Nat.lt_le_trans 0 6 m ltac:(lia) H6) CY) as [c Hc]. apply (center_const m _ c); [lia|exact Hc]. }
    unfold uuprod. destruct (big_pairs eigh order (1 / 1000000) m A) as [la|]; [|reflexivity]. rewrite (zero_pairs eigh order _ m B HO (ZE m (Nat.lt_le_trans 0 6 m ltac:(lia) H6)) B0). cbn [scaled map]. rewrite products_nil. cbn [length]. destruct (Nat.ltb_spec n 0); [lia|].
    unfold null_c. rewrite E0, Nat.min_0_r. reflexivity. }
  assert (OB : on_blocks (block_c eigh order eigv median pinv nullss n dx dy dz X Y Z) lik 6 nullss n lab chi = None).
  { unfold on_blocks. assert (IU : In k (unique n lab)). { apply in_unique. destruct (members n lab k) as [|s l] eqn:Em; [cbn in H6; lia|]. exists s. apply in_members. rewrite Em. now left. }
    apply in_split in IU. destruct IU as (l1 & l2 & ->). rewrite fold_left_app. cbn [fold_left]. match goal with |- fold_left _ l2 ?x = None => assert (x = None) as -> end.
    - destruct (fold_left _ l1 _) as [[[a b] c]|]; [|reflexivity]. cbv zeta. destruct (Nat.ltb_spec (length (members n lab k)) 6); [lia|]. now rewrite B.
    - apply fold_none. }
  unfold fast_p. match goal with |- match ?a with _ => _ end = _ => destruct a as [rs|] eqn:E end; [|reflexivity]. exfalso. apply all_some_map in E.
  assert (I : In (on_blocks (block_c eigh order eigv median pinv nullss n dx dy dz X Y Z) lik 6 nullss n lab chi) (map (fun r => on_blocks (block_c eigh order eigv median pinv nullss n dx dy dz X Y Z) lik 6 nullss n (fst r) (snd r)) runs)) by (apply in_map_iff; exists (lab, chi); auto).
  rewrite E, OB in I. apply in_map_iff in I. destruct I as (x & Q & _). discriminate.
Qed.

(** ** The hypotheses can be met *)
Definition diagonal_eigh : nat -> rmat -> list (R * rvec) := fun n A => map (fun i => (A i i, fun s => eye i s)) (seq 0 n).
Definition diagonal_eigv : nat -> rmat -> list R := fun n A => map (fun i => A i i) (seq 0 n).
(** For the multiples of the identity matrix these are the eigenvalues, and all are kept. *)
Theorem C222_example : forall n c, (0 < n)%nat -> 0 < c -> decomposed diagonal_eigh (1 / 100000) n (fun i j => c * eye i j) /\ eigenvalues n (fun i j => c * eye i j) (diagonal_eigv n (fun i j => c * eye i j)) /\
  null_mean n (fun i j => c * eye i j) (fun i j => c * eye i j) = INR n * (c * c) /\ (forall x, In x (diagonal_eigv n (fun i j => c * eye i j)) -> x = c).
Proof.
  intros n c Hn Hc. assert (DI : forall i, eye i i = 1) by (intros; unfold eye; now rewrite Nat.eqb_refl). split; [|split; [|split]].
  - split; [|split].
    + unfold diagonal_eigh. destruct n; [lia|discriminate].
    + intros s t Hs Ht. unfold diagonal_eigh. rewrite rsum_map. cbn [fst snd]. rewrite (rsum_ext _ (fun i => eye s i * (c * eye s t))).
      * now rewrite (rsum_eye n s (fun _ => c * eye s t)).
      * intros i _. rewrite DI. unfold eye. rewrite (Nat.eqb_sym s i). destruct (Nat.eqb_spec i s) as [-> |]; ring.
    + intros p Hp. right. intros q Hq. unfold diagonal_eigh in *. apply in_map_iff in Hp, Hq. destruct Hp as (i & <- & _), Hq as (j & <- & _). cbn [fst]. rewrite !DI. lra.
  - unfold eigenvalues, diagonal_eigv. rewrite map_length, seq_length, !rsum_map. repeat split. rewrite trace_square. apply rsum_ext. intros i Hi. apply in_seq0 in Hi.
    rewrite (rsum_ext (fun j => c * eye i j * (c * eye j i)) (fun j => eye i j * (c * c))); [rewrite (rsum_eye n i (fun _ => c * c) Hi), DI; ring|]. intros j _. unfold eye. rewrite (Nat.eqb_sym j i). destruct (Nat.eqb i j); ring.
  - unfold null_mean. rewrite (rsum_ext _ (fun _ => c * c)) by (intros; rewrite DI; ring). now rewrite rsum_const, seq_length.
  - intros x Hx. apply in_map_iff in Hx. destruct Hx as (i & <- & _). rewrite DI. ring.
Qed.
Theorem C224_examples : rounds6 (fun x => x) /\ pinv_symmetric (fun _ A => A) /\ pinv_ordered (fun _ A => A) /\ zero_values diagonal_eigv /\ values_length diagonal_eigv /\ (forall m, (0 < m)%nat -> zero_eigen diagonal_eigh m).
Proof.
  split; [|split; [|split; [|split; [|split]]]].
  - intros x. split; [|auto]. rewrite Rminus_diag_eq by reflexivity. rewrite Rabs_R0. lra.
  - intros n A H. exact H.
  - exact pinv_ordered_met.
  - intros n A H. split; [unfold diagonal_eigv; now rewrite map_length, seq_length|]. intros x Hx. apply in_map_iff in Hx. destruct Hx as (i & <- & Hi). apply in_seq0 in Hi. now apply H.
  - intros n A. unfold diagonal_eigv. now rewrite map_length, seq_length.
  - intros m Hm A H. split; [unfold diagonal_eigh; destruct m; [lia|discriminate]|]. intros p Hp. apply in_map_iff in Hp. destruct Hp as (i & <- & Hi). apply in_seq0 in Hi. now apply H.
Qed.
