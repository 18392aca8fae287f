(** Null distributions of the kernel tests, and FastKCI. *)
From Verif Require Import Base UtilsModel BICModel BICProofs EffectModel EffectProofs VARModel VARProofs ChisqProps CALMProofs KCIModel KCIProofs KCIProps HSICModel HSICMedian NullModel NullProofs.
From Coq Require Import Permutation Reals Lra Sorting.
Local Open Scope R_scope.

(** ** C222: the parameters of the gamma approximation *)
(** What eigh must return for A to be recovered from the eigenvectors that are kept: A is the sum of the eigenvalues times the products of the eigenvectors, and the eigenvalues
    that are dropped (at most thresh times another one) are 0. *)
Definition decomposed (eigh : nat -> rmat -> list (R * rvec)) (thresh : R) (n : nat) (A : rmat) : Prop :=
  eigh n A <> [] /\ (forall s t, (s < n)%nat -> (t < n)%nat -> A s t = rsum (fun p => fst p * (snd p s * snd p t)) (eigh n A)) /\
  forall p, In p (eigh n A) -> fst p = 0 \/ forall q, In q (eigh n A) -> fst q * thresh < fst p.
(** Mean and variance of the sum of the eigenvalues of the Hadamard product times independent chi-square variables. *)
Definition null_mean (n : nat) (A B : rmat) : R := rsum (fun s => A s s * B s s) (seq 0 n).
Definition null_var (n : nat) (A B : rmat) : R := 2 * rsum (fun s => rsum (fun t => (A s t * B s t) ^ 2) (seq 0 n)) (seq 0 n).
Section K.
Variable eigh : nat -> rmat -> list (R * rvec).
Variable order : list (R * rvec) -> list (R * rvec).
Hypothesis HO : forall l, Permutation (order l) l.
(** What is kept of A. *)
Definition truncated (thresh : R) (n : nat) (A : rmat) (l : list (R * rvec)) : Prop :=
  Permutation l (filter (fun p => forallb (fun q => if Rlt_dec (fst q * thresh) (fst p) then true else false) (eigh n A)) (eigh n A)).
Lemma big_pairs_spec thresh n A l : 0 <= thresh < 1 -> big_pairs eigh order thresh n A = Some l -> truncated thresh n A l /\ forall p, In p l -> 0 < fst p.
Proof.
  intros Ht. unfold big_pairs. destruct (lmax (map fst (order (eigh n A)))) as [m|] eqn:M; [|discriminate]. intros E. injection E as <-. split.
  - unfold truncated. assert (F : forall p : R * rvec, above (m * thresh) (fst p) = forallb (fun q => if Rlt_dec (fst q * thresh) (fst p) then true else false) (eigh n A)).
    { intros p. apply Bool.eq_iff_eq_true. rewrite above_In, forallb_forall. split.
      - intros L q Hq. destruct (Rlt_dec (fst q * thresh) (fst p)) as [|N]; [reflexivity|]. exfalso. apply N. apply (Rle_lt_trans _ (m * thresh)); [|exact L]. apply Rmult_le_compat_r; [lra|].
        apply (lmax_ge _ _ M), in_map. apply (Permutation_in _ (Permutation_sym (HO _))), Hq.
      - intros H. assert (IM : In m (map fst (order (eigh n A)))) by (clear - M; destruct (map fst (order (eigh n A))) as [|a l]; [discriminate|]; injection M as <-;
          cut (forall l a, In (fold_left Rmax l a) (a :: l)); [auto|]; clear; induction l as [|b l IH]; intros a; [left; reflexivity|]; cbn [fold_left]; destruct (IH (Rmax a b)) as [E|E];
          [rewrite <- E; unfold Rmax; destruct (Rle_dec a b); [right; left|left]; reflexivity|right; right; exact E]).
        apply in_map_iff in IM. destruct IM as (q & <- & Hq). apply (Permutation_in _ (HO _)) in Hq. specialize (H q Hq). cbn beta in H. destruct (Rlt_dec (fst q * thresh) (fst p)); [assumption|discriminate]. }
    rewrite (filter_ext _ _ F). apply Permutation_filter, HO.
  - intros p Hp. apply filter_In in Hp. destruct Hp as [H1 H2]. apply (kept_pos _ m thresh (fst p) M Ht (in_map fst _ _ H1) H2).
Qed.
(** Whichever of the two products is formed, its trace and the trace of its square are those of the Hadamard product of what is kept of the two matrices. *)
Theorem C222_traces : forall thresh limit n A B d M size, 0 <= thresh < 1 -> uuprod eigh order thresh limit n A B = Some (d, M, size) ->
  exists la lb, truncated thresh n A la /\ truncated thresh n B lb /\
  mtrace d M = null_mean n (outer la) (outer lb) /\ 2 * mtrace d (mmul d M M) = null_var n (outer la) (outer lb).
Proof.
  intros thresh limit n A B d M size Ht. unfold uuprod. destruct (big_pairs eigh order thresh n A) as [la|] eqn:Ea; [|discriminate]. destruct (big_pairs eigh order thresh n B) as [lb|] eqn:Eb; [|discriminate].
  apply big_pairs_spec in Ea; [|exact Ht]. apply big_pairs_spec in Eb; [|exact Ht]. destruct Ea as [Ta Pa], Eb as [Tb Pb]. intros E. exists la, lb. split; [exact Ta|]. split; [exact Tb|].
  set (uu := products (scaled la) (scaled lb)) in *.
  assert (G : forall s t, gram uu s t = outer la s t * outer lb s t) by (intros s t; unfold uu; rewrite gram_products, !gram_scaled by (intros p Hp; left; auto); reflexivity).
  assert (Q : mtrace d M = mtrace n (gram uu) /\ mtrace d (mmul d M M) = mtrace n (mmul n (gram uu) (gram uu))).
  { destruct (Nat.ltb limit (length uu)); injection E as <- <- _; [split; reflexivity|]. split; [symmetry; apply trace_gram|symmetry; apply square_inner]. }
  destruct Q as [-> ->]. split.
  - unfold mtrace, null_mean. apply rsum_ext. intros s _. apply G.
  - rewrite trace_square. unfold null_var. f_equal. apply rsum_ext. intros s _. apply rsum_ext. intros t _. rewrite !G. assert (SY : forall l, outer l t s = outer l s t) by (intros l; unfold outer; apply rsum_ext; intros; ring). rewrite !SY. ring.
Qed.
Lemma decomposed_outer thresh n A l s t : decomposed eigh thresh n A -> truncated thresh n A l -> (s < n)%nat -> (t < n)%nat -> outer l s t = A s t.
Proof.
  intros (_ & D1 & D2) T Hs Ht. rewrite (D1 s t Hs Ht). refine (eq_trans (rsum_perm (fun p : R * rvec => fst p * (snd p s * snd p t)) _ _ T) _). apply rsum_filter0. intros p Hp F.
  destruct (D2 p Hp) as [E|H]; [refine (eq_trans (f_equal (fun w => w * (snd p s * snd p t)) E) _); ring|].
  exfalso. assert (forallb (fun q => if Rlt_dec (fst q * thresh) (fst p) then true else false) (eigh n A) = true); [|congruence]. apply forallb_forall. intros q Hq. specialize (H q Hq). destruct (Rlt_dec _ _); [reflexivity|contradiction].
Qed.
Lemma decomposed_pairs thresh n A : decomposed eigh thresh n A -> exists l, big_pairs eigh order thresh n A = Some l.
Proof.
  intros (N & _). unfold big_pairs. destruct (lmax_some (map fst (order (eigh n A)))) as [m ->]; [|eexists; reflexivity]. intros E. apply map_eq_nil in E. pose proof (HO (eigh n A)) as P. rewrite E in P. apply Permutation_nil in P. congruence.
Qed.
Lemma null_mean_ext n A A' B B' : (forall s t, (s < n)%nat -> (t < n)%nat -> A s t = A' s t) -> (forall s t, (s < n)%nat -> (t < n)%nat -> B s t = B' s t) -> null_mean n A B = null_mean n A' B'.
Proof. intros HA HB. unfold null_mean. apply rsum_ext. intros s Hs. apply in_seq0 in Hs. now rewrite HA, HB. Qed.
Lemma null_var_ext n A A' B B' : (forall s t, (s < n)%nat -> (t < n)%nat -> A s t = A' s t) -> (forall s t, (s < n)%nat -> (t < n)%nat -> B s t = B' s t) -> null_var n A B = null_var n A' B'.
Proof. intros HA HB. unfold null_var. f_equal. apply rsum_ext. intros s Hs. apply in_seq0 in Hs. apply rsum_ext. intros t Ht. apply in_seq0 in Ht. now rewrite HA, HB. Qed.
Variables (median : list R -> R) (pinv : nat -> rmat -> rmat) (gsf : R -> R -> R -> R).
Notation kp := (kci_p_gamma eigh order median pinv gsf).
(** The p-value of the conditional test: the gamma distribution with the mean and the variance of the null distribution of the two residual matrices. *)
Theorem C222_gamma_p : forall n kx ky kz dx dy dz X Y Z stat A B, kci_c median pinv n kx ky kz dx dy dz X Y Z = (stat, A, B) ->
  decomposed eigh (1 / 100000) n (symm A) -> decomposed eigh (1 / 100000) n (symm B) ->
  let m := null_mean n (symm A) (symm B) in let v := null_var n (symm A) (symm B) in
  kp n kx ky kz dx dy dz X Y Z = Some (if Req_EM_T v 0 then None else if Req_EM_T m 0 then None else Some (gsf stat (m ^ 2 / v) (v / m)), stat).
Proof.
  intros n kx ky kz dx dy dz X Y Z stat A B E DA DB m v. unfold kci_p_gamma. rewrite E. destruct (uuprod eigh order (1 / 100000) n n (symm A) (symm B)) as [[[d M] size]|] eqn:U.
  - assert (TH : 0 <= 1 / 100000 < 1) by lra. destruct (C222_traces _ _ _ _ _ _ _ _ TH U) as (la & lb & Ta & Tb & EM & EV).
    assert (OA : forall s t, (s < n)%nat -> (t < n)%nat -> outer la s t = symm A s t) by (intros; now apply (decomposed_outer (1 / 100000) n)).
    assert (OB : forall s t, (s < n)%nat -> (t < n)%nat -> outer lb s t = symm B s t) by (intros; now apply (decomposed_outer (1 / 100000) n)).
    rewrite (null_mean_ext n _ _ _ _ OA OB) in EM. rewrite (null_var_ext n _ _ _ _ OA OB) in EV. unfold kappa_c. rewrite EM, EV. fold m v. destruct (Req_EM_T v 0); [reflexivity|]. destruct (Req_EM_T m 0); reflexivity.
  - exfalso. unfold uuprod in U. destruct (decomposed_pairs _ _ _ DA) as [la EA], (decomposed_pairs _ _ _ DB) as [lb EB]. rewrite EA, EB in U. destruct (Nat.ltb _ _) in U; discriminate.
Qed.
(** It is between 0 and 1. *)
Theorem C222_gamma_range : forall n kx ky kz dx dy dz X Y Z p stat, (forall s k t, 0 <= gsf s k t <= 1) -> kp n kx ky kz dx dy dz X Y Z = Some (Some p, stat) -> 0 <= p <= 1.
Proof.
  intros n kx ky kz dx dy dz X Y Z p stat H. unfold kci_p_gamma. destruct (kci_c _ _ _ _ _ _ _ _ _ _ _ _) as [[s A] B]. destruct (uuprod _ _ _ _ _ _ _) as [[[d M] size]|]; [|discriminate].
  destruct (kappa_c d M) as [[k th]|]; intros [= <- _]. apply H.
Qed.
(** Reordering the samples changes neither the p-value nor the statistic. *)
Theorem C222_sample_order : forall n sg kx ky kz dx dy dz X Y Z, shuffle n sg -> (forall l m, Permutation l m -> median l = median m) -> pinv_ordered pinv ->
  let dec := fun r : R * rmat * rmat => decomposed eigh (1 / 100000) n (symm (snd (fst r))) /\ decomposed eigh (1 / 100000) n (symm (snd r)) in
  dec (kci_c median pinv n kx ky kz dx dy dz X Y Z) -> dec (kci_c median pinv n kx ky kz dx dy dz (fun s => X (sg s)) (fun s => Y (sg s)) (fun s => Z (sg s))) ->
  kp n kx ky kz dx dy dz (fun s => X (sg s)) (fun s => Y (sg s)) (fun s => Z (sg s)) = kp n kx ky kz dx dy dz X Y Z.
Proof.
  intros n sg kx ky kz dx dy dz X Y Z SH HM PO dec. pose proof (C187_sample_order median pinv n sg kx ky kz dx dy dz X Y Z SH HM PO) as S0.
  destruct (kci_c median pinv n kx ky kz dx dy dz X Y Z) as [[v A] B] eqn:E. destruct (kci_c median pinv n kx ky kz dx dy dz (fun s => X (sg s)) (fun s => Y (sg s)) (fun s => Z (sg s))) as [[v' A'] B'] eqn:E'.
  destruct S0 as (-> & RA & RB). intros [DA DB] [DA' DB']. cbn [fst snd] in *. rewrite (C222_gamma_p _ _ _ _ _ _ _ _ _ _ _ _ _ E DA DB), (C222_gamma_p _ _ _ _ _ _ _ _ _ _ _ _ _ E' DA' DB').
  assert (RS : forall M' M, related n sg M' M -> related n sg (symm M') (symm M)) by (intros M' M H i j Hi Hj; unfold symm; rewrite !H by assumption; reflexivity).
  assert (EM : null_mean n (symm A') (symm B') = null_mean n (symm A) (symm B)).
  { unfold null_mean. apply (sh_sum' n sg SH). intros s Hs. now rewrite (RS _ _ RA), (RS _ _ RB). }
  assert (EV : null_var n (symm A') (symm B') = null_var n (symm A) (symm B)).
  { unfold null_var. f_equal. apply (sh_sum' n sg SH). intros s Hs. apply (sh_sum' n sg SH). intros t Ht. now rewrite (RS _ _ RA), (RS _ _ RB). }
  now rewrite EM, EV.
Qed.
End K.

(** ** C223: the simulated null distribution *)
(** What eigvalsh must return. *)
Definition eigenvalues (n : nat) (A : rmat) (l : list R) : Prop :=
  length l = n /\ rsum (fun x => x) l = mtrace n A /\ rsum (fun x => x ^ 2) l = mtrace n (mmul n A A).
(** Unconditional test with at most 1000 samples: the weights of the chi-square variables have the sum and twice the sum of squares that the gamma approximation uses as mean and variance
    (products of eigenvalues that are dropped must be zero). *)
Lemma firstn_desc n l : length l = n -> firstn n (descending l) = descending l.
Proof. intros H. apply firstn_all2. unfold descending. rewrite rev_length, (Permutation_length (rsort_perm l)). lia. Qed.
Lemma desc_perm l : Permutation (descending l) l. Proof. unfold descending. rewrite <- (Permutation_rev (rsort l)). apply rsort_perm. Qed.
Lemma keep_big_sum thresh l w (f : R -> R) : f 0 = 0 -> 0 <= thresh -> (forall x, In x l -> x = 0 \/ forall y, In y l -> y * thresh < x) -> keep_big thresh l = Some w -> rsum f w = rsum f l.
Proof.
  intros F0 Ht H. unfold keep_big. destruct (lmax l) as [m|] eqn:M; [|discriminate]. intros [= <-]. apply rsum_filter0. intros x Hx E. destruct (H x Hx) as [-> | G]; [exact F0|]. exfalso.
  assert (IM : In m l) by (clear - M; destruct l as [|a l]; [discriminate|]; injection M as <-; revert a; induction l as [|b l IH]; intros a; [left; reflexivity|]; cbn [fold_left]; destruct (IH (Rmax a b)) as [E|E];
    [rewrite <- E; unfold Rmax; destruct (Rle_dec a b); [right; left|left]; reflexivity|right; right; exact E]).
  specialize (G m IM). rewrite (proj2 (above_In _ _) G) in E. discriminate.
Qed.
Lemma sum_products (f : R -> R) l m : (forall a b, f (a * b) = f a * f b) -> rsum f (flat_map (fun a => map (fun b => a * b) m) l) = rsum f l * rsum f m.
Proof.
  intros H. rewrite rsum_flat. rewrite (rsum_ext _ (fun a => rsum f m * f a)); [rewrite rsum_mult; ring|]. intros a _. rewrite rsum_map. rewrite (rsum_ext _ (fun b => f a * f b)) by (intros; apply H). rewrite rsum_mult. ring.
Qed.
Theorem C223_unconditional : forall eigv thresh n A B, (0 < n <= 1000)%nat -> 0 <= thresh -> symmetric n A -> symmetric n B -> eigenvalues n A (eigv n A) -> eigenvalues n B (eigv n B) ->
  (forall a b, In a (eigv n A) -> In b (eigv n B) -> a * b = 0 \/ forall a' b', In a' (eigv n A) -> In b' (eigv n B) -> a' * b' * thresh < a * b) ->
  exists w, (forall nullss chi, null_u eigv thresh nullss n A B chi = Some (map (fun r => rsum (fun i => nth i w 0 * chi i r) (seq 0 (length w)) / INR n) (seq 0 nullss))) /\
  rsum (fun x => x / INR n) w = mean_appr n A B /\ 2 * rsum (fun x => (x / INR n) ^ 2) w = var_appr n A B.
Proof.
  intros eigv thresh n A B Hn Ht SA SB (LA & TA & QA) (LB & TB & QB) H. assert (NE : num_eig n = n) by (unfold num_eig; destruct (Nat.ltb_spec 1000 n); [lia|reflexivity]).
  set (pr := flat_map (fun a => map (fun b => a * b) (descending (eigv n B))) (descending (eigv n A))).
  assert (PN : pr <> []). { unfold pr. pose proof (Permutation_length (desc_perm (eigv n A))) as P1. pose proof (Permutation_length (desc_perm (eigv n B))) as P2. destruct (descending (eigv n A)); [cbn in P1; lia|]. destruct (descending (eigv n B)); [cbn in P2; lia|]. discriminate. }
  assert (PB : forall x, In x pr -> x = 0 \/ forall y, In y pr -> y * thresh < x).
  { intros x Hx. apply in_flat_map in Hx. destruct Hx as (a & Ha & Hx). apply in_map_iff in Hx. destruct Hx as (b & <- & Hb). apply (Permutation_in _ (desc_perm _)) in Ha, Hb. destruct (H a b Ha Hb) as [E|G]; [now left|right].
    intros y Hy. apply in_flat_map in Hy. destruct Hy as (a' & Ha' & Hy). apply in_map_iff in Hy. destruct Hy as (b' & <- & Hb'). apply (Permutation_in _ (desc_perm _)) in Ha', Hb'. now apply G. }
  destruct (keep_big thresh pr) as [w|] eqn:K; [|exfalso; unfold keep_big in K; destruct (lmax_some pr PN) as [m E]; rewrite E in K; discriminate].
  exists w. assert (W : weights_u thresh n (eigv n A) (eigv n B) = Some w) by (unfold weights_u; rewrite NE, !firstn_desc by assumption; exact K). split; [|split].
  - intros nullss chi. unfold null_u. rewrite W. unfold simulate. now rewrite map_map.
  - rewrite (rsum_ext _ (fun x => / INR n * x)) by (intros; unfold Rdiv; ring). rewrite rsum_mult, (keep_big_sum thresh pr w (fun x => x) eq_refl Ht PB K). unfold pr.
    rewrite (sum_products (fun x => x)) by reflexivity. rewrite !(rsum_perm _ _ _ (desc_perm _)), TA, TB. unfold mean_appr, Rdiv. ring.
  - rewrite (rsum_ext _ (fun x => (/ INR n * / INR n) * x ^ 2)) by (intros; unfold Rdiv; ring). rewrite rsum_mult, (keep_big_sum thresh pr w (fun x => x ^ 2) ltac:(cbv beta; ring) Ht PB K). unfold pr.
    rewrite (sum_products (fun x => x ^ 2)) by (intros; ring). rewrite !(rsum_perm _ _ _ (desc_perm _)), QA, QB. rewrite !trace_square. unfold var_appr, msum, Rdiv.
    assert (SQ : forall K, symmetric n K -> rsum (fun i => rsum (fun j => K i j * K j i) (seq 0 n)) (seq 0 n) = rsum (fun i => rsum (fun j => K i j ^ 2) (seq 0 n)) (seq 0 n)).
    { intros K0 S0. apply rsum_ext. intros i Hi. apply in_seq0 in Hi. apply rsum_ext. intros j Hj. apply in_seq0 in Hj. rewrite (S0 j i Hj Hi). ring. }
    rewrite (SQ A SA), (SQ B SB). ring.
Qed.
(** Conditional test: the same for the product of the eigenvectors. *)
Theorem C223_conditional : forall eigh order eigv thresh n A B d M size, uuprod eigh order thresh n n A B = Some (d, M, size) -> (0 < size)%nat -> (0 < n)%nat -> 0 <= thresh -> eigenvalues d M (eigv d M) ->
  (forall x, In x (eigv d M) -> x = 0 \/ forall y, In y (eigv d M) -> y * thresh < x) ->
  exists w, (forall nullss chi, null_c eigv thresh nullss n d M size chi = Some (map (fun r => rsum (fun i => nth i w 0 * chi i r) (seq 0 (length w))) (seq 0 nullss))) /\
  rsum (fun x => x) w = mtrace d M /\ 2 * rsum (fun x => x ^ 2) w = 2 * mtrace d (mmul d M M).
Proof.
  intros eigh order eigv thresh n A B d M size U Hs Hn Ht (L & T & Q) H. assert (D : Nat.min n size = d /\ (0 < d)%nat).
  { unfold uuprod in U. destruct (big_pairs _ _ _ _ A); [|discriminate]. destruct (big_pairs _ _ _ _ B); [|discriminate]. destruct (Nat.ltb_spec n (length (products (scaled l) (scaled l0)))); injection U as <- _ <-; lia. }
  destruct D as [Dm Dp]. set (ev := descending (eigv d M)). assert (PB : forall x, In x ev -> x = 0 \/ forall y, In y ev -> y * thresh < x).
  { intros x Hx. apply (Permutation_in _ (desc_perm _)) in Hx. destruct (H x Hx) as [E|G]; [now left|right]. intros y Hy. apply G. now apply (Permutation_in _ (desc_perm _)). }
  destruct (keep_big thresh ev) as [w|] eqn:K.
  - exists w. split; [|split].
    + intros nullss chi. unfold null_c. rewrite Dm, firstn_desc by exact L. fold ev. rewrite K. reflexivity.
    + rewrite (keep_big_sum thresh ev w (fun x => x) eq_refl Ht PB K). unfold ev. now rewrite (rsum_perm _ _ _ (desc_perm _)).
    + rewrite (keep_big_sum thresh ev w (fun x => x ^ 2) ltac:(cbv beta; ring) Ht PB K). unfold ev. now rewrite (rsum_perm _ _ _ (desc_perm _)), Q.
  - exfalso. unfold keep_big in K. destruct (lmax_some ev) as [m E]; [|rewrite E in K; discriminate]. intros E. pose proof (Permutation_length (desc_perm (eigv d M))) as P. fold ev in P. rewrite E, L in P. cbn in P. lia.
Qed.
Lemma spectral_range nullss null stat : (0 < nullss)%nat -> length null = nullss -> 0 <= spectral_p nullss null stat <= 1.
Proof.
  intros Hn <-. unfold spectral_p. assert (P : 0 < INR (length null)) by now apply lt_0_INR. pose proof (filter_len (fun x => if Rlt_dec stat x then true else false) null) as F. apply le_INR in F. split.
  - apply Rmult_le_pos; [apply pos_INR|left; now apply Rinv_0_lt_compat].
  - apply (Rmult_le_reg_r (INR (length null))); [exact P|]. unfold Rdiv. rewrite Rmult_assoc, Rinv_l by lra. lra.
Qed.
Theorem C223_range : forall eigh order eigv median pinv nullss n chi kx ky kz dx dy dz X Y Z p stat, (0 < nullss)%nat ->
  kci_p_spectral eigh order eigv median pinv nullss n chi kx ky kz dx dy dz X Y Z = Some (p, stat) -> 0 <= p <= 1.
Proof.
  intros eigh order eigv median pinv nullss n chi kx ky kz dx dy dz X Y Z p stat Hn. unfold kci_p_spectral. destruct (kci_c _ _ _ _ _ _ _ _ _ _ _ _) as [[s A] B]. destruct (uuprod _ _ _ _ _ _ _) as [[[d M] size]|]; [|discriminate].
  unfold null_c. destruct (keep_big _ _) as [w|]; [|discriminate]. intros [= <- _]. apply spectral_range; [exact Hn|]. unfold simulate. now rewrite map_length, seq_length.
Qed.
(** If y is constant the gamma version gives NaN and the simulated version raises. *)
Definition zero_eigen (eigh : nat -> rmat -> list (R * rvec)) (n : nat) : Prop := forall A, (forall s t, (s < n)%nat -> (t < n)%nat -> A s t = 0) -> eigh n A <> [] /\ forall p, In p (eigh n A) -> fst p = 0.
Definition some_eigen (eigh : nat -> rmat -> list (R * rvec)) (n : nat) : Prop := forall A, eigh n A <> [].
Lemma sandwich_zero n R0 K : (forall s t, (s < n)%nat -> (t < n)%nat -> K s t = 0) -> forall s t, (s < n)%nat -> (t < n)%nat -> sandwich n R0 K s t = 0.
Proof.
  intros H s t Hs Ht. unfold sandwich, mmul. rewrite (rsum_ext _ (fun _ => 0)); [apply rsum_0|]. intros k Hk. apply in_seq0 in Hk. rewrite (rsum_ext _ (fun _ => 0)); [rewrite rsum_0; ring|]. intros j Hj. apply in_seq0 in Hj. rewrite H by assumption. ring.
Qed.
Lemma center_const n K c : (0 < n)%nat -> (forall s t, (s < n)%nat -> (t < n)%nat -> K s t = c) -> forall s t, (s < n)%nat -> (t < n)%nat -> center n K s t = 0.
Proof.
  intros Hn H s t Hs Ht. assert (P : INR n <> 0) by (apply not_0_INR; lia). assert (CS : forall j, (j < n)%nat -> colsum n K j = INR n * c).
  { intros j Hj. unfold colsum. rewrite (rsum_ext _ (fun _ => c)) by (intros i Hi; apply in_seq0 in Hi; now apply H). rewrite rsum_const, seq_length. reflexivity. }
  unfold center. rewrite H, !CS by assumption. rewrite (rsum_ext _ (fun _ => INR n * c)) by (intros j Hj; apply in_seq0 in Hj; now apply CS). rewrite rsum_const, seq_length. field. exact P.
Qed.
Definition const_cols (n d : nat) (X : data) : Prop := forall s c, (s < n)%nat -> (c < d)%nat -> X s c = X 0%nat c.
Lemma constant_z n d X s c : const_cols n d X -> (s < n)%nat -> (c < d)%nat -> zscore n X s c = 0.
Proof. intros H Hs Hc. apply zscore_const; [exact Hs|]. intros t Ht. now apply H. Qed.
Lemma constant_kernel_c median n dz d k Y : (0 < n)%nat -> const_cols n d Y -> exists c, forall s t, (s < n)%nat -> (t < n)%nat -> kernel_c median n dz d k (zscore n Y) s t = c.
Proof.
  intros Hn H. assert (D0 : forall s t, (s < n)%nat -> (t < n)%nat -> sqdist d (zscore n Y) s t = 0).
  { intros s t Hs Ht. unfold sqdist. rewrite (rsum_ext _ (fun _ => 0)); [apply rsum_0|]. intros c Hc. apply in_seq0 in Hc. rewrite !(constant_z n d Y _ c H) by assumption. ring. }
  assert (L0 : forall s t, (s < n)%nat -> (t < n)%nat -> rdot d (zscore n Y s) (zscore n Y t) = 0).
  { intros s t Hs Ht. unfold rdot. rewrite (rsum_ext _ (fun _ => 0)); [apply rsum_0|]. intros c Hc. apply in_seq0 in Hc. rewrite !(constant_z n d Y _ c H) by assumption. ring. }
  destruct k as [w| |g].
  - exists (exp 0). intros s t Hs Ht. destruct w as [w| |]; cbn [kernel_c]; unfold gaussian; rewrite D0 by assumption; f_equal; ring.
  - exists 0. intros s t Hs Ht. cbn [kernel_c]. unfold linear_k. now apply L0.
  - exists ((1 + 0) ^ g). intros s t Hs Ht. cbn [kernel_c]. unfold polynomial_k. now rewrite L0.
Qed.
Lemma zero_pairs eigh order thresh n A : (forall l, Permutation (order l) l) -> zero_eigen eigh n -> (forall s t, (s < n)%nat -> (t < n)%nat -> A s t = 0) -> big_pairs eigh order thresh n A = Some [].
Proof.
  intros HO ZE H. destruct (ZE A H) as [N Z0]. unfold big_pairs. assert (NE : map fst (order (eigh n A)) <> []) by (intros E; apply map_eq_nil in E; pose proof (HO (eigh n A)) as P; rewrite E in P; apply Permutation_nil in P; congruence).
  assert (C0 : forall x, In x (map fst (order (eigh n A))) -> x = 0) by (intros x Hx; apply in_map_iff in Hx; destruct Hx as (p & <- & Hp); apply Z0, (Permutation_in _ (HO _)), Hp).
  rewrite (lmax_const _ 0 NE C0). f_equal. assert (F : forall l, (forall p, In p l -> fst p = 0) -> filter (fun p : R * rvec => above (0 * thresh) (fst p)) l = []).
  { induction l as [|p l IH]; intros G; [reflexivity|]. cbn [filter]. rewrite (G p (or_introl eq_refl)). unfold above. destruct (Rlt_dec (0 * thresh) 0) as [L|_]; [exfalso; lra|]. apply IH. intros q Hq. apply G. now right. }
  apply F. intros p Hp. apply C0, in_map, Hp.
Qed.
Lemma products_nil vx : products vx [] = []. Proof. induction vx as [|a l IH]; [reflexivity|exact IH]. Qed.
Theorem C223_constant_refuted : forall eigh order eigv median pinv gsf nullss n chi kx ky kz dx dy dz X Y Z, (0 < n)%nat -> (forall l, Permutation (order l) l) -> zero_eigen eigh n -> some_eigen eigh n -> eigv 0%nat = (fun _ => []) ->
  ky <> Gaussian Median -> const_cols n dy Y ->
  (exists stat, kci_p_gamma eigh order median pinv gsf n kx ky kz dx dy dz X Y Z = Some (None, stat)) /\ kci_p_spectral eigh order eigv median pinv nullss n chi kx ky kz dx dy dz X Y Z = None.
Proof.
  intros eigh order eigv median pinv gsf nullss n chi kx ky kz dx dy dz X Y Z Hn HO ZE SE E0 _ HY. destruct (kci_c median pinv n kx ky kz dx dy dz X Y Z) as [[stat A] B] eqn:E.
  assert (B0 : forall s t, (s < n)%nat -> (t < n)%nat -> B s t = 0).
  { unfold kci_c in E. injection E as _ _ <-. apply sandwich_zero. destruct (constant_kernel_c median n dz dy ky Y Hn HY) as [c Hc]. now apply (center_const n _ c). }
  assert (U : exists M, uuprod eigh order (1 / 100000) n n (symm A) (symm B) = Some (0%nat, M, 0%nat)).
  { unfold uuprod. rewrite (zero_pairs eigh order _ n (symm B) HO ZE) by (intros s t Hs Ht; unfold symm; rewrite !B0 by assumption; ring). destruct (big_pairs eigh order (1 / 100000) n (symm A)) as [la|] eqn:EA.
    - cbn [scaled map]. rewrite products_nil. cbn [length]. destruct (Nat.ltb_spec n 0); [lia|]. eexists. reflexivity.
    - exfalso. unfold big_pairs in EA. destruct (lmax_some (map fst (order (eigh n (symm A))))) as [m Em]; [|rewrite Em in EA; discriminate]. intros Q. apply map_eq_nil in Q. pose proof (HO (eigh n (symm A))) as P. rewrite Q in P. apply Permutation_nil in P. now apply (SE (symm A)). }
  destruct U as [M U]. split.
  - exists stat. unfold kci_p_gamma. rewrite E, U. unfold kappa_c, mtrace. cbn [seq]. unfold rsum. cbn [map fold_right]. destruct (Req_EM_T (2 * 0) 0) as [_|N]; [reflexivity|]. exfalso. apply N. ring.
  - unfold kci_p_spectral. rewrite E, U. unfold null_c. rewrite E0, Nat.min_0_r. reflexivity.
Qed.
