(** Lemmas about the time series model. *)
From Verif Require Import Base UtilsModel UtilsProofs GraphSpec BICModel BICProofs LingamModel LingamSpec LingamProofs EffectModel EffectSpec EffectProofs VARModel VARSpec.
From Coq Require Import Permutation Reals Lra.
Local Open Scope R_scope.

Lemma fold_plus {A} (f : A -> rvec) l : forall e i, fold_left (fun (e : rvec) x => fun i => e i + f x i) l e i = e i + rsum (fun x => f x i) l.
Proof. induction l as [|a l IH]; intros e i; cbn [fold_left]; [unfold rsum; cbn; lra|]. rewrite IH, rsum_cons. lra. Qed.
Lemma fold_plus1 {A} (f : A -> R) l : forall s, fold_left (fun s x => s + f x) l s = s + rsum f l.
Proof. induction l as [|a l IH]; intros s; cbn [fold_left]; [unfold rsum; cbn; lra|]. rewrite IH, rsum_cons. lra. Qed.
Lemma estimated_sum p Ms lags X t i : estimated p Ms lags X t i = rsum (fun tau => rsum (fun j => nth (tau - 1) Ms zmat i j * X (t - tau)%nat j) (seq 0 p)) (seq 1 lags).
Proof. unfold estimated. rewrite fold_plus. unfold mvec, rdot. lra. Qed.
Lemma rsum_eye p i (v : rvec) : (i < p)%nat -> rsum (fun k => eye i k * v k) (seq 0 p) = v i.
Proof.
  intros Hi. rewrite (rsum_support p _ [i]).
  - unfold rsum, eye; cbn. rewrite Nat.eqb_refl. lra.
  - constructor; [easy|constructor].
  - intros a [<-|[]]. exact Hi.
  - intros a N. unfold eye. destruct (Nat.eqb_spec i a) as [->|]; [exfalso; apply N; now left|lra].
Qed.
Lemma eye_minus_row p B i (v : rvec) : (i < p)%nat -> mvec p (eye_minus B) v i = v i - rdot p (B i) v.
Proof.
  intros Hi. unfold mvec, rdot, eye_minus. rewrite (rsum_ext _ (fun k => eye i k * v k - B i k * v k)) by (intros; lra). rewrite rsum_minus, rsum_eye by exact Hi. reflexivity.
Qed.
Lemma mvec_mmul p A B v i : mvec p (mmul p A B) v i = mvec p A (mvec p B v) i.
Proof.
  unfold mvec, rdot, mmul. transitivity (rsum (fun j => rsum (fun k => A i k * B k j * v j) (seq 0 p)) (seq 0 p)).
  - apply rsum_ext. intros j _. rewrite Rmult_comm, <- rsum_mult. apply rsum_ext. intros; lra.
  - rewrite rsum_swap. apply rsum_ext. intros k _. rewrite <- rsum_mult. apply rsum_ext. intros; lra.
Qed.
Lemma mvec_sum {A} p B (f : A -> rvec) l i : mvec p B (fun j => rsum (fun x => f x j) l) i = rsum (fun x => mvec p B (f x) i) l.
Proof.
  unfold mvec, rdot. rewrite (rsum_ext _ (fun j => rsum (fun x => B i j * f x j) l)) by (intros; now rewrite rsum_mult). now rewrite rsum_swap.
Qed.
Lemma mvec_minus p B u v i : mvec p B (fun j => u j - v j) i = mvec p B u i - mvec p B v i.
Proof. unfold mvec, rdot. rewrite <- rsum_minus. apply rsum_ext. intros; lra. Qed.
Lemma mvec_plus p B u v i : mvec p B (fun j => u j + v j) i = mvec p B u i + mvec p B v i.
Proof. unfold mvec, rdot. rewrite <- rsum_plus. apply rsum_ext. intros; lra. Qed.
Lemma mvec_ext p B u v i : (forall j, (j < p)%nat -> u j = v j) -> mvec p B u i = mvec p B v i.
Proof. intros H. unfold mvec, rdot. apply rsum_ext. intros j Hj. apply in_seq0 in Hj. now rewrite H. Qed.
Lemma nth_map0 {A} (f : rmat -> A) l k d : (k < length l)%nat -> nth k (map f l) d = f (nth k l zmat).
Proof. intros H. rewrite (nth_indep _ d (f zmat)) by (now rewrite map_length). apply map_nth. Qed.
(** The structural equations: the residuals of a VAR premultiplied by I - B0 are what the matrices of [calc_b] leave of the data. *)
Lemma structural p B0 Ms X (U : rvec) t : (length Ms <= t)%nat ->
  (forall i, (i < p)%nat -> U i = X t i - rsum (fun tau => rsum (fun j => nth (tau - 1) Ms zmat i j * X (t - tau)%nat j) (seq 0 p)) (seq 1 (length Ms))) ->
  forall i, (i < p)%nat -> X t i = predicted p (calc_b p B0 Ms) X t i + mvec p (eye_minus B0) U i.
Proof.
  intros Ht HU i Hi.
  rewrite (mvec_ext p (eye_minus B0) U (fun j => X t j - rsum (fun tau => mvec p (nth (tau - 1) Ms zmat) (X (t - tau)%nat) j) (seq 1 (length Ms))) i) by (intros j Hj; now apply HU).
  rewrite mvec_minus, eye_minus_row by exact Hi. rewrite (mvec_sum p _ (fun tau => mvec p (nth (tau - 1) Ms zmat) (X (t - tau)%nat))). cbn beta.
  unfold predicted. unfold calc_b. cbn [length]. rewrite map_length. cbn [seq]. rewrite rsum_cons. cbn [nth]. rewrite Nat.sub_0_r. unfold rdot.
  rewrite (rsum_ext (fun tau => rsum (fun j => match tau with 0%nat => B0 | S m => nth m (map (fun M => mmul p (eye_minus B0) M) Ms) zmat end i j * X (t - tau)%nat j) (seq 0 p))
    (fun tau => mvec p (eye_minus B0) (mvec p (nth (tau - 1) Ms zmat) (X (t - tau)%nat)) i)).
  - lra.
  - intros tau H. apply in_seq in H. destruct tau as [|m]; [lia|]. rewrite nth_map0 by lia. replace (S m - 1)%nat with m by lia. rewrite <- mvec_mmul. reflexivity.
Qed.

(** ** Lag selection *)
Lemma select_spec E N X : forall lags,
  match fold_left (fun best lag =>
      match x_value E N X lag, best with
      | None, _ => best
      | Some v, None => Some (v, x_var E N X lag)
      | Some v, Some (m, _) => if Rlt_dec v m then Some (v, x_var E N X lag) else best
      end) (seq 1 lags) None with
  | None => forall l, (1 <= l <= lags)%nat -> x_value E N X l = None
  | Some (v, r) => exists l, (1 <= l <= lags)%nat /\ x_value E N X l = Some v /\ r = x_var E N X l /\
      forall l' v', (1 <= l' <= lags)%nat -> x_value E N X l' = Some v' -> v <= v' /\ ((l' < l)%nat -> v < v')
  end.
Proof.
  induction lags as [|lags IH]; [cbn; lia|]. rewrite seq_S, fold_left_app. cbn [fold_left Nat.add]. set (b := fold_left _ (seq 1 lags) None) in *. change (1 + lags)%nat with (S lags).
  destruct (x_value E N X (S lags)) as [v|] eqn:Ev; destruct b as [[m r]|].
  - destruct IH as (l & Hl & E1 & E2 & H). destruct (Rlt_dec v m) as [L|L].
    + exists (S lags). split; [lia|]. split; [exact Ev|]. split; [reflexivity|]. intros l' v' Hl' E'. destruct (Nat.eq_dec l' (S lags)) as [->|N0]; [rewrite Ev in E'; injection E' as <-; split; [lra|lia]|].
      destruct (H l' v') as [Q _]; [lia|exact E'|]. split; [lra|intros; lra].
    + exists l. split; [lia|]. split; [exact E1|]. split; [exact E2|]. intros l' v' Hl' E'. destruct (Nat.eq_dec l' (S lags)) as [->|N0]; [rewrite Ev in E'; injection E' as <-; split; [lra|lia]|].
      apply H; [lia|exact E'].
  - exists (S lags). split; [lia|]. split; [exact Ev|]. split; [reflexivity|]. intros l' v' Hl' E'. destruct (Nat.eq_dec l' (S lags)) as [->|N0]; [rewrite Ev in E'; injection E' as <-; split; [lra|lia]|].
    rewrite IH in E' by lia. discriminate.
  - destruct IH as (l & Hl & E1 & E2 & H). exists l. split; [lia|]. split; [exact E1|]. split; [exact E2|]. intros l' v' Hl' E'. destruct (Nat.eq_dec l' (S lags)) as [->|N0]; [congruence|]. apply H; [lia|exact E'].
  - intros l Hl. destruct (Nat.eq_dec l (S lags)) as [->|N0]; [exact Ev|]. apply IH. lia.
Qed.

(** ** Pruning *)
Lemma stacked_nth N L : forall s a r, (s <= L)%nat -> (r + s < N)%nat -> nth s (stacked N a L) (fun _ _ => 0) r = a (r + s)%nat.
Proof.
  induction L as [|L IH]; intros s a r Hs Hr.
  - replace s with 0%nat by lia. cbn [stacked nth]. now rewrite Nat.add_0_r.
  - destruct s as [|s]; [cbn [stacked nth]; now rewrite Nat.add_0_r|]. cbn [stacked nth]. rewrite IH by lia. unfold roll_up. rewrite Nat.mod_small by lia. f_equal. lia.
Qed.
Lemma block_time N X L r s : (s <= L)%nat -> (r + s < N)%nat -> block N X L r s = X (N - 1 - r - s)%nat.
Proof. intros Hs Hr. unfold block. rewrite stacked_nth by assumption. unfold flipped. f_equal. lia. Qed.
Lemma rows_lt N L r : (r < prune_rows N L)%nat -> (r + L < N)%nat /\ (0 < L)%nat.
Proof. unfold prune_rows. destruct (Nat.eqb_spec L 0); lia. Qed.
Lemma design_lagged p N X L anc r tau j : (0 < p)%nat -> (r < prune_rows N L)%nat -> (1 <= tau <= L)%nat -> (j < p)%nat ->
  design p N X L anc r (length anc + p * (tau - 1) + j) = X (N - 1 - r - tau)%nat j.
Proof.
  intros Hp Hr Ht Hj. apply rows_lt in Hr. unfold design. destruct (Nat.ltb_spec (length anc + p * (tau - 1) + j) (length anc)) as [Q|_]; [exfalso; revert Q; generalize (p * (tau - 1))%nat; intros; lia|].
  replace (length anc + p * (tau - 1) + j - length anc)%nat with (j + (tau - 1) * p)%nat by (rewrite (Nat.mul_comm (tau - 1) p); generalize (p * (tau - 1))%nat; intros; lia). rewrite Nat.div_add, Nat.mod_add by lia. rewrite Nat.div_small, Nat.mod_small by lia.
  rewrite block_time by lia. repeat f_equal; lia.
Qed.
Lemma design_instant p N X L anc r c : (r < prune_rows N L)%nat -> (c < length anc)%nat -> design p N X L anc r c = X (N - 1 - r)%nat (nth c anc 0%nat).
Proof. intros Hr Hc. apply rows_lt in Hr. unfold design. destruct (Nat.ltb_spec c (length anc)); [|lia]. rewrite block_time by lia. f_equal. lia. Qed.

Lemma write_row0 i anc (coef : rvec) B0 : forall k, let B := fold_left (fun B c => set_entry B i (nth c anc 0%nat) (coef c)) (seq 0 k) B0 in
  (forall a b, a <> i -> B a b = B0 a b) /\ (forall b, (forall c, (c < k)%nat -> nth c anc 0%nat <> b) -> B i b = B0 i b) /\
  (forall c, NoDup anc -> (k <= length anc)%nat -> (c < k)%nat -> B i (nth c anc 0%nat) = coef c).
Proof.
  induction k as [|k IH]; [cbn; repeat split; try reflexivity; intros; lia|]. rewrite seq_S, fold_left_app. cbn [fold_left Nat.add] in *. set (B := fold_left _ (seq 0 k) B0) in *. destruct IH as (H1 & H2 & H3).
  unfold set_entry. split; [|split].
  - intros a b N. destruct (Nat.eqb_spec a i); [contradiction|]. cbn [andb]. now apply H1.
  - intros b H. rewrite Nat.eqb_refl. cbn [andb]. destruct (Nat.eqb_spec b (nth k anc 0%nat)) as [->|]; [exfalso; apply (H k); [lia|reflexivity]|]. apply H2. intros c Hc. apply H. lia.
  - intros c ND Hk Hc. rewrite Nat.eqb_refl. cbn [andb]. destruct (Nat.eqb_spec (nth c anc 0%nat) (nth k anc 0%nat)) as [Q|Q].
    + f_equal. symmetry. apply (proj1 (NoDup_nth anc 0%nat) ND); [lia|lia|exact Q].
    + apply H3; [exact ND|lia|]. destruct (Nat.eq_dec c k) as [->|]; [congruence|lia].
Qed.
Lemma row_ext i anc (coef : rvec) : forall s B1 B2, (forall b, B1 i b = B2 i b) -> forall b,
  fold_left (fun B c => set_entry B i (nth c anc 0%nat) (coef c)) s B1 i b = fold_left (fun B c => set_entry B i (nth c anc 0%nat) (coef c)) s B2 i b.
Proof.
  induction s as [|c s IHs]; intros B1 B2 HB b; cbn [fold_left]; [apply HB|]. apply IHs. intros b'. unfold set_entry. destruct (Nat.eqb i i && Nat.eqb b' (nth c anc 0%nat)); [reflexivity|apply HB].
Qed.
Lemma write_length p anc i coef Bs : length (write_back p anc i coef Bs) = length Bs.
Proof. destruct Bs as [|B0 rest]; [reflexivity|]. cbn [write_back length]. f_equal. now rewrite map_length, combine_length, seq_length, Nat.min_id. Qed.
Lemma write_later p anc i coef Bs tau : (1 <= tau < length Bs)%nat ->
  nth tau (write_back p anc i coef Bs) zmat = set_row (nth tau Bs zmat) i (fun b => coef (length anc + p * (tau - 1) + b)%nat).
Proof.
  intros Ht. destruct Bs as [|B0 rest]; [cbn in Ht; lia|]. cbn [length] in Ht. destruct tau as [|m]; [lia|]. cbn [write_back nth].
  set (f := fun jB : nat * rmat => set_row (snd jB) i (fun b => coef (length anc + p * fst jB + b)%nat)).
  rewrite (nth_indep _ zmat (f (0%nat, zmat))) by (rewrite map_length, combine_length, seq_length; lia). rewrite map_nth. rewrite combine_nth by apply seq_length. rewrite seq_nth by lia.
  unfold f. cbn [fst snd]. replace (S m - 1)%nat with m by lia. reflexivity.
Qed.
Lemma write_other p anc i coef Bs tau a : a <> i -> forall b, nth tau (write_back p anc i coef Bs) zmat a b = nth tau Bs zmat a b.
Proof.
  intros N b. destruct (le_lt_dec (length Bs) tau) as [L|L]; [now rewrite !nth_overflow by (rewrite ?write_length; lia)|].
  destruct tau as [|m].
  - destruct Bs as [|B0 rest]; [reflexivity|]. cbn [write_back nth]. now apply write_row0.
  - rewrite write_later by lia. unfold set_row. destruct (Nat.eqb_spec a i); [contradiction|reflexivity].
Qed.
Lemma prune_fold E p N X L order : forall l Bs, NoDup l -> let Bs' := fold_left (prune_step E p N X L order) l Bs in
  length Bs' = length Bs /\ forall tau i b, nth tau Bs' zmat i b = if memb i l then nth tau (prune_step E p N X L order Bs i) zmat i b else nth tau Bs zmat i b.
Proof.
  induction l as [|a l IH]; intros Bs ND; cbn zeta; [split; reflexivity|]. inversion ND; subst. cbn [fold_left]. destruct (IH (prune_step E p N X L order Bs a) H2) as [H3 H4]. split; [rewrite H3; apply write_length|].
  intros tau i b. rewrite H4. unfold memb at 2. cbn [existsb]. fold (memb i l). destruct (Nat.eqb_spec i a) as [->|Nia].
  - replace (memb a l) with false by (symmetry; now apply memb_not_In). reflexivity.
  - destruct (memb i l) eqn:M.
    + cbn [orb].
      unfold prune_step at 1 3. set (anc := firstn (index_of i order) order). set (coef := x_lasso _ _ _ _ _).
      destruct (le_lt_dec (length Bs) tau) as [Q|Q]; [now rewrite !nth_overflow by (rewrite ?write_length; unfold prune_step; rewrite ?write_length; lia)|].
      destruct tau as [|m].
      * destruct Bs as [|B0 rest]; [reflexivity|]. unfold prune_step. cbn [write_back nth]. set (B1 := fold_left _ (seq 0 _) B0).
        assert (HB : forall b, B1 i b = B0 i b) by (intros; apply write_row0; congruence). clearbody B1.
        fold anc. fold coef. apply (row_ext i anc coef _ B1 B0 HB).
      * rewrite !write_later by (unfold prune_step; rewrite ?write_length; lia). unfold set_row. now rewrite Nat.eqb_refl.
    + cbn [orb]. unfold prune_step. now apply write_other.
Qed.
Lemma index_of_split i order : In i order -> exists l2, order = firstn (index_of i order) order ++ i :: l2 /\ ~ In i (firstn (index_of i order) order).
Proof.
  induction order as [|a order IH]; [intros []|]. intros H. cbn [index_of]. destruct (Nat.eqb_spec a i) as [->|N].
  - exists order. split; [reflexivity|intros []].
  - destruct IH as (l2 & E1 & E2); [destruct H; [congruence|assumption]|]. exists l2. cbn [firstn app]. split; [congruence|]. intros [|]; [congruence|auto].
Qed.
Lemma anc_in i order j : NoDup order -> In i order -> (In j (firstn (index_of i order) order) <-> before order j i).
Proof.
  intros ND Hi. destruct (index_of_split i order Hi) as (l2 & Eo & Ni). set (anc := firstn _ order) in *. clearbody anc. split.
  - intros Hj. apply in_split in Hj. destruct Hj as (m1 & m2 & ->). exists m1, m2, l2. now rewrite Eo, <- app_assoc.
  - intros (k1 & k2 & k3 & E2). rewrite E2 in ND. rewrite E2 in Eo. clear E2. revert Eo ND. rewrite app_comm_cons, app_assoc. intros Eo ND.
    apply NoDup_remove_2 in ND. assert (E3 : k1 ++ j :: k2 = anc).
    { assert (N1 : ~ In i (k1 ++ j :: k2)) by (intros I; apply ND; apply in_or_app; now left). clear ND.
      revert Eo N1. generalize (k1 ++ j :: k2). induction anc as [|x anc IH]; intros [|y l]; cbn [app]; intros Q N1.
      - reflexivity.
      - injection Q as -> _. exfalso. apply N1. now left.
      - injection Q as <- _. exfalso. apply Ni. now left.
      - injection Q as -> Q. f_equal. apply IH; [|exact Q|]; intros I; [apply Ni|apply N1]; now right. }
    rewrite <- E3. apply in_or_app. right. now left.
Qed.
Lemma firstn_NoDup (l : list nat) k : NoDup l -> NoDup (firstn k l).
Proof. intros H. rewrite <- (firstn_skipn k l) in H. revert H. generalize (skipn k l). induction (firstn k l) as [|a m IH]; intros s H; [constructor|]. cbn in H. inversion H; subst. constructor; [intros I; apply H2, in_or_app; now left|now apply (IH s)]. Qed.
(** The pruned matrices, entry by entry. *)
Lemma pruned_entries E p N X L order B0 Ms Bs : NoDup order -> (forall i, (i < p)%nat -> In i order) -> pruning E p N X L order (B0 :: Ms) = Some Bs ->
  (length Ms <= L)%nat /\ length Bs = S (length Ms) /\ forall i, (i < p)%nat -> let anc := firstn (index_of i order) order in
    let coef := x_lasso E (prune_rows N L) (length anc + p * L) (design p N X L anc) (fun r => block N X L r 0 i) in
    (forall j, ~ before order j i -> nth 0 Bs zmat i j = B0 i j) /\
    (forall c, (c < length anc)%nat -> nth 0 Bs zmat i (nth c anc 0%nat) = coef c) /\
    (forall tau j, (1 <= tau <= length Ms)%nat -> nth tau Bs zmat i j = coef (length anc + p * (tau - 1) + j)%nat).
Proof.
  intros ND HI. unfold pruning. cbn [length]. destruct (Nat.ltb_spec L (S (length Ms) - 1)) as [|HL]; [discriminate|]. intros Q. injection Q as <-.
  destruct (prune_fold E p N X L order (seq 0 p) (B0 :: Ms) (seq_NoDup p 0)) as [H1 H2]. split; [lia|]. split; [exact H1|].
  intros i Hi. set (anc := firstn (index_of i order) order). set (coef := x_lasso E (prune_rows N L) (length anc + p * L) (design p N X L anc) (fun r => block N X L r 0 i)).
  assert (Mi : memb i (seq 0 p) = true) by now apply memb_In, in_seq0. split; [|split].
  - intros j Nj. rewrite H2, Mi. unfold prune_step. cbn [write_back nth]. destruct (write_row0 i anc coef B0 (length anc)) as (_ & W & _). apply W. intros c Hc Q. apply Nj.
    apply anc_in; [exact ND|now apply HI|]. fold anc. rewrite <- Q. now apply nth_In.
  - intros c Hc. rewrite H2, Mi. unfold prune_step. cbn [write_back nth]. destruct (write_row0 i anc coef B0 (length anc)) as (_ & _ & W). apply W; [now apply firstn_NoDup|lia|exact Hc].
  - intros tau j Ht. rewrite H2, Mi. unfold prune_step. fold anc. fold coef. rewrite write_later by (cbn [length]; lia). unfold set_row. now rewrite Nat.eqb_refl.
Qed.

(** ** Simulation *)
Lemma sim_stable p lags Ms e : forall d k j, (j < k)%nat -> fold_left (sim_step p lags Ms e) (seq 0 (k + d)) (fun _ _ => 0) j = fold_left (sim_step p lags Ms e) (seq 0 k) (fun _ _ => 0) j.
Proof.
  induction d as [|d IH]; intros k j Hj; [now rewrite Nat.add_0_r|]. rewrite Nat.add_succ_r, seq_S, fold_left_app. cbn [fold_left Nat.add]. unfold sim_step at 1. destruct (Nat.eqb_spec j (k + d)); [lia|]. now apply IH.
Qed.
Lemma simulate_eq p N lags Ms e j i : (j < N)%nat -> (length Ms <= lags)%nat ->
  simulate p N lags Ms e j i = if Nat.ltb j lags then e j i
    else rsum (fun t => rdot p (nth t Ms zmat i) (simulate p N lags Ms e (j - t - 1)%nat)) (seq 0 (length Ms)) + e j i.
Proof.
  intros Hj HL. unfold simulate at 1. replace N with (S j + (N - S j))%nat at 1 by lia. rewrite sim_stable by lia. rewrite seq_S, fold_left_app. cbn [fold_left Nat.add]. unfold sim_step at 1. rewrite Nat.eqb_refl.
  destruct (Nat.ltb_spec j lags) as [Q|Q]; [reflexivity|]. rewrite fold_plus1. rewrite Rplus_0_l. f_equal. apply rsum_ext. intros t Ht. apply in_seq in Ht. unfold mvec. f_equal.
  unfold simulate. replace N with (j + (N - j))%nat at 1 by lia. rewrite sim_stable by lia. reflexivity.
Qed.
Lemma shift_sum (f : nat -> R) n : rsum (fun t => f (S t)) (seq 0 n) = rsum f (seq 1 n).
Proof. rewrite <- seq_shift. now rewrite rsum_mapf. Qed.
(** Residuals of the simulated series under the coefficients it was simulated with. *)
Lemma resimulated p N Ms e r i : (r + length Ms < N)%nat -> calc_residuals p (simulate p N (length Ms) Ms e) Ms (length Ms) r i = e (r + length Ms)%nat i.
Proof.
  intros Hr. unfold calc_residuals. rewrite simulate_eq by lia. destruct (Nat.ltb_spec (r + length Ms) (length Ms)); [lia|]. rewrite estimated_sum.
  set (X := simulate p N (length Ms) Ms e). rewrite <- (shift_sum (fun tau => rsum (fun j => nth (tau - 1) Ms zmat i j * X (r + length Ms - tau)%nat j) (seq 0 p)) (length Ms)).
  rewrite (rsum_ext (fun t => rdot p (nth t Ms zmat i) (X (r + length Ms - t - 1)%nat)) (fun t => rsum (fun j => nth (S t - 1) Ms zmat i j * X (r + length Ms - S t)%nat j) (seq 0 p))).
  - lra.
  - intros t _. unfold rdot. replace (S t - 1)%nat with t by lia. replace (r + length Ms - S t)%nat with (r + length Ms - t - 1)%nat by lia. reflexivity.
Qed.

(** ** The table of total effects *)
Lemma writes_spec (T : nat -> nat -> R) to g (v : nat -> R) l : NoDup (map g l) -> forall a b,
  fold_left (fun T from => set_effect T to (g from) (v from)) l T a b =
  match find (fun x => Nat.eqb (g x) b) l with Some x => if Nat.eqb a to then v x else T a b | None => T a b end.
Proof.
  revert T. induction l as [|x l IH]; intros T ND a b; [reflexivity|]. cbn [map] in ND. inversion ND; subst. cbn [fold_left find]. rewrite IH by assumption. unfold set_effect at 1 2.
  destruct (Nat.eqb_spec (g x) b) as [<-|N].
  - destruct (find (fun y => Nat.eqb (g y) (g x)) l) as [y|] eqn:F.
    + exfalso. apply find_some in F. destruct F as [F1 F2]. apply Nat.eqb_eq in F2. apply H1. rewrite <- F2. now apply in_map.
    + rewrite Nat.eqb_refl. now destruct (Nat.eqb a to).
  - destruct (Nat.eqb_spec b (g x)) as [|_]; [congruence|]. now rewrite andb_false_r.
Qed.
Lemma find_shift p b : find (fun x => Nat.eqb (x + p) b) (seq 0 p) = if Nat.leb p b && Nat.ltb b (p + p) then Some (b - p)%nat else None.
Proof.
  destruct (find (fun x => Nat.eqb (x + p) b) (seq 0 p)) as [x|] eqn:F.
  - apply find_some in F. destruct F as [F1 F2]. apply in_seq0 in F1. apply Nat.eqb_eq in F2. destruct (Nat.leb_spec p b); [|lia]. destruct (Nat.ltb_spec b (p + p)); [|lia]. cbn. f_equal. lia.
  - destruct (Nat.leb_spec p b); [|reflexivity]. destruct (Nat.ltb_spec b (p + p)); [|reflexivity]. exfalso. apply (find_none _ _ F (b - p)%nat) in F || idtac. assert (I : In (b - p)%nat (seq 0 p)) by (apply in_seq0; lia).
    apply (find_none _ _ F) in I. apply Nat.eqb_neq in I. lia.
Qed.
Lemma NoDup_shift p : NoDup (map (fun x => x + p)%nat (seq 0 p)).
Proof. apply FinFun.Injective_map_NoDup; [intros x y; lia|apply seq_NoDup]. Qed.
Lemma lag_writes p to (v : nat -> nat -> R) lags : forall T a b,
  fold_left (fun T lag => fold_left (fun T from => set_effect T to (from + p) (v from (lag + 1)%nat)) (seq 0 p) T) (seq 0 lags) T a b =
  if Nat.eqb a to && (Nat.leb p b && Nat.ltb b (p + p)) && negb (Nat.eqb lags 0) then v (b - p)%nat lags else T a b.
Proof.
  induction lags as [|l IH]; intros T a b; [now rewrite andb_false_r|]. rewrite seq_S, fold_left_app. cbn [fold_left Nat.add].
  rewrite (writes_spec _ to (fun x => x + p)%nat (fun from => v from (l + 1)%nat) (seq 0 p) (NoDup_shift p)). rewrite find_shift. rewrite IH. replace (l + 1)%nat with (S l) by lia. cbn [Nat.eqb negb].
  destruct (Nat.leb p b && Nat.ltb b (p + p)); destruct (Nat.eqb a to); cbn [andb]; reflexivity.
Qed.
Definition e_step (p lags : nat) (order : list nat) (eff : nat -> nat -> nat -> R) (T : nat -> nat -> R) (cto : nat * nat) : nat -> nat -> R :=
  let '(c, to) := cto in
  let T1 := fold_left (fun T from => set_effect T to from (eff from to 0%nat)) (firstn (p - (c + 1)) order) T in
  fold_left (fun T lag => fold_left (fun T from => set_effect T to (from + p) (eff from to (lag + 1)%nat)) (seq 0 p) T) (seq 0 lags) T1.
Lemma find_id b l : find (fun x => Nat.eqb x b) l = if memb b l then Some b else None.
Proof.
  induction l as [|a l IH]; [reflexivity|]. cbn [find]. unfold memb. cbn [existsb]. fold (memb b l). rewrite IH. destruct (Nat.eqb_spec a b) as [->|N]; [now rewrite Nat.eqb_refl|].
  destruct (Nat.eqb_spec b a); [congruence|reflexivity].
Qed.
Lemma e_step_spec p lags order eff T c to a b : NoDup order -> e_step p lags order eff T (c, to) a b =
  if Nat.eqb a to then
    (if (Nat.leb p b && Nat.ltb b (p + p)) && negb (Nat.eqb lags 0) then eff (b - p)%nat to lags
     else if memb b (firstn (p - (c + 1)) order) then eff b to 0%nat else T a b)
  else T a b.
Proof.
  intros ND. unfold e_step. rewrite (lag_writes p to (fun from lag => eff from to lag)).
  rewrite (writes_spec T to (fun x => x) (fun from => eff from to 0%nat)) by (rewrite map_id; now apply firstn_NoDup). rewrite find_id.
  destruct (Nat.eqb a to); cbn [andb]; [|now destruct (memb b _)]. destruct ((Nat.leb p b && Nat.ltb b (p + p)) && negb (Nat.eqb lags 0)); [reflexivity|]. now destruct (memb b _).
Qed.
Lemma e_fold p lags order eff : NoDup order -> forall l T, NoDup (map snd l) -> forall a b,
  (~ In a (map snd l) -> fold_left (e_step p lags order eff) l T a b = T a b) /\
  (forall c, In (c, a) l -> fold_left (e_step p lags order eff) l T a b = e_step p lags order eff T (c, a) a b).
Proof.
  intros ND. induction l as [|[c to] l IH]; intros T N a b; [split; [reflexivity|intros c []]|]. cbn [map snd] in N. inversion N; subst. cbn [fold_left]. destruct (IH (e_step p lags order eff T (c, to)) H2 a b) as [I1 I2]. split.
  - intros H. cbn [map snd In] in H. rewrite I1 by tauto. rewrite e_step_spec by exact ND. destruct (Nat.eqb_spec a to); [subst; tauto|reflexivity].
  - intros c' [Q|Hin].
    + injection Q as -> ->. now apply I1.
    + rewrite (I2 c') by exact Hin. rewrite !e_step_spec by exact ND. rewrite Nat.eqb_refl. destruct (Nat.eqb_spec a to) as [->|]; [|reflexivity]. exfalso. apply H1. apply in_map_iff. exists (c', to). auto.
Qed.
Lemma combine_rev order to : In to order -> NoDup order -> In (length order - 1 - index_of to order, to)%nat (combine (seq 0 (length order)) (rev order)).
Proof.
  intros Hi ND. destruct (index_of_split to order Hi) as (l2 & Eo & Ni). set (k := index_of to order) in *. assert (Hk : (k < length order)%nat).
  { assert (Q : length (firstn k order) = k); [|rewrite Eo, app_length, Q; cbn; lia]. clear -Hi. unfold k. induction order as [|a order IH]; [destruct Hi|]. cbn [index_of]. destruct (Nat.eqb_spec a to); [reflexivity|]. cbn. f_equal. apply IH. destruct Hi; [congruence|assumption]. }
  assert (En : nth k order 0%nat = to). { rewrite Eo. rewrite app_nth2; rewrite firstn_length_le by lia; [|lia]. now rewrite Nat.sub_diag. }
  assert (Q : nth (length order - 1 - k) (combine (seq 0 (length order)) (rev order)) (0%nat, 0%nat) = (length order - 1 - k, to)%nat).
  { rewrite combine_nth by now rewrite seq_length, rev_length. rewrite seq_nth by lia. rewrite rev_nth by lia. replace (length order - S (length order - 1 - k))%nat with k by lia. now rewrite En. }
  rewrite <- Q. apply nth_In. rewrite combine_length, seq_length, rev_length. lia.
Qed.
Lemma index_lt i l : In i l -> (index_of i l < length l)%nat.
Proof. induction l as [|a l IH]; [intros []|]. cbn [index_of length]. intros H. destruct (Nat.eqb_spec a i); [lia|]. destruct H; [congruence|]. apply IH in H. lia. Qed.
Lemma map_snd_combine (a : list nat) (b : list nat) : length a = length b -> map snd (combine a b) = b.
Proof. revert b. induction a as [|x a IH]; intros [|y b]; cbn; try discriminate; [reflexivity|]. intros H. f_equal. apply IH. lia. Qed.
Lemma sample_effects_spec p lags order eff to b : Permutation order (seq 0 p) -> (to < p)%nat -> let T := sample_effects p lags order eff in
  ((b < p)%nat -> (before order b to -> T to b = eff b to 0%nat) /\ (~ before order b to -> T to b = 0)) /\
  ((p <= b < p + p)%nat -> T to b = if Nat.eqb lags 0 then 0 else eff (b - p)%nat to lags) /\
  ((p + p <= b)%nat -> T to b = 0).
Proof.
  intros HP Ht. assert (ND : NoDup order) by (apply (Permutation_NoDup (Permutation_sym HP)), seq_NoDup). assert (Hi : In to order) by (apply (Permutation_in _ (Permutation_sym HP)), in_seq0; exact Ht).
  assert (HL : length order = p) by (rewrite (Permutation_length HP); apply seq_length).
  set (c := (length order - 1 - index_of to order)%nat).
  assert (ET : sample_effects p lags order eff to b = e_step p lags order eff (fun _ _ => 0) (c, to) to b).
  { unfold sample_effects. apply (e_fold p lags order eff ND); [rewrite map_snd_combine by (now rewrite seq_length, rev_length); apply NoDup_rev, ND|now apply combine_rev]. }
  cbn zeta. rewrite ET, e_step_spec by exact ND. rewrite Nat.eqb_refl. pose proof (index_lt _ _ Hi) as HK. replace (p - (c + 1))%nat with (index_of to order) by (unfold c; lia).
  assert (HM : memb b (firstn (index_of to order) order) = true <-> before order b to) by (rewrite memb_In; now apply anc_in). split; [|split].
  - intros Hb. destruct (Nat.leb_spec p b); [lia|]. cbn [andb]. split; intros Q; destruct (memb b _) eqn:M; try reflexivity; [apply HM in Q; discriminate|exfalso; now apply Q, HM].
  - intros Hb. destruct (Nat.leb_spec p b); [|lia]. destruct (Nat.ltb_spec b (p + p)); [|lia]. cbn [andb]. destruct (Nat.eqb lags 0); cbn [negb]; [|reflexivity].
    destruct (memb b _); [|reflexivity]. pose proof (proj1 (before_in _ _ _ (proj1 HM eq_refl))) as M. apply (Permutation_in _ HP), in_seq0 in M. lia.
  - intros Hb. destruct (Nat.ltb_spec b (p + p)); [lia|]. rewrite andb_false_r. cbn [andb]. destruct (memb b _); [|reflexivity]. pose proof (proj1 (before_in _ _ _ (proj1 HM eq_refl))) as M. apply (Permutation_in _ HP), in_seq0 in M. lia.
Qed.
