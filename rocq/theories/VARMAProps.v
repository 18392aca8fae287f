(** Properties of VARMALiNGAM. *)
From Verif Require Import Base UtilsModel UtilsProofs GraphSpec BICModel BICProofs LingamModel LingamSpec LingamProofs EffectModel EffectSpec EffectProofs VARModel VARSpec VARProofs VARMAModel.
From Coq Require Import Permutation Reals Lra.
Local Open Scope R_scope.

Definition m_lingam_ordered (E : mexternals) (n : nat) : Prop := forall rows U, follows n (snd (y_lingam E rows U)) (fst (y_lingam E rows U)).
Lemma m_fit_inv E n st N X st' : m_fit E n st N X = Some st' -> exists phis thetas rows resid po, let psi0 := snd (y_lingam E rows resid) in
  m_ar st' = phis /\ m_ma st' = thetas /\ m_resid st' = resid /\ m_crit st' = m_crit st /\ m_prune st' = m_prune st /\ m_causal st' = fst (y_lingam E rows resid) /\
  (match m_ar st, m_ma st with
   | Some ar, Some ma => phis = Some ar /\ thetas = Some ma /\ m_order st' = m_order st /\ rows = (N - Nat.max (length ar) (length ma))%nat /\ resid = m_residuals n N X (y_noise E) ar ma
   | _, _ => exists ro, estimate_varma E (m_order st) (m_crit st) N X = Some ro /\ phis = mr_ar (fst ro) /\ thetas = mr_ma (fst ro) /\ m_order st' = snd ro /\ rows = N /\ resid = mr_resid (fst ro)
   end) /\
  psi_and_omega n psi0 (opt_list phis) (opt_list thetas) (m_order st') = Some po /\
  (if m_prune st then m_pruning E n N X (fun r => mvec n (eye_minus psi0) (resid r)) rows (m_order st') (m_causal st') = Some (m_adj st') else m_adj st' = po).
Proof.
  unfold m_fit. set (c := match m_ar st with Some _ => _ | None => _ end). destruct c as [[[[[phis thetas] o] rows] resid]|] eqn:EC; [|discriminate]. subst c.
  destruct (y_lingam E rows resid) as [causal psi0] eqn:EL. destruct (psi_and_omega n psi0 (opt_list phis) (opt_list thetas) o) as [po|] eqn:EP; [|discriminate].
  destruct (if m_prune st then _ else _) as [adj|] eqn:EA; [|discriminate]. intros Q. injection Q as <-. exists phis, thetas, rows, resid, po. cbn [m_ar m_ma m_resid m_crit m_prune m_causal m_order m_adj]. rewrite EL. cbn [fst snd].
  repeat (split; [reflexivity|]). split; [|split; [exact EP|destruct (m_prune st); [exact EA|congruence]]].
  assert (Est : option_map (fun ro => (mr_ar (fst ro), mr_ma (fst ro), snd ro, N, mr_resid (fst ro))) (estimate_varma E (m_order st) (m_crit st) N X) = Some (phis, thetas, o, rows, resid) ->
    exists ro, estimate_varma E (m_order st) (m_crit st) N X = Some ro /\ phis = mr_ar (fst ro) /\ thetas = mr_ma (fst ro) /\ o = snd ro /\ rows = N /\ resid = mr_resid (fst ro)).
  { destruct (estimate_varma _ _ _ _ _) as [ro|]; [|discriminate]. cbn. intros Q. exists ro. injection Q as <- <- <- <- <-. repeat split; reflexivity. }
  destruct (m_ar st) as [ar|]; [|now apply Est]. destruct (m_ma st) as [ma|]; [|now apply Est]. injection EC as <- <- <- <- <-. repeat split; reflexivity.
Qed.

(** ** C166: the equations of the fitted model *)
Lemma eps_stable n X noise ar ma : forall d k j, (j < k)%nat -> fold_left (eps_step n X noise ar ma) (seq 0 (k + d)) (fun _ _ => 0) j = fold_left (eps_step n X noise ar ma) (seq 0 k) (fun _ _ => 0) j.
Proof.
  induction d as [|d IH]; intros k j Hj; [now rewrite Nat.add_0_r|]. rewrite Nat.add_succ_r, seq_S, fold_left_app. cbn [fold_left Nat.add]. unfold eps_step at 1. destruct (Nat.eqb_spec j (k + d)); [lia|]. now apply IH.
Qed.
Lemma epsilon_eq n N X noise ar ma t i : (t < N)%nat -> (Nat.max (length ar) (length ma) <= t)%nat -> let e := epsilon n N X noise ar ma in
  e t i = X t i - (rsum (fun k => mvec n (nth k ar zmat) (X (t - k - 1)%nat) i) (seq 0 (length ar)) + rsum (fun k => mvec n (nth k ma zmat) (e (t - k - 1)%nat) i) (seq 0 (length ma))).
Proof.
  intros Ht HS e. unfold e at 1, epsilon. replace N with (S t + (N - S t))%nat at 1 by lia. rewrite eps_stable by lia. rewrite seq_S, fold_left_app. cbn [fold_left Nat.add]. unfold eps_step at 1. rewrite Nat.eqb_refl.
  destruct (Nat.ltb_spec t (Nat.max (length ar) (length ma))); [lia|]. f_equal. f_equal. apply rsum_ext. intros k Hk. apply in_seq0 in Hk. f_equal.
  unfold e, epsilon. replace N with (t + (N - t))%nat at 1 by lia. now rewrite eps_stable by lia.
Qed.
Lemma epsilon_start n N X noise ar ma t i : (t < N)%nat -> (t < Nat.max (length ar) (length ma))%nat -> epsilon n N X noise ar ma t i = noise t i.
Proof.
  intros Ht HS. unfold epsilon. replace N with (S t + (N - S t))%nat at 1 by lia. rewrite eps_stable by lia. rewrite seq_S, fold_left_app. cbn [fold_left Nat.add]. unfold eps_step at 1. rewrite Nat.eqb_refl.
  destruct (Nat.ltb_spec t (Nat.max (length ar) (length ma))); [reflexivity|lia].
Qed.
(** With given coefficients and without pruning: the data are what the psi matrices predict, plus the omega matrices applied to the lagged
    reduced-form residuals, plus the error (I - psi_0) times the residual. *)
Theorem C166_reduced_form : forall E n st N X st' ar ma, m_ar st = Some ar -> m_ma st = Some ma -> m_order st = (length ar, length ma) -> m_prune st = false -> m_fit E n st N X = Some st' ->
  exists eps : series, (forall t, (Nat.max (length ar) (length ma) <= t)%nat -> m_resid st' (t - Nat.max (length ar) (length ma))%nat = eps t) /\
    forall t i, (Nat.max (length ar) (length ma) <= t < N)%nat -> (i < n)%nat ->
      X t i = predicted n (fst (m_adj st')) X t i + rsum (fun k => rsum (fun j => nth k (snd (m_adj st')) zmat i j * eps (t - k - 1)%nat j) (seq 0 n)) (seq 0 (length ma))
              + mvec n (eye_minus (nth 0 (fst (m_adj st')) zmat)) (eps t) i.
Proof.
  intros E n st N X st' ar ma Ea Em Eo EP EF. destruct (m_fit_inv _ _ _ _ _ _ EF) as (phis & thetas & rows & resid & po & H1 & H2 & H3 & _ & _ & _ & H & HPO & HA). rewrite Ea, Em in H. destruct H as (-> & -> & E1 & -> & ER). rewrite EP in HA. rewrite E1, Eo in HPO.
  set (psi0 := snd (y_lingam E _ resid)) in *. unfold psi_and_omega in HPO. cbn [fst snd opt_list] in HPO. destruct (Nat.ltb_spec (length ar) (length ar)); [lia|]. destruct (Nat.ltb_spec (length ma) (length ma)); [lia|]. cbn [orb] in HPO. injection HPO as <-.
  rewrite HA. cbn [fst snd nth]. exists (epsilon n N X (y_noise E) ar ma). set (eps := epsilon n N X (y_noise E) ar ma). split.
  - intros t Ht. rewrite H3, ER. unfold m_residuals. fold eps. replace (t - Nat.max (length ar) (length ma) + Nat.max (length ar) (length ma))%nat with t by lia. reflexivity.
  - intros t i Ht Hi. assert (Eps : forall k, eps t k = X t k - (rsum (fun q => mvec n (nth q ar zmat) (X (t - q - 1)%nat) k) (seq 0 (length ar)) + rsum (fun q => mvec n (nth q ma zmat) (eps (t - q - 1)%nat) k) (seq 0 (length ma)))) by (intros k; apply epsilon_eq; lia).
    rewrite (mvec_ext n (eye_minus psi0) (eps t) (fun k => X t k - (rsum (fun q => mvec n (nth q ar zmat) (X (t - q - 1)%nat) k) (seq 0 (length ar)) + rsum (fun q => mvec n (nth q ma zmat) (eps (t - q - 1)%nat) k) (seq 0 (length ma)))) i) by (intros; apply Eps).
    rewrite mvec_minus, mvec_plus, eye_minus_row by exact Hi.
    rewrite (mvec_sum n _ (fun q => mvec n (nth q ar zmat) (X (t - q - 1)%nat))), (mvec_sum n _ (fun q => mvec n (nth q ma zmat) (eps (t - q - 1)%nat))). cbn beta.
    unfold predicted. cbn [length]. rewrite map_length, seq_length. cbn [seq]. rewrite rsum_cons. cbn [nth]. rewrite Nat.sub_0_r. rewrite <- shift_sum. unfold rdot.
    rewrite (rsum_ext (fun t0 => rsum (fun j => nth t0 (map (fun k => mmul n (eye_minus psi0) (nth k ar zmat)) (seq 0 (length ar))) zmat i j * X (t - S t0)%nat j) (seq 0 n)) (fun q => mvec n (eye_minus psi0) (mvec n (nth q ar zmat) (X (t - q - 1)%nat)) i)).
    + rewrite (rsum_ext (fun k => rsum (fun j => nth k (map (fun k0 => mmul n (eye_minus psi0) (nth k0 ma zmat)) (seq 0 (length ma))) zmat i j * eps (t - k - 1)%nat j) (seq 0 n)) (fun q => mvec n (eye_minus psi0) (mvec n (nth q ma zmat) (eps (t - q - 1)%nat)) i)).
      * lra.
      * intros q Hq. apply in_seq0 in Hq. rewrite <- mvec_mmul. unfold mvec, rdot. apply rsum_ext. intros j _. f_equal.
        rewrite (nth_indep _ zmat (mmul n (eye_minus psi0) (nth 0 ma zmat))) by (now rewrite map_length, seq_length). rewrite (map_nth (fun k => mmul n (eye_minus psi0) (nth k ma zmat))). now rewrite seq_nth by lia.
    + intros q Hq. apply in_seq0 in Hq. rewrite <- mvec_mmul. unfold mvec, rdot. apply rsum_ext. intros j _. f_equal; [|f_equal; lia].
      rewrite (nth_indep _ zmat (mmul n (eye_minus psi0) (nth 0 ar zmat))) by (now rewrite map_length, seq_length). rewrite (map_nth (fun k => mmul n (eye_minus psi0) (nth k ar zmat))). now rewrite seq_nth by lia.
Qed.
(** An instance for the examples. *)
Definition mdemo (n : nat) (w : R) (noise : series) : mexternals :=
  mkMExt (fun _ _ o => mkMR (if Nat.eqb (fst o) 0 then None else Some (repeat eye (fst o))) (if Nat.eqb (snd o) 0 then None else Some (repeat eye (snd o))) (fun _ _ => 0)) (fun _ _ _ => Some 0) (fun _ _ => (seq 0 n, fun i j => if Nat.ltb j i then 1 else 0)) noise (fun _ _ _ _ _ => w) (fun _ _ _ _ => [w]).
Lemma mdemo_ordered n w noise : m_lingam_ordered (mdemo n w noise) n.
Proof.
  intros rows U. cbn [mdemo y_lingam fst snd]. split; [reflexivity|]. intros i j Hi Hj. destruct (Nat.ltb_spec j i) as [L|]; [|intros Q; exfalso; now apply Q]. intros _.
  pose proof (before_nth (seq 0 n) j i 0%nat L) as H. rewrite seq_length in H. specialize (H Hi). now rewrite !seq_nth in H by lia.
Qed.
(** Order selection: without given coefficients and with a criterion, the order used is one of the orders up to the given one, not (0, 0), whose
    criterion value is the smallest, and the results are those of that order. *)
Theorem C166_order_selection : forall E n st N X st', m_ar st = None -> m_crit st = true -> m_fit E n st N X = Some st' ->
  exists p q v, m_order st' = (p, q) /\ (p <= fst (m_order st))%nat /\ (q <= snd (m_order st))%nat /\ (p, q) <> (0, 0)%nat /\ y_value E N X (p, q) = Some v /\
    m_ar st' = mr_ar (y_varmax E N X (p, q)) /\ m_ma st' = mr_ma (y_varmax E N X (p, q)) /\ m_resid st' = mr_resid (y_varmax E N X (p, q)) /\
    forall p' q' v', (p' <= fst (m_order st))%nat -> (q' <= snd (m_order st))%nat -> (p', q') <> (0, 0)%nat -> y_value E N X (p', q') = Some v' -> v <= v'.
Proof.
  intros E n st N X st' HA HC HF. unfold m_fit in HF. rewrite HA in HF. unfold estimate_varma in HF. rewrite HC in HF.
  assert (AO : forall p q, In (p, q) (all_orders (m_order st)) <-> (p <= fst (m_order st))%nat /\ (q <= snd (m_order st))%nat /\ (p, q) <> (0, 0)%nat).
  { intros p q. unfold all_orders. rewrite filter_In, in_flat_map. cbn [fst snd]. split.
    - intros [(p0 & Hp & Hq) HN]. apply in_map_iff in Hq. destruct Hq as (q0 & Q & Hq). injection Q as -> ->. apply in_seq0 in Hp, Hq. split; [lia|]. split; [lia|]. intros Q. injection Q as -> ->. discriminate.
    - intros (Hp & Hq & HN). split; [exists p; split; [apply in_seq0; lia|]; apply in_map_iff; exists q; split; [reflexivity|apply in_seq0; lia]|]. destruct p as [|p]; [|reflexivity]. destruct q as [|q]; [now contradiction HN|reflexivity]. }
  assert (SEL : forall l b, match fold_left (fun best c => match y_value E N X c, best with None, _ => best | Some v, None => Some (v, (y_varmax E N X c, c)) | Some v, Some (m, _) => if Rlt_dec v m then Some (v, (y_varmax E N X c, c)) else best end) l b with
     | None => b = None /\ forall c, In c l -> y_value E N X c = None
     | Some (v, (r, c)) => (b = Some (v, (r, c)) \/ In c l /\ y_value E N X c = Some v /\ r = y_varmax E N X c) /\ (forall c' v', In c' l -> y_value E N X c' = Some v' -> v <= v') /\ (forall m y, b = Some (m, y) -> v <= m)
     end).
  { induction l as [|c l IH]; intros b; cbn [fold_left].
    - destruct b as [[v [r c]]|]; [|split; [reflexivity|intros c []]]. split; [now left|]. split; [intros c' v' []|]. intros m y Q. injection Q as <- _. lra.
    - specialize (IH (match y_value E N X c, b with None, _ => b | Some v, None => Some (v, (y_varmax E N X c, c)) | Some v, Some (m, _) => if Rlt_dec v m then Some (v, (y_varmax E N X c, c)) else b end)).
      destruct (fold_left _ l _) as [[v [r c0]]|].
      + destruct IH as (I1 & I2 & I3). destruct (y_value E N X c) as [w|] eqn:Ew.
        * destruct b as [[m [r1 c1]]|].
          -- destruct (Rlt_dec w m) as [Lt|Ge].
             ++ split; [destruct I1 as [Q|(Q1 & Q2 & Q3)]; [injection Q as <- <- <-; right; split; [now left|auto]|right; split; [now right|auto]]|]. pose proof (I3 w _ eq_refl). split; [intros c' v' [<-|Hc] Ev; [rewrite Ew in Ev; injection Ev as <-; assumption|now apply (I2 c')]|]. intros m' y Q. injection Q as <- _. lra.
             ++ split; [destruct I1 as [Q|(Q1 & Q2 & Q3)]; [now left|right; split; [now right|auto]]|]. pose proof (I3 m _ eq_refl). split; [intros c' v' [<-|Hc] Ev; [rewrite Ew in Ev; injection Ev as <-; lra|now apply (I2 c')]|]. intros m' y Q. injection Q as <- _. assumption.
          -- split; [destruct I1 as [Q|(Q1 & Q2 & Q3)]; [injection Q as <- <- <-; right; split; [now left|auto]|right; split; [now right|auto]]|]. pose proof (I3 w _ eq_refl). split; [intros c' v' [<-|Hc] Ev; [rewrite Ew in Ev; injection Ev as <-; assumption|now apply (I2 c')]|]. discriminate.
        * split; [destruct I1 as [Q|(Q1 & Q2 & Q3)]; [now left|right; split; [now right|auto]]|]. split; [intros c' v' [<-|Hc] Ev; [congruence|now apply (I2 c')]|exact I3].
      + destruct IH as [I1 I2]. destruct (y_value E N X c) as [w|] eqn:Ew.
        * exfalso. destruct b as [[m [r1 c1]]|]; [destruct (Rlt_dec w m)|]; discriminate.
        * split; [exact I1|]. intros c' [<-|Hc]; [exact Ew|now apply I2]. }
  specialize (SEL (all_orders (m_order st)) None). destruct (fold_left _ _ None) as [[v [r [p q]]]|]; [|discriminate]. cbn [option_map fst snd] in HF.
  destruct SEL as ([Q|(S1 & S2 & S3)] & S4 & _); [discriminate|]. apply AO in S1. destruct (y_lingam E N (mr_resid r)) as [causal psi0]. destruct (psi_and_omega _ _ _ _ _) as [po|]; [|discriminate].
  destruct (if m_prune st then _ else _) as [adj|]; [|discriminate]. injection HF as <-. cbn [m_order m_ar m_ma m_resid]. exists p, q, v. rewrite <- S3. destruct S1 as (S1 & S1' & S1''). repeat (split; [assumption || reflexivity|]).
  intros p' q' v' Hp Hq HN. apply S4. apply AO. auto.
Qed.
(** The model x(t) = sum psi x(t - tau) + e(t) + sum omega e(t - tau) with the errors e = (I - psi_0) eps does not hold: omega lacks its
    last factor. *)
Theorem C166_moving_average_refuted : exists E n st N X st' ar ma, m_lingam_ordered E n /\ m_ar st = Some ar /\ m_ma st = Some ma /\ m_order st = (length ar, length ma) /\ m_prune st = false /\ m_fit E n st N X = Some st' /\
  exists t i, (Nat.max (length ar) (length ma) < t < N)%nat /\ (i < n)%nat /\
    let e := fun u => mvec n (eye_minus (nth 0 (fst (m_adj st')) zmat)) (m_resid st' (u - Nat.max (length ar) (length ma))%nat) in
    X t i <> predicted n (fst (m_adj st')) X t i + rsum (fun k => rsum (fun j => nth k (snd (m_adj st')) zmat i j * e (t - k - 1)%nat j) (seq 0 n)) (seq 0 (length ma)) + e t i.
Proof.
  exists (mdemo 2 0 (fun _ _ => 0)), 2%nat, (m_init (0, 1)%nat false false (Some []) (Some [eye])), 3%nat, (fun t _ => if Nat.eqb t 1 then 1 else 0). eexists. exists [], [eye].
  split; [apply mdemo_ordered|]. do 4 (split; [reflexivity|]). split; [reflexivity|]. exists 2%nat, 1%nat. split; [cbn; lia|]. split; [lia|]. cbn zeta. cbn [m_adj m_resid fst snd].
  change (Nat.max (length (@nil rmat)) (length [eye])) with 1%nat. unfold m_residuals. change (Nat.max (length (@nil rmat)) (length [eye])) with 1%nat. 
  cbn [map nth seq length mmul]. unfold predicted. cbn [length seq]. unfold mvec, rdot, mmul, eye_minus, eye, rsum. cbn. lra.
Qed.

(** ** C167: an object with pruning can be fitted once *)
(** With stored or given coefficients the errors have fewer rows than the data, and putting them into the table raises. *)
Theorem C167_pruning_with_coefficients_refuted : forall E n st N X ar ma, m_ar st = Some ar -> m_ma st = Some ma -> m_prune st = true -> (1 <= snd (m_order st))%nat -> (Nat.max (length ar) (length ma) + 2 <= N)%nat ->
  m_fit E n st N X = None.
Proof.
  intros E n st N X ar ma Ea Em EP HO HN. destruct (m_fit E n st N X) as [st'|] eqn:EF; [exfalso|reflexivity].
  destruct (m_fit_inv _ _ _ _ _ _ EF) as (phis & thetas & rows & resid & po & H1 & H2 & H3 & _ & _ & _ & H & HPO & HA). rewrite Ea, Em in H. destruct H as (-> & -> & E1 & -> & ER). rewrite EP, E1 in HA.
  unfold psi_and_omega in HPO. cbn [opt_list] in HPO. destruct (Nat.ltb_spec (length ma) (snd (m_order st'))) as [|L]; [rewrite orb_true_r in HPO; discriminate|]. rewrite E1 in L. unfold m_pruning in HA.
  destruct (Nat.eqb_spec (snd (m_order st)) 0); [lia|]. destruct (Nat.eqb_spec (N - Nat.max (length ar) (length ma)) N); [lia|]. destruct (Nat.eqb_spec (N - Nat.max (length ar) (length ma)) 1); [lia|]. discriminate.
Qed.
(** So a second fit and every bootstrap sample raise. *)
Theorem C167_refit_raises_refuted : forall E n st N X st1 M Y, m_fit E n st N X = Some st1 -> m_prune st = true -> (1 <= snd (m_order st1))%nat -> m_ar st1 <> None -> m_ma st1 <> None ->
  (forall ar ma, m_ar st1 = Some ar -> m_ma st1 = Some ma -> (Nat.max (length ar) (length ma) + 2 <= M)%nat) -> m_fit E n st1 M Y = None.
Proof.
  intros E n st N X st1 M Y EF EP HO HA HM HN. destruct (m_fit_inv _ _ _ _ _ _ EF) as (phis & thetas & rows & resid & po & H1 & H2 & _ & _ & EP' & _).
  destruct (m_ar st1) as [ar|] eqn:Ea; [|contradiction]. destruct (m_ma st1) as [ma|] eqn:Em; [|contradiction]. apply (C167_pruning_with_coefficients_refuted E n st1 M Y ar ma); auto. congruence.
Qed.
Theorem C167_bootstrap_raises_refuted : forall E n st N X d draws st1, m_prune st = true -> m_fit E n (m_set_crit false st) N X = Some st1 -> (1 <= snd (m_order st1))%nat ->
  (forall ar ma, m_ar st1 = Some ar -> m_ma st1 = Some ma -> (Nat.max (length ar) (length ma) + 2 <= N)%nat) -> m_bootstrap E n st N X (d :: draws) = None.
Proof.
  intros E n st N X d draws st1 EP EF HO HN. unfold m_bootstrap. rewrite EF. destruct (m_ar st1) as [ar|] eqn:Ea; [|reflexivity]. destruct (m_ma st1) as [ma|] eqn:Em; [|reflexivity]. cbn [m_samples].
  rewrite (C167_refit_raises_refuted E n (m_set_crit false st) N X st1); auto; rewrite ?Ea, ?Em; [discriminate|discriminate|exact HN].
Qed.
Example C167_nonvacuous : exists st1, m_prune (m_init (1, 1)%nat true true None None) = true /\ m_fit (mdemo 2 0 (fun _ _ => 0)) 2 (m_set_crit false (m_init (1, 1)%nat true true None None)) 5 (fun _ _ => 1) = Some st1 /\ (1 <= snd (m_order st1))%nat /\
  (forall ar ma, m_ar st1 = Some ar -> m_ma st1 = Some ma -> (Nat.max (length ar) (length ma) + 2 <= 5)%nat).
Proof. eexists. split; [reflexivity|]. split; [reflexivity|]. cbn. split; [lia|]. intros ar ma Q1 Q2. injection Q1 as <-. injection Q2 as <-. cbn. lia. Qed.
(** With a zero order every bootstrap sample raises as well: there are no coefficient matrices to simulate with. *)
Theorem C167_bootstrap_zero_order_refuted : forall E n st N X d draws, (forall N X o, (mr_ar (y_varmax E N X o) = None <-> fst o = 0%nat) /\ (mr_ma (y_varmax E N X o) = None <-> snd o = 0%nat)) ->
  m_ar st = None -> m_ma st = None -> fst (m_order st) = 0%nat \/ snd (m_order st) = 0%nat -> m_bootstrap E n st N X (d :: draws) = None.
Proof.
  intros E n st N X d draws HV Ea Em HO. unfold m_bootstrap. destruct (m_fit E n (m_set_crit false st) N X) as [st1|] eqn:EF; [|reflexivity].
  destruct (m_fit_inv _ _ _ _ _ _ EF) as (phis & thetas & rows & resid & po & H1 & H2 & _ & _ & _ & _ & H & _). cbn [m_set_crit m_ar m_ma m_order m_crit] in H. rewrite Ea in H.
  destruct H as (ro & EE & -> & -> & _). unfold estimate_varma in EE. injection EE as <-. cbn [fst] in H1, H2. destruct (HV N X (m_order st)) as [V1 V2]. rewrite H1, H2. destruct HO as [HO|HO].
  - apply V1 in HO. rewrite HO. reflexivity.
  - apply V2 in HO. rewrite HO. now destruct (mr_ar _).
Qed.
Example C167_zero_nonvacuous : forall N X o, (mr_ar (y_varmax (mdemo 2 0 (fun _ _ => 0)) N X o) = None <-> fst o = 0%nat) /\ (mr_ma (y_varmax (mdemo 2 0 (fun _ _ => 0)) N X o) = None <-> snd o = 0%nat).
Proof. intros N X [p q]. cbn [mdemo y_varmax mr_ar mr_ma fst snd]. destruct (Nat.eqb_spec p 0), (Nat.eqb_spec q 0); (split; split; intros; (discriminate || reflexivity || congruence || assumption)). Qed.
(** Without pruning a refit keeps the coefficients of the first fit. *)
Fixpoint m_fit_all (E : mexternals) (n : nat) (st : mstate) (data : list (nat * series)) : option mstate :=
  match data with
  | [] => Some st
  | (N, X) :: r => match m_fit E n st N X with None => None | Some st' => m_fit_all E n st' r end
  end.
Theorem C167_refit_keeps_coefficients_refuted : forall E n st N X st1, m_fit E n st N X = Some st1 -> m_ar st1 <> None -> m_ma st1 <> None -> forall data st2, m_fit_all E n st1 data = Some st2 ->
  m_ar st2 = m_ar st1 /\ m_ma st2 = m_ma st1 /\ m_order st2 = m_order st1.
Proof.
  intros E n st N X st1 EF HA HM. destruct (m_ar st1) as [ar|] eqn:H1; [|contradiction]. destruct (m_ma st1) as [ma|] eqn:H2; [|contradiction]. clear EF HA HM. intros data. revert st1 H1 H2.
  induction data as [|[M Y] data IH]; intros st1 H1 H2 st2 EQ; [injection EQ as <-; auto|]. cbn [m_fit_all] in EQ. destruct (m_fit E n st1 M Y) as [st'|] eqn:EF; [|discriminate].
  destruct (m_fit_inv _ _ _ _ _ _ EF) as (phis' & thetas' & rows' & resid' & po' & H1' & H2' & _ & _ & _ & _ & H & _). rewrite H1, H2 in H. destruct H as (-> & -> & E1 & _).
  destruct (IH st' H1' H2' st2 EQ) as (I1 & I2 & I3). repeat split; congruence.
Qed.

(** ** C168: the instantaneous coefficients follow the causal order, and pruned coefficients belong to the right columns *)
Lemma combine_seq_in (order : list nat) : forall s k t, In (k, t) (combine (seq s (length order)) order) <-> (s <= k < s + length order)%nat /\ nth (k - s) order 0%nat = t.
Proof.
  induction order as [|a order IH]; intros s k t; cbn [length seq combine In]; [split; [intros []|lia]|]. rewrite IH. split.
  - intros [Q|[H1 H2]]; [injection Q as <- <-; rewrite Nat.sub_diag; cbn; split; [lia|reflexivity]|]. split; [lia|]. replace (k - s)%nat with (S (k - S s)) by lia. exact H2.
  - intros [H1 H2]. destruct (Nat.eq_dec k s) as [->|N]; [left; rewrite Nat.sub_diag in H2; cbn in H2; congruence|]. right. split; [lia|]. replace (k - s)%nat with (S (k - S s)) in H2 by lia. exact H2.
Qed.
Lemma filter_seq_NoDup f m : NoDup (filter f (seq 0 m)).
Proof. apply NoDup_filter, seq_NoDup. Qed.
Definition m_preds (n : nat) (o : nat * nat) (order : list nat) (i : nat) : list nat := filter (fun j => negb (memb j (skipn i order))) (seq 0 (n * (1 + fst o + snd o))).
Lemma m_prune_fold E n N X ee o order : forall l P0, NoDup (map snd l) -> forall a b, let P := fold_left (m_prune_step E n N X ee o order) l P0 in
  (~ In a (map snd l) -> P a b = P0 a b) /\
  (forall i, In (i, a) l -> (In b (m_preds n o order i) -> exists c, nth_error (m_preds n o order i) c = Some b /\ P a b = y_lasso E N (m_table n N X ee o) (m_preds n o order i) a c) /\
                            (~ In b (m_preds n o order i) -> P a b = P0 a b)).
Proof.
  induction l as [|[i t] l IH]; intros P0 ND a b; cbn zeta; [split; [reflexivity|intros i []]|]. cbn [map snd] in ND. inversion ND; subst. cbn [fold_left]. destruct (IH (m_prune_step E n N X ee o order P0 (i, t)) H2 a b) as [I1 I2]. clear IH.
  pose proof (write_row0 t (m_preds n o order i) (y_lasso E N (m_table n N X ee o) (m_preds n o order i) t) P0 (length (m_preds n o order i))) as (W1 & W2 & W3).
  change (fold_left _ (seq 0 (length (m_preds n o order i))) P0) with (m_prune_step E n N X ee o order P0 (i, t)) in W1, W2, W3. set (P1 := m_prune_step E n N X ee o order P0 (i, t)) in *. split.
  - intros H. cbn [map snd In] in H. rewrite I1 by tauto. apply W1. intros ->. tauto.
  - intros i' [Q|Hin].
    + injection Q as -> ->. rewrite I1 by exact H1. split.
      * intros Hb. apply (In_nth _ _ 0%nat) in Hb. destruct Hb as (c & Hc & <-). exists c. split; [now apply nth_error_nth'|]. apply W3; [apply filter_seq_NoDup|lia|exact Hc].
      * intros Nb. apply W2. intros c Hc Q. apply Nb. rewrite <- Q. now apply nth_In.
    + assert (Na : a <> t) by (intros ->; apply H1; apply in_map_iff; exists (i', t); auto). destruct (I2 i' Hin) as [J1 J2]. split; [exact J1|]. intros Nb. rewrite J2 by exact Nb. now apply W1.
Qed.
Lemma skipn_before order i t : NoDup order -> (i < length order)%nat -> nth i order 0%nat = t -> forall j, In j order -> (~ In j (skipn i order) <-> before order j t).
Proof.
  intros ND Hi Et j Hj. rewrite <- (firstn_skipn i order) in Hj. apply in_app_or in Hj.
  assert (ES : exists r, skipn i order = t :: r). { clear -Hi Et. revert i Hi Et. induction order as [|a order IH]; intros i Hi Et; [cbn in Hi; lia|]. destruct i as [|i]; [cbn in *; subst; eauto|]. cbn in *. apply IH; [lia|exact Et]. }
  destruct ES as (r & ES). pose proof (firstn_skipn i order) as EO. rewrite ES in EO. rewrite ES in *. set (pre := firstn i order) in *. clearbody pre. subst order. split.
  - intros Nj. destruct Hj as [Hj|Hj]; [|contradiction]. apply in_split in Hj. destruct Hj as (m1 & m2 & ->). exists m1, m2, r. now rewrite <- app_assoc.
  - intros HB Hin. apply before_pos in HB; [|exact ND]. assert (Q : (LingamProofs.pos (pre ++ t :: r) t <= LingamProofs.pos (pre ++ t :: r) j)%nat); [|lia]. clear HB Hj Hi ES Et.
    induction pre as [|x pre IH]; cbn [app LingamProofs.pos]; [destruct (Nat.eqb_spec t t); lia|]. cbn [app] in ND. inversion ND; subst.
    destruct (Nat.eqb_spec j x) as [->|]; [exfalso; apply H1, in_or_app; now right|]. destruct (Nat.eqb_spec t x); [lia|]. apply IH in H2. lia.
Qed.
Theorem C168_instantaneous_order : forall E n st N X st', m_lingam_ordered E n -> m_fit E n st N X = Some st' -> follows n (nth 0 (fst (m_adj st')) zmat) (m_causal st').
Proof.
  intros E n st N X st' HL EF. destruct (m_fit_inv _ _ _ _ _ _ EF) as (phis & thetas & rows & resid & po & H1 & H2 & H3 & _ & _ & EC & H & HPO & HA). pose proof (HL rows resid) as HF. rewrite <- EC in HF.
  destruct (m_prune st).
  - split; [apply HF|]. intros i j Hi Hj N0. destruct HF as [HP _]. assert (ND : NoDup (m_causal st')) by (apply (Permutation_NoDup (Permutation_sym HP)), seq_NoDup).
    assert (HI : forall x, In x (m_causal st') <-> (x < n)%nat) by (intros x; rewrite <- in_seq0; split; apply Permutation_in; [exact HP|now apply Permutation_sym]).
    unfold m_pruning in HA. destruct (negb _ && negb _); [discriminate|]. injection HA as HA. rewrite <- HA in N0. cbn [fst seq map nth Nat.add] in N0. rewrite Nat.mul_0_r, Nat.add_0_l in N0.
    pose proof (proj2 (HI i) Hi) as Ii. apply (In_nth _ _ 0%nat) in Ii. destruct Ii as (k & Hk & Ek).
    destruct (m_prune_fold E n N X (fun r => mvec n (eye_minus (snd (y_lingam E rows resid))) (resid r)) (m_order st') (m_causal st') (combine (seq 0 (length (m_causal st'))) (m_causal st')) zmat) with (a := i) (b := j) as [_ HPF].
    { rewrite map_snd_combine by now rewrite seq_length. exact ND. }
    assert (Hin : In (k, i) (combine (seq 0 (length (m_causal st'))) (m_causal st'))) by (apply combine_seq_in; rewrite Nat.sub_0_r; split; [lia|exact Ek]). destruct (HPF k Hin) as [_ HZ].
    apply (skipn_before (m_causal st') k i ND Hk Ek); [now apply HI|]. intros HS. apply N0. rewrite HZ; [reflexivity|]. intros HIn. unfold m_preds in HIn. apply filter_In in HIn. destruct HIn as [_ HIn]. apply negb_true_iff, memb_not_In in HIn. contradiction.
  - rewrite HA. unfold psi_and_omega in HPO. destruct (_ || _); [discriminate|]. injection HPO as <-. cbn [fst nth]. exact HF.
Qed.
(** A pruned coefficient is the coefficient its own regressor got: psi_tau[i, j] that of variable j at lag tau, omega_k[i, j] that of error j
    at lag k + 1; the regressors of i are exactly the variables before i in the order, all lagged variables and all lagged errors. *)
Theorem C168_pruned_coefficients : forall E n N X ee rows o order psis omegas, Permutation order (seq 0 n) -> m_pruning E n N X ee rows o order = Some (psis, omegas) ->
  length psis = S (fst o) /\ length omegas = snd o /\
  forall i, (i < n)%nat -> exists ps, let coef := y_lasso E N (m_table n N X ee o) ps i in
    (forall c, In c ps <-> (c < n * (1 + fst o + snd o))%nat /\ ((c < n)%nat -> before order c i)) /\
    (forall tau j, (tau <= fst o)%nat -> (j < n)%nat -> (tau = 0%nat -> before order j i) -> exists k, nth_error ps k = Some (n * tau + j)%nat /\ nth tau psis zmat i j = coef k) /\
    (forall q j, (q < snd o)%nat -> (j < n)%nat -> exists k, nth_error ps k = Some (n * (1 + fst o + q) + j)%nat /\ nth q omegas zmat i j = coef k).
Proof.
  intros E n N X ee rows o order psis omegas HP. unfold m_pruning. destruct (negb _ && negb _); [discriminate|]. set (P := fold_left _ _ zmat). intros Q.
  pose proof (f_equal (fun x => match x with Some (a, _) => a | None => [] end) Q) as Q1. pose proof (f_equal (fun x => match x with Some (_, a) => a | None => [] end) Q) as Q2. cbv beta iota in Q1, Q2. clear Q. subst psis omegas.
  split; [now rewrite map_length, seq_length|]. split; [now rewrite map_length, seq_length|]. intros i Hi.
  assert (ND : NoDup order) by (apply (Permutation_NoDup (Permutation_sym HP)), seq_NoDup).
  assert (HI : forall x, In x order <-> (x < n)%nat) by (intros x; rewrite <- in_seq0; split; apply Permutation_in; [exact HP|now apply Permutation_sym]).
  pose proof (proj2 (HI i) Hi) as Ii. apply (In_nth _ _ 0%nat) in Ii. destruct Ii as (k & Hk & Ek).
  assert (HPF : forall b, In b (m_preds n o order k) -> exists c, nth_error (m_preds n o order k) c = Some b /\ P i b = y_lasso E N (m_table n N X ee o) (m_preds n o order k) i c).
  { intros b. destruct (m_prune_fold E n N X ee o order (combine (seq 0 (length order)) order) zmat) with (a := i) (b := b) as [_ H]; [rewrite map_snd_combine by (now rewrite seq_length); exact ND|].
    apply (H k). apply combine_seq_in. rewrite Nat.sub_0_r. split; [lia|exact Ek]. }
  assert (HC : forall c, In c (m_preds n o order k) <-> (c < n * (1 + fst o + snd o))%nat /\ ((c < n)%nat -> before order c i)).
  { intros c. unfold m_preds. rewrite filter_In, in_seq0, negb_true_iff, memb_not_In. split; intros [A1 A2]; (split; [exact A1|]).
    - intros Hc. apply (skipn_before order k i ND Hk Ek); [now apply HI|exact A2].
    - intros HS. assert (Hc : (c < n)%nat) by (apply HI; rewrite <- (firstn_skipn k order); apply in_or_app; now right). apply (skipn_before order k i ND Hk Ek) in HS; [exact HS|now apply HI|now apply A2]. }
  exists (m_preds n o order k). cbn zeta. split; [exact HC|]. split.
  - intros tau j Ht Hj HB. destruct (HPF (n * tau + j)%nat) as (c & E1 & E2).
    { apply HC. split; [nia|]. intros Q. destruct tau as [|tau]; [|nia]. rewrite Nat.mul_0_r, Nat.add_0_l. now apply HB. }
    exists c. split; [exact E1|]. rewrite <- E2. rewrite (nth_indep _ zmat ((fun k a b => P a (n * k + b)%nat) 0%nat)) by (rewrite map_length, seq_length; lia).
    rewrite (map_nth (fun k a b => P a (n * k + b)%nat)). now rewrite seq_nth by lia.
  - intros q j Hq Hj. destruct (HPF (n * (1 + fst o + q) + j)%nat) as (c & E1 & E2).
    { apply HC. split; [nia|]. intros Q. nia. }
    exists c. split; [exact E1|]. rewrite <- E2. rewrite (nth_indep _ zmat ((fun k a b => P a (n * (1 + fst o) + n * k + b)%nat) 0%nat)) by (rewrite map_length, seq_length; lia).
    rewrite (map_nth (fun k a b => P a (n * (1 + fst o) + n * k + b)%nat)). rewrite seq_nth by lia. f_equal. lia.
Qed.
(** ... where the column n*tau + j holds variable j at lag tau, and the column n*(1 + p + q) + j error j at lag q + 1 (from row lag on). *)
Theorem C168_columns : forall n N X ee o r j, (j < n)%nat -> (r < N)%nat ->
  (forall tau, (tau <= fst o)%nat -> (tau <= r)%nat -> m_table n N X ee o r (n * tau + j) = X (r - tau)%nat j) /\
  (forall q, (q < snd o)%nat -> (q + 1 <= r)%nat -> m_table n N X ee o r (n * (1 + fst o + q) + j) = ee (r - (q + 1))%nat j).
Proof.
  intros n N X ee o r j Hj Hr. assert (HR : forall a s, (s <= r)%nat -> rolled N a s r = a (r - s)%nat).
  { intros a s Hs. unfold rolled. rewrite (Nat.mod_small s) by lia. replace (r + (N - s))%nat with (r - s + 1 * N)%nat by lia. rewrite Nat.mod_add, Nat.mod_small by lia. reflexivity. }
  assert (HD : forall s, ((n * s + j) / n = s /\ (n * s + j) mod n = j)%nat).
  { intros s. replace (n * s + j)%nat with (j + s * n)%nat by lia. rewrite Nat.div_add, Nat.mod_add by lia. rewrite Nat.div_small, Nat.mod_small by lia. lia. }
  split.
  - intros tau Ht Hl. unfold m_table. destruct (HD tau) as [-> ->]. destruct (Nat.leb_spec tau (fst o)); [|lia]. now rewrite HR.
  - intros q Hq Hl. unfold m_table. destruct (HD (1 + fst o + q)%nat) as [-> ->]. destruct (Nat.leb_spec (1 + fst o + q) (fst o)); [lia|]. destruct (Nat.leb_spec (1 + fst o + q) (fst o + snd o)); [|lia].
    replace (1 + fst o + q - fst o)%nat with (q + 1)%nat by lia. now rewrite HR.
Qed.

(** ** C169: total effects *)
(** The effects at all positive lags are the same. *)
Theorem C169_lags_confused_refuted : forall E n st N X ee from to lag, (1 <= lag)%nat -> m_total_effect E n st N X ee from to lag = m_total_effect E n st N X ee from to 1.
Proof. intros E n st N X ee from to lag Hl. unfold m_total_effect, m_predictors. destruct (Nat.eqb_spec lag 0); [lia|]. reflexivity. Qed.
(** Even at lag 1 a parent of the cause at the last lag p is taken to be an error: the column it is shifted to holds errors at lag 1. *)
Theorem C169_parent_column_refuted : forall n st N X ee from j, (from < n)%nat -> (j < n)%nat -> m_order st = ((length (fst (m_adj st)) - 1)%nat, length (snd (m_adj st))) -> (2 <= length (fst (m_adj st)))%nat -> (1 <= length (snd (m_adj st)))%nat ->
  nth (fst (m_order st)) (fst (m_adj st)) zmat from j <> 0 -> exists c, In c (tl (m_predictors n st from 1)) /\ c = (n * fst (m_order st) + j + n)%nat /\
    forall r, (1 <= r < N)%nat -> m_table n N X ee (m_order st) r c = ee (r - 1)%nat j.
Proof.
  intros n st N X ee from j Hf Hj EO H1 H2 N0. exists (n * fst (m_order st) + j + n)%nat. split; [|split; [reflexivity|]].
  - unfold m_predictors. cbn [map tl Nat.eqb]. apply in_map_iff. exists (n * fst (m_order st) + j)%nat. split; [lia|]. apply filter_In. split.
    + apply in_seq0. rewrite app_length. rewrite EO. cbn [fst]. nia.
    + unfold row_of. replace (n * fst (m_order st) + j)%nat with (j + fst (m_order st) * n)%nat by lia. rewrite Nat.div_add, Nat.mod_add by lia. rewrite Nat.div_small, Nat.mod_small by lia. cbn [Nat.add].
      rewrite app_nth1 by (rewrite EO; cbn [fst]; lia). unfold nonzerob. destruct (Rlt_dec 0 _) as [|L]; [reflexivity|]. exfalso. apply L. now apply Rabs_pos_lt.
  - intros r Hr. destruct (C168_columns n N X ee (m_order st) r j Hj) as [_ H]; [lia|]. specialize (H 0%nat). rewrite Nat.add_0_l in H. rewrite <- H; [f_equal; lia| |lia]. rewrite EO. exact H2.
Qed.
