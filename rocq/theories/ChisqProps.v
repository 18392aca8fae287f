(** The chi-square and G-square tests: they compute the textbook statistic, however the tables are counted, and do not depend
    on the order of the arguments, on the order of the samples, or on the coding of the values. *)
From Verif Require Import Base BICModel BICProofs ChisqModel ChisqSpec ChisqProofs.
From Coq Require Import Permutation Reals Lra.
Local Open Scope R_scope.

Lemma strat_ne cond w rows : In w (configs cond rows) -> stratum cond w rows <> [].
Proof.
  intros H E. apply in_configs in H. destruct H as (r & Hr & Er). assert (K : In r (stratum cond w rows)).
  { unfold stratum. apply filter_In. split; [exact Hr|]. destruct (list_eq_dec Z.eq_dec (config cond r) w); [reflexivity|contradiction]. }
  rewrite E in K. destruct K.
Qed.
Lemma strat_incl cond w rows : incl (stratum cond w rows) rows.
Proof. intros r Hr. unfold stratum in Hr. apply filter_In in Hr. apply Hr. Qed.

(** C98: the p-value is the textbook one, for every data set, whichever of the counting procedures runs (every [threshold]). *)
Theorem C98_textbook_statistic sf threshold gsq rows x y cond : rows <> [] ->
  chisq_call sf threshold gsq rows x y cond = Ok (p_spec sf gsq rows x y cond).
Proof.
  intros Hne. unfold chisq_call.
  set (enc := fun r => (map (fun k => recode rows k r) cond, recode rows x r, recode rows y r)).
  set (cs := map (cardinality rows) cond). set (m := cardinality rows x). set (n := cardinality rows y).
  assert (V : valid cs m n (map enc rows)) by (apply enc_valid; exact Hne).
  assert (Ne : map enc rows <> []) by (destruct rows; [congruence|discriminate]).
  destruct (test_strata sf threshold gsq (map enc rows) cs m n V Ne) as (W & HW & ->). f_equal. cbv zeta.
  apply (indices_perm rows Hne x y cond) in HW.
  set (ci := fun w => radix cs (map (fun kv => position Z.eqb (snd kv) (np_unique Z.ltb (column (fst kv) rows))) (combine cond w))) in *.
  set (ts := map (fun w => tab (strat cs (map enc rows) w)) W).
  set (ts' := map (fun w => tab (map enc (stratum cond w rows))) (configs cond rows)).
  assert (P : Permutation ts ts').
  { unfold ts, ts'. rewrite (Permutation_map _ HW). rewrite map_map. apply Permutation_refl'. apply map_ext_in. intros w Hw. f_equal.
    apply (strat_stratum rows Hne x y cond w Hw). }
  assert (ED : degrees m n ts = df_spec rows x y cond).
  { rewrite (degrees_perm m n _ _ P). unfold degrees, ts', df_spec. rewrite map_map. f_equal. apply map_ext_in. intros w Hw.
    assert (R1 : m = (zero_rows m n (tab (map enc (stratum cond w rows))) + length (values x (stratum cond w rows)))%nat)
      by exact (table_rows rows Hne x y cond (stratum cond w rows) (strat_incl cond w rows) (strat_ne cond w rows Hw)).
    assert (R2 : n = (zero_cols m n (tab (map enc (stratum cond w rows))) + length (values y (stratum cond w rows)))%nat)
      by exact (table_cols rows Hne x y cond (stratum cond w rows) (strat_incl cond w rows) (strat_ne cond w rows Hw)).
    cbv zeta. f_equal; clear -R1 R2; lia. }
  assert (ES : statistic gsq m n ts = stat_spec gsq rows x y cond).
  { unfold statistic. rewrite (rsum_perm _ _ _ P). unfold ts', stat_spec. rewrite rsum_map. apply rsum_ext. intros w Hw. cbv zeta.
    apply (table_statistic rows Hne x y cond (stratum cond w rows) (strat_incl cond w rows) gsq). now apply strat_ne. }
  unfold p_spec. now rewrite ED, ES.
Qed.

(* ---------- invariance of the textbook statistic ---------- *)
Lemma representatives {A B} (decA : forall a b : A, {a = b} + {a <> b}) (k : B -> A) rows :
  exists reps, incl reps rows /\ NoDup (map k reps) /\ forall r, In r rows -> In (k r) (map k reps).
Proof.
  induction rows as [|r rows IH]; [exists []; repeat split; [intros x []|constructor|intros r []]|].
  destruct IH as (reps & H1 & H2 & H3). destruct (in_dec decA (k r) (map k reps)) as [Hi|Hi].
  - exists reps. split; [intros x Hx; right; auto|]. split; [exact H2|]. intros x [<-|Hx]; auto.
  - exists (r :: reps). split; [intros x [<-|Hx]; [now left|right; auto]|]. split; [cbn [map]; now constructor|]. intros x [<-|Hx]; [now left|right; auto].
Qed.
Lemma keys_perm {A A' B C} (dA : forall a b : A, {a = b} + {a <> b}) (dA' : forall a b : A', {a = b} + {a <> b}) (k1 : B -> A) (k2 : B -> A') (F1 : A -> C) (F2 : A' -> C) rows :
  (forall r r', In r rows -> In r' rows -> k1 r = k1 r' <-> k2 r = k2 r') -> (forall r, In r rows -> F1 (k1 r) = F2 (k2 r)) ->
  Permutation (map F1 (nodup dA (map k1 rows))) (map F2 (nodup dA' (map k2 rows))).
Proof.
  intros HK HF. destruct (representatives dA k1 rows) as (reps & H1 & H2 & H3).
  assert (P1 : Permutation (nodup dA (map k1 rows)) (map k1 reps)).
  { apply NoDup_Permutation; [apply NoDup_nodup|exact H2|]. intros a. rewrite nodup_In, !in_map_iff. split.
    - intros (r & <- & Hr). specialize (H3 r Hr). now apply in_map_iff in H3.
    - intros (r & <- & Hr). exists r. auto. }
  assert (H2' : NoDup (map k2 reps)).
  { clear P1 H3. induction reps as [|r reps IH]; [constructor|]. cbn [map] in *. apply NoDup_cons_iff in H2. destruct H2 as [Ha Hb].
    constructor; [|apply IH; auto; intros z Hz; apply H1; now right]. intros Hi. apply Ha. apply in_map_iff in Hi. destruct Hi as (r' & E & Hr'). apply in_map_iff. exists r'.
    split; [|exact Hr']. apply HK; auto; apply H1; [now right|now left]. }
  assert (P2 : Permutation (nodup dA' (map k2 rows)) (map k2 reps)).
  { apply NoDup_Permutation; [apply NoDup_nodup|exact H2'|]. intros a. rewrite nodup_In, !in_map_iff. split.
    - intros (r & <- & Hr). specialize (H3 r Hr). apply in_map_iff in H3. destruct H3 as (r' & E & Hr'). exists r'. split; [|exact Hr']. apply HK; auto.
    - intros (r & <- & Hr). exists r. auto. }
  rewrite (Permutation_map F1 P1), (Permutation_map F2 P2), !map_map. apply Permutation_refl'. apply map_ext_in. intros r Hr. apply HF. auto.
Qed.
Lemma rsum_keys {A B} (f : A -> R) (g : B -> R) l l' : Permutation (map f l) (map g l') -> rsum f l = rsum g l'.
Proof.
  intros H. unfold rsum. change (fold_right Rplus 0 (map f l)) with (fold_right Rplus 0 (map f l)). revert H. generalize (map f l), (map g l'). clear.
  induction 1; cbn [fold_right]; lra.
Qed.
Lemma zsum_keys l l' : Permutation l l' -> fold_right Z.add 0%Z l = fold_right Z.add 0%Z l'.
Proof. induction 1; cbn [fold_right]; lia. Qed.
Lemma p_spec_eq sf g rows x y c rows' x' y' c' : stat_spec g rows x y c = stat_spec g rows' x' y' c' -> df_spec rows x y c = df_spec rows' x' y' c' ->
  p_spec sf g rows x y c = p_spec sf g rows' x' y' c'.
Proof. intros E1 E2. unfold p_spec. now rewrite E1, E2. Qed.

(** C99: the test is symmetric in its two variables ... *)
Lemma contribution_sym g st x u y v : contribution g st x u y v = contribution g st y v x u.
Proof.
  unfold contribution, expect. assert (E : occur2 x u y v st = occur2 y v x u st) by (unfold occur2; do 2 f_equal; apply filter_ext; intros; apply andb_comm).
  rewrite E. assert (E2 : occurs x u st * occurs y v st / INR (length st) = occurs y v st * occurs x u st / INR (length st)) by (f_equal; apply Rmult_comm). now rewrite E2.
Qed.
Theorem C99_symmetric sf threshold gsq rows x y cond : rows <> [] ->
  chisq_call sf threshold gsq rows x y cond = chisq_call sf threshold gsq rows y x cond.
Proof.
  intros H. rewrite !C98_textbook_statistic by exact H. f_equal. apply p_spec_eq.
  - unfold stat_spec. apply rsum_ext. intros w _. cbv zeta. rewrite rsum_swap. apply rsum_ext. intros v _. apply rsum_ext. intros u _. apply contribution_sym.
  - unfold df_spec. f_equal. apply map_ext. intros w. cbv zeta. apply Z.mul_comm.
Qed.
(** ... does not depend on the order (or on repetitions) of the conditioning variables ... *)
Theorem C99_conditioning_order sf threshold gsq rows x y cond cond' : rows <> [] -> (forall k, In k cond <-> In k cond') ->
  chisq_call sf threshold gsq rows x y cond = chisq_call sf threshold gsq rows x y cond'.
Proof.
  intros H HS. rewrite !C98_textbook_statistic by exact H. f_equal.
  assert (K : forall c c', (forall k, In k c' -> In k c) -> forall r r', config c r = config c r' -> config c' r = config c' r').
  { intros c c' Hc r r' E. unfold config in *. apply map_ext_in. intros k Hk. apply Hc in Hk. clear -E Hk.
    induction c as [|a c IH]; [destruct Hk|]. cbn [map] in E. injection E as E1 E2. destruct Hk as [<-|Hk]; auto. }
  assert (KK : forall r r', config cond r = config cond r' <-> config cond' r = config cond' r') by (intros r r'; split; apply K; intros k; apply HS).
  assert (ST : forall r, stratum cond (config cond r) rows = stratum cond' (config cond' r) rows).
  { intros r. unfold stratum. apply filter_ext. intros r'. destruct (list_eq_dec _ _ _) as [E|E], (list_eq_dec _ _ _) as [E'|E']; auto; exfalso.
    - apply E'. now apply KK. - apply E. now apply KK. }
  apply p_spec_eq.
  - unfold stat_spec. apply rsum_keys. unfold configs. apply keys_perm; [intros; apply KK|]. intros r _. cbv zeta. now rewrite ST.
  - unfold df_spec. apply zsum_keys. unfold configs. apply keys_perm; [intros; apply KK|]. intros r _. cbv zeta. now rewrite ST.
Qed.
(** ... nor on the order of the samples. *)
Lemma filter_perm {A} (p : A -> bool) l l' : Permutation l l' -> Permutation (filter p l) (filter p l').
Proof.
  induction 1; cbn [filter]; [constructor| | |eapply Permutation_trans; eauto].
  - destruct (p x); auto. - destruct (p x), (p y); auto. apply perm_swap.
Qed.
Lemma nodup_perm {A} (d : forall a b : A, {a = b} + {a <> b}) l l' : Permutation l l' -> Permutation (nodup d l) (nodup d l').
Proof.
  intros H. apply NoDup_Permutation; [apply NoDup_nodup|apply NoDup_nodup|]. intros a. rewrite !nodup_In. split; apply Permutation_in; auto using Permutation_sym.
Qed.
Theorem C99_sample_order sf threshold gsq rows rows' x y cond : rows <> [] -> Permutation rows rows' ->
  chisq_call sf threshold gsq rows x y cond = chisq_call sf threshold gsq rows' x y cond.
Proof.
  intros H P. assert (H' : rows' <> []) by (intros ->; apply H; now apply Permutation_sym, Permutation_nil in P).
  rewrite !C98_textbook_statistic by assumption. f_equal.
  assert (ST : forall w, Permutation (stratum cond w rows) (stratum cond w rows')) by (intros; now apply filter_perm).
  assert (PV : forall k w, Permutation (values k (stratum cond w rows)) (values k (stratum cond w rows'))) by (intros; apply nodup_perm, Permutation_map; auto).
  assert (PC : Permutation (configs cond rows) (configs cond rows')) by (apply nodup_perm, Permutation_map; auto).
  apply p_spec_eq.
  - unfold stat_spec. rewrite (rsum_perm _ _ _ PC). apply rsum_ext. intros w _. cbv zeta. rewrite (rsum_perm _ _ _ (PV x w)). apply rsum_ext. intros u _.
    rewrite (rsum_perm _ _ _ (PV y w)). apply rsum_ext. intros v _. unfold contribution, expect, occurs, occur2.
    rewrite !(fun p => Permutation_length (filter_perm p _ _ (ST w))), (Permutation_length (ST w)). reflexivity.
  - unfold df_spec. rewrite (zsum_keys _ _ (Permutation_map _ PC)). f_equal. apply map_ext. intros w. cbv zeta.
    now rewrite (Permutation_length (PV x w)), (Permutation_length (PV y w)).
Qed.
(** C100: recoding the values of each variable by an injective function changes nothing. *)
Theorem C100_recoding sf threshold gsq rows x y cond (f : nat -> Z -> Z) (phi : list Z -> list Z) : rows <> [] ->
  (forall r k, In r rows -> In k (x :: y :: cond) -> nth k (phi r) 0%Z = f k (nth k r 0%Z)) ->
  (forall k u v, f k u = f k v -> u = v) ->
  chisq_call sf threshold gsq (map phi rows) x y cond = chisq_call sf threshold gsq rows x y cond.
Proof.
  intros H Hv Hf. assert (H' : map phi rows <> []) by (destruct rows; [congruence|discriminate]).
  rewrite (C98_textbook_statistic sf threshold gsq rows) by exact H. rewrite (C98_textbook_statistic sf threshold gsq (map phi rows)) by exact H'. f_equal.
  assert (VP : forall r k, In r rows -> In k (x :: y :: cond) -> value (phi r) k = f k (value r k)) by (intros; now apply Hv).
  assert (CF : forall r r', In r rows -> In r' rows -> config cond (phi r) = config cond (phi r') <-> config cond r = config cond r').
  { intros r r' Hr Hr'. unfold config. assert (Hc : incl cond (x :: y :: cond)) by (intros k Hk; right; now right). revert Hc. generalize cond at 1 3 4 5 6. intros c.
    induction c as [|k c IH]; intros Hc; [tauto|]. cbn [map]. assert (Hk : In k (x :: y :: cond)) by (apply Hc; now left).
    rewrite !VP by assumption. assert (Hc' : incl c (x :: y :: cond)) by (intros z Hz; apply Hc; now right). specialize (IH Hc'). split.
    - intros E. injection E as E1 E2. apply Hf in E1. rewrite E1. f_equal. now apply IH.
    - intros E. injection E as E1 E2. rewrite E1. f_equal. now apply IH. }
  assert (FM : forall (p : list Z -> bool) l, filter p (map phi l) = map phi (filter (fun r => p (phi r)) l)).
  { intros p. induction l as [|a l IH]; [reflexivity|]. cbn [map filter]. rewrite IH. now destruct (p (phi a)). }
  assert (ST : forall r, In r rows -> stratum cond (config cond (phi r)) (map phi rows) = map phi (stratum cond (config cond r) rows)).
  { intros r Hr. unfold stratum. rewrite FM. f_equal. apply filter_ext_in. intros r' Hr'.
    destruct (list_eq_dec _ _ _) as [E|E], (list_eq_dec _ _ _) as [E'|E']; auto; exfalso.
    - apply E'. now apply CF. - apply E. now apply CF. }
  assert (VAL : forall (k : nat) st (C : Type) (F1 F2 : Z -> C), incl st rows -> In k (x :: y :: cond) -> (forall u, F1 (f k u) = F2 u) ->
    Permutation (map F1 (values k (map phi st))) (map F2 (values k st))).
  { intros k st C F1 F2 Hst Hk HF. unfold values. rewrite map_map. apply keys_perm.
    - intros r r' Hr Hr'. rewrite !VP by auto. split; [apply Hf|now intros ->].
    - intros r Hr. rewrite VP by auto. apply HF. }
  assert (OC : forall k u st, incl st rows -> In k (x :: y :: cond) -> occurs k (f k u) (map phi st) = occurs k u st).
  { intros k u st Hst Hk. unfold occurs. rewrite FM, map_length. do 2 f_equal. apply filter_ext_in. intros r Hr. rewrite VP by auto.
    destruct (Z.eqb_spec (f k (value r k)) (f k u)) as [E|E], (Z.eqb_spec (value r k) u) as [E'|E']; auto; exfalso; [apply E'; eapply Hf; eauto|apply E; now rewrite E']. }
  assert (OC2 : forall u v st, incl st rows -> occur2 x (f x u) y (f y v) (map phi st) = occur2 x u y v st).
  { intros u v st Hst. unfold occur2. rewrite FM, map_length. do 2 f_equal. apply filter_ext_in. intros r Hr.
    rewrite !VP by (auto; (now left) || (right; now left)). f_equal.
    - destruct (Z.eqb_spec (f x (value r x)) (f x u)) as [E|E], (Z.eqb_spec (value r x) u) as [E'|E']; auto; exfalso; [apply E'; eapply Hf; eauto|apply E; now rewrite E'].
    - destruct (Z.eqb_spec (f y (value r y)) (f y v)) as [E|E], (Z.eqb_spec (value r y) v) as [E'|E']; auto; exfalso; [apply E'; eapply Hf; eauto|apply E; now rewrite E']. }
  assert (Ix : In x (x :: y :: cond)) by (now left). assert (Iy : In y (x :: y :: cond)) by (right; now left).
  apply p_spec_eq.
  - unfold stat_spec. apply rsum_keys. unfold configs. rewrite map_map. apply keys_perm; [intros r r' Hr Hr'; now apply CF|]. intros r Hr. cbv zeta. rewrite ST by exact Hr.
    set (st := stratum cond (config cond r) rows). assert (Hst : incl st rows) by apply strat_incl.
    apply rsum_keys. apply VAL; auto. intros u. apply rsum_keys. apply VAL; auto. intros v. unfold contribution, expect. rewrite OC2, !OC, map_length by auto. reflexivity.
  - unfold df_spec. apply zsum_keys. unfold configs. rewrite map_map. apply keys_perm; [intros r r' Hr Hr'; now apply CF|]. intros r Hr. cbv zeta. rewrite ST by exact Hr.
    set (st := stratum cond (config cond r) rows). assert (Hst : incl st rows) by apply strat_incl.
    pose proof (Permutation_length (VAL x st unit (fun _ => tt) (fun _ => tt) Hst Ix (fun _ => eq_refl))) as L1. rewrite !map_length in L1.
    pose proof (Permutation_length (VAL y st unit (fun _ => tt) (fun _ => tt) Hst Iy (fun _ => eq_refl))) as L2. rewrite !map_length in L2. now rewrite L1, L2.
Qed.
(** The chi-square statistic is never negative, and it is zero exactly when, in every stratum, the counts are the products
    of the marginals. *)
Lemma rsum_nonneg {A} (f : A -> R) l : (forall x, In x l -> 0 <= f x) -> 0 <= rsum f l /\ (rsum f l = 0 <-> forall x, In x l -> f x = 0).
Proof.
  induction l as [|a l IH]; intros H; [split; [unfold rsum; cbn; lra|split; [intros _ x []|reflexivity]]|]. rewrite rsum_cons.
  destruct IH as [I1 I2]; [intros; apply H; now right|]. pose proof (H a (or_introl eq_refl)) as Ha. split; [lra|]. split.
  - intros E. assert (f a = 0) by lra. assert (rsum f l = 0) by lra. intros x [<-|Hx]; auto. now apply I2.
  - intros E. rewrite (E a (or_introl eq_refl)), (proj2 I2); [lra|]. intros; apply E; now right.
Qed.
Theorem C98_chisq_zero_iff_independent rows x y cond :
  0 <= stat_spec false rows x y cond /\
  (stat_spec false rows x y cond = 0 <-> forall w u v, In w (configs cond rows) -> let st := stratum cond w rows in In u (values x st) -> In v (values y st) ->
     occur2 x u y v st * INR (length st) = occurs x u st * occurs y v st).
Proof.
  assert (PE : forall w u v, In w (configs cond rows) -> In u (values x (stratum cond w rows)) -> In v (values y (stratum cond w rows)) ->
     0 < expect (stratum cond w rows) x u y v /\ 0 < INR (length (stratum cond w rows))).
  { intros w u v Hw Hu Hv. apply count_pos in Hu, Hv. pose proof (strat_ne cond w rows Hw) as Hs.
    assert (L : 0 < INR (length (stratum cond w rows))) by (apply lt_0_INR; destruct (stratum cond w rows); [congruence|cbn; lia]).
    split; [|exact L]. unfold expect, occurs. apply Rdiv_lt_0_compat; [|exact L]. apply Rmult_lt_0_compat; apply lt_0_INR; lia. }
  assert (NN : forall w u v, In w (configs cond rows) -> In u (values x (stratum cond w rows)) -> In v (values y (stratum cond w rows)) ->
     0 <= contribution false (stratum cond w rows) x u y v).
  { intros w u v Hw Hu Hv. destruct (PE w u v Hw Hu Hv) as [He _]. unfold contribution. cbv zeta. unfold Rdiv. apply Rmult_le_pos; [apply Rle_0_sqr|].
    apply Rlt_le. now apply Rinv_0_lt_compat. }
  assert (N2 : forall w u, In w (configs cond rows) -> In u (values x (stratum cond w rows)) ->
     0 <= rsum (fun v => contribution false (stratum cond w rows) x u y v) (values y (stratum cond w rows))) by (intros w u Hw Hu; apply rsum_nonneg; auto).
  assert (N3 : forall w, In w (configs cond rows) -> 0 <= rsum (fun u => rsum (fun v => contribution false (stratum cond w rows) x u y v) (values y (stratum cond w rows))) (values x (stratum cond w rows)))
    by (intros w Hw; apply rsum_nonneg; auto).
  assert (Z : forall w u v, In w (configs cond rows) -> In u (values x (stratum cond w rows)) -> In v (values y (stratum cond w rows)) ->
     contribution false (stratum cond w rows) x u y v = 0 <-> occur2 x u y v (stratum cond w rows) * INR (length (stratum cond w rows)) = occurs x u (stratum cond w rows) * occurs y v (stratum cond w rows)).
  { intros w u v Hw Hu Hv. destruct (PE w u v Hw Hu Hv) as [He Hl]. unfold contribution. cbv zeta.
    set (e := expect _ _ _ _ _) in *. set (o := occur2 _ _ _ _ _). assert (Ee : e * INR (length (stratum cond w rows)) = occurs x u (stratum cond w rows) * occurs y v (stratum cond w rows)).
    { unfold e, expect. field. lra. }
    rewrite <- Ee. split.
    - intros E. apply Rmult_integral in E. destruct E as [E|E]; [|exfalso; apply (Rinv_neq_0_compat e); lra].
      assert (o - e = 0) by (apply Rmult_integral in E; tauto). f_equal. lra.
    - intros E. apply Rmult_eq_reg_r in E; [|lra]. rewrite E. unfold Rdiv. ring. }
  unfold stat_spec. split; [apply rsum_nonneg; auto|]. split.
  - intros E w u v Hw Hu Hv. apply Z; auto.
    pose proof (proj1 (proj2 (rsum_nonneg _ _ N3)) E w Hw) as E1. cbv beta in E1.
    pose proof (proj1 (proj2 (rsum_nonneg _ _ (fun u => N2 w u Hw))) E1 u Hu) as E2. cbv beta in E2.
    exact (proj1 (proj2 (rsum_nonneg _ _ (fun v => NN w u v Hw Hu))) E2 v Hv).
  - intros HA. apply (proj2 (rsum_nonneg _ _ N3)). intros w Hw. apply (proj2 (rsum_nonneg _ _ (fun u => N2 w u Hw))). intros u Hu.
    apply (proj2 (rsum_nonneg _ _ (fun v => NN w u v Hw Hu))). intros v Hv. apply Z; auto.
Qed.

(** Eight samples of three variables; within each value of the third, the first two are dependent. *)
Example chisq_example :
  let rows := [[10; 5; 1]; [10; 5; 1]; [20; 7; 1]; [10; 7; 1]; [10; 5; 2]; [20; 7; 2]; [20; 5; 2]; [20; 7; 2]]%Z in
  configs [2]%nat rows = [[1]; [2]]%Z /\ values 0 rows = [10; 20]%Z /\ df_spec rows 0 1 [2%nat] = 2%Z /\ df_spec rows 0 1 [] = 1%Z /\
  (forall u v, In u [10; 20]%Z -> In v [5; 7]%Z -> occurs 0 u rows = 4 /\ occurs 1 v rows = 4) /\ occur2 0 10 1 5 rows = 3.
Proof.
  split; [vm_compute; reflexivity|]. split; [vm_compute; reflexivity|]. split; [vm_compute; reflexivity|]. split; [vm_compute; reflexivity|]. split.
  - intros u v [<-|[<-|[]]] [<-|[<-|[]]]; unfold occurs; cbn; lra.
  - unfold occur2. cbn. lra.
Qed.
