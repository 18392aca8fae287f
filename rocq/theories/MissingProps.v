(** C192 Fisher-z with missing values, C193 the missingness correction. *)
From Verif Require Import Base UtilsModel UtilsProofs BICModel BICProofs EffectModel EffectProofs VARModel VARProofs KCIProofs CacheModel CacheProofs FisherSpec FisherModel FisherProofs FisherMain FisherProps.
From Coq Require Import Permutation Sorted Reals Lra.
Local Open Scope R_scope.

(** ** C192: test-wise deletion *)
Lemma complete_spec n M var s : In s (complete_rows n M var) <-> (s < n)%nat /\ forall v, In v var -> M s v <> None.
Proof.
  unfold complete_rows. rewrite filter_In, in_seq0, forallb_forall. split; intros (H1 & H2); (split; [exact H1|]); intros v Hv; specialize (H2 v Hv); destruct (M s v); congruence.
Qed.
(** The rows used are those without a missing value in the tested columns, and the test is the plain one on the table made of these rows. *)
Theorem C192_complete_cases : forall minv Phi n M X Y S, minv_ok (2 + length S) minv -> NoDup (X :: Y :: S) ->
  let rows := complete_rows n M (X :: Y :: S) in
  (forall s, In s rows <-> (s < n)%nat /\ forall v, In v (X :: Y :: S) -> M s v <> None) /\
  mv_fisher minv Phi n M X Y S = fisher minv Phi (seq 0 (length rows)) (fun i v => present M (nth i rows 0%nat) v) X Y S.
Proof.
  intros minv Phi n M X Y S MO ND rows. split; [intros s; apply complete_spec|]. unfold mv_fisher. fold rows. assert (E : fisher minv Phi (seq 0 (length rows)) (fun i v => present M (nth i rows 0%nat) v) X Y S = fisher minv Phi rows (present M) X Y S).
  { apply (fisher_rows minv Phi rows (seq 0 (length rows)) (fun i => nth i rows 0%nat) (present M)); [exact MO|exact ND|]. now rewrite nth_seq. }
  rewrite E. destruct rows; [|reflexivity]. unfold fisher. cbn [length]. destruct (Nat.ltb_spec 0 (length S + 3)); [reflexivity|lia].
Qed.
(** Values outside the tested columns and in incomplete rows do not matter. *)
Theorem C192_other_values : forall minv Phi n M M' X Y S, minv_ok (2 + length S) minv -> NoDup (X :: Y :: S) ->
  (forall s, (s < n)%nat -> (exists v, In v (X :: Y :: S) /\ M s v = None) -> exists v, In v (X :: Y :: S) /\ M' s v = None) ->
  (forall s v, (s < n)%nat -> (forall u, In u (X :: Y :: S) -> M s u <> None) -> In v (X :: Y :: S) -> M' s v = M s v) ->
  mv_fisher minv Phi n M' X Y S = mv_fisher minv Phi n M X Y S.
Proof.
  intros minv Phi n M M' X Y S MO ND H1 H2. assert (E : complete_rows n M' (X :: Y :: S) = complete_rows n M (X :: Y :: S)).
  { apply filter_ext_in. intros s Hs. apply in_seq0 in Hs. destruct (forallb (fun v => match M s v with Some _ => true | None => false end) (X :: Y :: S)) eqn:F.
    - rewrite forallb_forall in F |- *. intros v Hv. rewrite (H2 s v Hs); [now apply F| |exact Hv]. intros u Hu. specialize (F u Hu). destruct (M s u); congruence.
    - assert (EX : exists v, In v (X :: Y :: S) /\ M s v = None).
      { revert F. generalize (X :: Y :: S). intros l. induction l as [|v l IH]; cbn [forallb]; [discriminate|]. intros F. apply Bool.andb_false_iff in F. destruct F as [F|F]; [exists v; split; [now left|]; now destruct (M s v)|]. destruct (IH F) as (u & Hu & HN). exists u. split; [now right|exact HN]. }
      destruct (H1 s Hs EX) as (v & Hv & HN). apply Bool.not_true_is_false. intros G. rewrite forallb_forall in G. specialize (G v Hv). now rewrite HN in G. }
  unfold mv_fisher. rewrite E. destruct (complete_rows n M (X :: Y :: S)) as [|r0 rs] eqn:CR; [reflexivity|]. rewrite <- CR in *. set (rows := complete_rows n M (X :: Y :: S)) in *.
  assert (EQ : forall s v, In s rows -> In v (X :: Y :: S) -> present M' s v = present M s v) by (intros s v Hs Hv; apply complete_spec in Hs; destruct Hs as (L & HC); unfold present; now rewrite (H2 s v L HC Hv)).
  apply fisher_congr; auto.
  - split; intros (v & Hv & c & C); exists v; (split; [exact Hv|]); exists c; intros s Hs; specialize (C s Hs); rewrite EQ in * by assumption; assumption.
  - assert (SE : forall u s, In s rows -> rsum (fun v => u v * present M' s v) (X :: Y :: S) = rsum (fun v => u v * present M s v) (X :: Y :: S)) by (intros u s Hs; apply rsum_ext; intros v Hv; now rewrite EQ).
    split; intros (u & c & U & C); exists u, c; (split; [exact U|]); intros s Hs; specialize (C s Hs); [now rewrite SE|now rewrite <- SE].
  - assert (RES : forall x e, In x (X :: Y :: S) -> is_residual rows (present M) S x e -> is_residual rows (present M') S x e).
    { intros x e Hx ((b & c & H) & H0 & HS). split; [|split; [exact H0|]].
      - exists b, c. intros s Hs. rewrite (H s Hs), EQ by assumption. f_equal. apply rsum_ext. intros k Hk. rewrite EQ; [reflexivity|exact Hs|right; now right].
      - intros k Hk. rewrite <- (HS k Hk). unfold ip. apply rsum_ext. intros s Hs. rewrite EQ; [reflexivity|exact Hs|right; now right]. }
    intros ex ey RX RY. exists ex, ey. split; [apply RES; [now left|exact RX]|]. split; [apply RES; [right; now left|exact RY]|reflexivity].
Qed.
(** Without missing values it is the plain test. *)
Theorem C192_no_missing : forall minv Phi n M X Y S, minv_ok (2 + length S) minv -> NoDup (X :: Y :: S) -> (forall s v, (s < n)%nat -> In v (X :: Y :: S) -> M s v <> None) ->
  mv_fisher minv Phi n M X Y S = fisher minv Phi (seq 0 n) (present M) X Y S.
Proof.
  intros minv Phi n M X Y S MO ND H. unfold mv_fisher. assert (E : complete_rows n M (X :: Y :: S) = seq 0 n).
  { unfold complete_rows. rewrite <- (filter_ext_in (fun _ => true)) by (intros s Hs; apply in_seq0 in Hs; symmetry; apply forallb_forall; intros v Hv; specialize (H s v Hs Hv); destruct (M s v); congruence). clear. induction (seq 0 n) as [|a l IH]; cbn [filter]; [reflexivity|now rewrite IH]. }
  rewrite E. destruct n; [|reflexivity]. unfold fisher. cbn [seq length]. destruct (Nat.ltb_spec 0 (length S + 3)); [reflexivity|lia].
Qed.

(** ** C193: the missingness correction *)
(** v is a parent of the missingness indicator of u. *)
Definition prt_rel (pm : prtm) (u v : nat) : Prop := In v (prt_of u pm).
Lemma prt_of_absent pm u : has_m pm u = false -> prt_of u pm = [].
Proof.
  unfold has_m. induction pm as [|(m, ps) pm IH]; [reflexivity|]. cbn [map fst prt_of]. intros H. apply memb_not_In in H. destruct (Nat.eqb_spec m u) as [->|N]; [contradiction H; now left|]. apply IH. apply memb_not_In. intros I. apply H. now right.
Qed.
Lemma get_prt_spec var pm v : In v (get_prt_mvars var pm) <-> exists u, In u var /\ prt_rel pm u v.
Proof.
  unfold get_prt_mvars, prt_rel. rewrite sort_set_In, in_flat_map. split; intros (u & Hu & H); exists u; (split; [exact Hu|]).
  - destruct (has_m pm u); [exact H|destruct H].
  - destruct (has_m pm u) eqn:E; [exact H|]. now rewrite prt_of_absent in H.
Qed.
Lemma seq_lt_sorted n : forall k, Sorted.StronglySorted lt (seq k n).
Proof. induction n as [|n IH]; intros k; cbn [seq]; constructor; [apply IH|]. apply Forall_forall. intros x Hx. apply in_seq in Hx. lia. Qed.
(** A correction is attempted exactly if a tested variable has an indicator to correct and some common neighbour of X and Y is a parent of the indicator of a tested variable. *)
Theorem C193_needs_correction : forall p adj X Y S pm,
  (cond_perm_c p adj X Y S pm = true <-> exists v u, (v < p)%nat /\ adj X v = true /\ adj Y v = true /\ In u (X :: Y :: S) /\ prt_rel pm u v) /\
  cond_perm_c p adj Y X S pm = cond_perm_c p adj X Y S pm.
Proof.
  intros p adj X Y S pm. assert (H : forall X Y, cond_perm_c p adj X Y S pm = true <-> exists v u, (v < p)%nat /\ adj X v = true /\ adj Y v = true /\ In u (X :: Y :: S) /\ prt_rel pm u v).
  { clear X Y. intros X Y. unfold cond_perm_c. rewrite Bool.andb_true_iff, !existsb_exists. split.
    - intros (_ & v & Hv & H). apply in_seq0 in Hv. apply Bool.andb_true_iff in H. destruct H as (H & HM). apply Bool.andb_true_iff in H. apply memb_In, get_prt_spec in HM. destruct HM as (u & Hu & HP). exists v, u. tauto.
    - intros (v & u & Hv & HX & HY & Hu & HP). split.
      + exists u. split; [exact Hu|]. destruct (has_m pm u) eqn:E; [reflexivity|]. unfold prt_rel in HP. now rewrite prt_of_absent in HP.
      + exists v. split; [now apply in_seq0|]. rewrite HX, HY. cbn [andb]. apply memb_In, get_prt_spec. now exists u. }
  split; [apply H|]. destruct (cond_perm_c p adj X Y S pm) eqn:E1, (cond_perm_c p adj Y X S pm) eqn:E2; try reflexivity; exfalso.
  - apply H in E1. destruct E1 as (v & u & E). assert (T : cond_perm_c p adj Y X S pm = true) by (apply H; exists v, u; cbn [In] in *; tauto). congruence.
  - apply H in E2. destruct E2 as (v & u & E). assert (T : cond_perm_c p adj X Y S pm = true) by (apply H; exists v, u; cbn [In] in *; tauto). congruence.
Qed.
(** W is completed to the least set containing W and the parents of the indicators of its members; the loop ends. *)
Inductive prt_reach (pm : prtm) (W : list nat) : nat -> Prop :=
| pr_start v : In v W -> prt_reach pm W v
| pr_step u v : prt_reach pm W u -> prt_rel pm u v -> prt_reach pm W v.
Lemma prt_universe pm u v : prt_rel pm u v -> In v (flat_map snd pm).
Proof. unfold prt_rel. induction pm as [|(m, ps) pm IH]; [intros []|]. cbn [prt_of flat_map snd]. intros H. apply in_or_app. destruct (Nat.eqb m u); [now left|right; now apply IH]. Qed.
Lemma filter_shrink {T} (f g : T -> bool) l : (forall x, In x l -> g x = true -> f x = true) -> (length (filter g l) <= length (filter f l))%nat.
Proof.
  induction l as [|x l IH]; intros H; [cbn; lia|]. cbn [filter]. specialize (IH (fun y Hy => H y (or_intror Hy))). specialize (H x (or_introl eq_refl)). destruct (g x), (f x); cbn [length]; try lia; now specialize (H eq_refl).
Qed.
Lemma filter_shrink1 {T} (f g : T -> bool) l x : (forall x, In x l -> g x = true -> f x = true) -> In x l -> f x = true -> g x = false -> (length (filter g l) < length (filter f l))%nat.
Proof.
  intros H Hx F G. apply in_split in Hx. destruct Hx as (l1 & l2 & ->). rewrite !filter_app, !app_length. cbn [filter]. rewrite F, G. cbn [length].
  assert (L1 := filter_shrink f g l1 (fun y Hy => H y (in_or_app _ _ _ (or_introl Hy)))). assert (L2 := filter_shrink f g l2 (fun y Hy => H y (in_or_app l1 (x :: l2) y (or_intror (or_intror Hy))))). lia.
Qed.
Theorem C193_closure : forall pm W fuel, (length (flat_map snd pm) < fuel)%nat -> exists W', get_prt_mw fuel W pm = Ret W' /\ forall v, In v W' <-> prt_reach pm W v.
Proof.
  intros pm W fuel HF. set (U := flat_map snd pm) in *. assert (HF' : (length (filter (fun v => negb (memb v W)) U) < fuel)%nat).
  { assert (L : (length (filter (fun v => negb (memb v W)) U) <= length U)%nat); [|lia]. clear. induction U as [|a l IH]; cbn [filter length]; [lia|]. destruct (negb _); cbn [length]; lia. }
  clear HF. revert W HF'. induction fuel as [|fuel IH]; intros W HF; [lia|]. cbn [get_prt_mw]. destruct (forallb (fun v => memb v W) (get_prt_mvars W pm)) eqn:F.
  - exists (sort_set W). split; [reflexivity|]. intros v. rewrite sort_set_In. split; [now constructor|]. intros R0. induction R0 as [v Hv|u v _ IHu HP]; [exact Hv|].
    rewrite forallb_forall in F. apply memb_In, F, get_prt_spec. now exists u.
  - set (W2 := sort_set (W ++ get_prt_mvars W pm)). assert (W2I : forall v, In v W2 <-> In v W \/ In v (get_prt_mvars W pm)) by (intros v; unfold W2; now rewrite sort_set_In, in_app_iff).
    assert (EX : exists v, In v (get_prt_mvars W pm) /\ ~ In v W).
    { clear - F. induction (get_prt_mvars W pm) as [|v l IH]; [discriminate|]. cbn [forallb] in F. apply Bool.andb_false_iff in F. destruct F as [F|F]; [exists v; split; [now left|now apply memb_not_In]|]. destruct (IH F) as (u & Hu & N). exists u. split; [now right|exact N]. }
    destruct EX as (v0 & V1 & V2). destruct (IH W2) as (W' & E & HW).
    + assert (LT : (length (filter (fun v => negb (memb v W2)) U) < length (filter (fun v => negb (memb v W)) U))%nat); [|lia]. apply (filter_shrink1 _ _ U v0).
      * intros v _ H. apply Bool.negb_true_iff, memb_not_In in H. apply Bool.negb_true_iff, memb_not_In. intros I. apply H, W2I. now left.
      * apply get_prt_spec in V1. destruct V1 as (u & _ & HP). exact (prt_universe pm u v0 HP).
      * apply Bool.negb_true_iff. now apply memb_not_In.
      * apply Bool.negb_false_iff, memb_In, W2I. now right.
    + exists W'. split; [exact E|]. intros v. rewrite HW. split; intros R0.
      * induction R0 as [v Hv|u v _ IHu HP]; [|now apply (pr_step pm W u)]. apply W2I in Hv. destruct Hv as [Hv|Hv]; [now constructor|]. apply get_prt_spec in Hv. destruct Hv as (u & Hu & HP). apply (pr_step pm W u); [now constructor|exact HP].
      * induction R0 as [v Hv|u v _ IHu HP]; [constructor; apply W2I; now left|now apply (pr_step pm W2 u)].
Qed.
(** There are at least as many complete rows of W as of all the variables, so the virtual sample has the full effective size. *)
Theorem C193_sample_size : forall n M var W, (length (complete_rows n M (var ++ W)) <= length (complete_rows n M W))%nat.
Proof. intros n M var W. unfold complete_rows. apply filter_shrink. intros s _. rewrite forallb_app, Bool.andb_true_iff. tauto. Qed.
(** The result is that of the test-wise deletion test unless a correction is needed and some variable outside the test can serve; ... *)
Theorem C193_uncorrected : forall minv Phi ols shuffled p fuel n M adj pm X Y S, (length (flat_map snd pm) < fuel)%nat ->
  cond_perm_c p adj X Y S pm = false \/ (forall v, prt_reach pm (get_prt_mvars (X :: Y :: S) pm) v -> In v (X :: Y :: S)) ->
  mc_fisherz minv Phi ols shuffled p fuel n M adj pm X Y S = Ret (mv_fisherz minv Phi n M X Y S).
Proof.
  intros minv Phi ols shuffled p fuel n M adj pm X Y S HF H. unfold mc_fisherz. destruct (cond_perm_c p adj X Y S pm) eqn:C; cbn [negb]; [|reflexivity]. destruct H as [H|H]; [discriminate|].
  destruct (get_prt_mvars (X :: Y :: S) pm) as [|w0 ws] eqn:G; [reflexivity|]. destruct (C193_closure pm (w0 :: ws) fuel HF) as (W' & E & HW). rewrite E.
  assert (Z : filter (fun w => negb (memb w (X :: Y :: S))) W' = []); [|now rewrite Z].
  assert (ALL : forall v, In v W' -> In v (X :: Y :: S)) by (intros v Hv; apply H; now apply HW). clear - ALL. induction W' as [|v l IH]; [reflexivity|]. cbn [filter]. rewrite (proj2 (memb_In v (X :: Y :: S)) (ALL v (or_introl eq_refl))). cbn [negb]. apply IH. intros; apply ALL; now right.
Qed.
(** ... otherwise it is the plain test on a virtual sample, made of the complete rows with the predictors moved to those of the shuffled rows: W is the closure without the tested variables. *)
Theorem C193_virtual_data : forall minv Phi ols shuffled p fuel n M adj pm X Y S, minv_ok (2 + length S) minv -> (length (flat_map snd pm) < fuel)%nat ->
  cond_perm_c p adj X Y S pm = true -> (exists v, prt_reach pm (get_prt_mvars (X :: Y :: S) pm) v /\ ~ In v (X :: Y :: S)) ->
  exists W V, (forall v, In v W <-> prt_reach pm (get_prt_mvars (X :: Y :: S) pm) v /\ ~ In v (X :: Y :: S)) /\
    let rows := complete_rows n M ((X :: Y :: S) ++ W) in
    let wrows := firstn (length rows) (shuffled (complete_rows n M W)) in
    mc_fisherz minv Phi ols shuffled p fuel n M adj pm X Y S = Ret (fisher minv Phi (seq 0 (length rows)) V 0%nat 1%nat (seq 2 (length S))) /\
    forall i k, (i < length rows)%nat -> (k < 2 + length S)%nat ->
      let y := nth k (X :: Y :: S) 0%nat in
      V i k = present M (nth i rows 0%nat) y + rsum (fun u => snd (ols rows (present M) y W) u * (present M (nth i wrows 0%nat) u - present M (nth i rows 0%nat) u)) W.
Proof.
  intros minv Phi ols shuffled p fuel n M adj pm X Y S MO HF C (v0 & R0 & N0). unfold mc_fisherz. rewrite C. cbn [negb].
  destruct (get_prt_mvars (X :: Y :: S) pm) as [|w0 ws] eqn:G; [exfalso; clear - R0; induction R0 as [v []|u v _ IH HP]; exact IH|].
  destruct (C193_closure pm (w0 :: ws) fuel HF) as (W' & E & HW). rewrite E. destruct (filter (fun w => negb (memb w (X :: Y :: S))) W') as [|a l] eqn:FW.
  - exfalso. assert (I : In v0 (filter (fun w => negb (memb w (X :: Y :: S))) W')) by (apply filter_In; split; [now apply HW|apply Bool.negb_true_iff; now apply memb_not_In]). now rewrite FW in I.
  - rewrite <- FW. set (W := filter (fun w => negb (memb w (X :: Y :: S))) W') in *. set (rows := complete_rows n M ((X :: Y :: S) ++ W)). set (wrows := firstn (length rows) (shuffled (complete_rows n M W))).
    set (predict := fun y s => let '(c, b) := ols rows (present M) y W in c + rsum (fun w => b w * present M s w) W).
    set (V := fun i k : nat => predict (nth k (X :: Y :: S) 0%nat) (nth i wrows 0%nat) + (present M (nth i rows 0%nat) (nth k (X :: Y :: S) 0%nat) - predict (nth k (X :: Y :: S) 0%nat) (nth i rows 0%nat))).
    exists W, V. split; [|split].
    + intros v. unfold W. rewrite filter_In, HW, Bool.negb_true_iff, memb_not_In. reflexivity.
    + f_equal. change (mv_fisherz minv Phi (length rows) (fun i k => Some (V i k)) 0%nat 1%nat (seq 2 (length S)) = fisher minv Phi (seq 0 (length rows)) V 0%nat 1%nat (seq 2 (length S))).
      assert (ND : NoDup (0%nat :: 1%nat :: seq 2 (length S))) by (change (NoDup (seq 0 (2 + length S))); apply seq_NoDup).
      assert (SS : sort_set (seq 2 (length S)) = seq 2 (length S)). { apply sorted_unique; [apply sort_set_sorted|apply seq_lt_sorted|intros v; apply sort_set_In]. }
      unfold mv_fisherz, with_args. rewrite SS. assert (M0 : memb 0 (seq 2 (length S)) = false) by (apply memb_not_In; intros I; apply in_seq in I; lia). assert (M1 : memb 1 (seq 2 (length S)) = false) by (apply memb_not_In; intros I; apply in_seq in I; lia). rewrite M0, M1. cbn [orb Nat.min Nat.max].
      rewrite C192_no_missing; [reflexivity|now rewrite seq_length|exact ND|discriminate].
    + fold rows. fold wrows. intros i k Hi Hk. unfold V. set (y := nth k (X :: Y :: S) 0%nat). unfold predict. destruct (ols rows (present M) y W) as [c b]. cbn [snd]. rewrite (rsum_ext (fun u => b u * (present M (nth i wrows 0%nat) u - present M (nth i rows 0%nat) u)) (fun u => b u * present M (nth i wrows 0%nat) u - b u * present M (nth i rows 0%nat) u)) by (intros; ring). rewrite rsum_minus. ring.
Qed.
(** A case that is corrected: 0 - 2 - 1 in the skeleton, and 2 is a parent of the indicator of 1. *)
Example C193_example : let adj a b := match a, b with 0%nat, 2%nat => true | 1%nat, 2%nat => true | _, _ => false end in
  cond_perm_c 3 adj 0 1 [] [(1%nat, [2%nat])] = true /\ exists v, prt_reach [(1%nat, [2%nat])] (get_prt_mvars [0%nat; 1%nat] [(1%nat, [2%nat])]) v /\ ~ In v [0%nat; 1%nat].
Proof. cbv zeta. split; [reflexivity|]. exists 2%nat. split; [constructor; cbn; auto|]. cbn. lia. Qed.
