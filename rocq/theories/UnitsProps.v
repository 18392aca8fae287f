(** Units of measurement: scores that differ by one constant per variable lead to the same search. *)
From Verif Require Import Base EdgeModel GraphModel GraphSpec UtilsModel SkelModel PCModel PdagModel CpdagModel GESModel GESMain GESProps CacheModel CacheProofs ExactSpec BossModel BossProps BossShift BICModel BICProofs BICProps.
From Coq Require Import Reals Lra.

(** ** C229: the BIC score of rescaled variables *)
Section Bic.
Local Open Scope R_scope.
(** The covariance matrix of the variables c_i x_i. *)
Definition rescaled_cov (c : nat -> R) (cov : nat -> nat -> R) (i j : nat) : R := c i * c j * cov i j.
Lemma pc_rescaled n c cov : (forall i, c i <> 0) -> (forall a b, cov a b = cov b a) -> 
  (forall x : nat -> R, (exists i, (i < n)%nat /\ x i <> 0) -> 0 < rsum (fun i => rsum (fun j => x i * cov i j * x j) (seq 0 n)) (seq 0 n)) ->
  forall P, NoDup P -> (forall a, In a P -> (a < n)%nat) -> forall i j, pc (rescaled_cov c cov) P i j = c i * c j * pc cov P i j.
Proof.
  intros HC HS HP. induction P as [|k P IH]; intros ND Hr i j; [reflexivity|]. cbn [pc].
  assert (ND' : NoDup P) by (now apply NoDup_cons_iff in ND). assert (Hr' : forall a, In a P -> (a < n)%nat) by (intros; apply Hr; now right).
  rewrite !IH by assumption. pose proof (pc_positive cov n HP P k ND Hr (all_pivots cov n HP P ND' Hr')) as Q. specialize (HC k) as K. field. split; [lra|exact K].
Qed.
Lemma rescaled_positive n c cov : (forall i, c i <> 0) -> positive_definite n cov -> positive_definite n (rescaled_cov c cov).
Proof.
  intros HC [HS HP]. split; [intros a b; unfold rescaled_cov; rewrite (HS a b); ring|]. intros x (i & Hi & Hx).
  replace (rsum _ _) with (rsum (fun i => rsum (fun j => (x i * c i) * cov i j * (x j * c j)) (seq 0 n)) (seq 0 n)).
  - apply (HP (fun i => x i * c i)). exists i. split; [exact Hi|]. now apply Rmult_integral_contrapositive_currified.
  - apply rsum_ext. intros a _. apply rsum_ext. intros b _. unfold rescaled_cov. ring.
Qed.
(** Measuring the variables in other units adds to the local scores of each variable one constant: no comparison of two sets of parents changes. *)
Theorem C229_BIC_units : forall n c cov inv inv' N lambda i, (forall i, c i <> 0) -> positive_definite n cov -> inverse_of n cov inv -> inverse_of n (rescaled_cov c cov) inv' ->
  forall P, NoDup (i :: P) -> (forall a, In a (i :: P) -> (a < n)%nat) -> local_score_BIC (rescaled_cov c cov) inv' N lambda i P = local_score_BIC cov inv N lambda i P + N * ln (c i * c i).
Proof.
  intros n c cov inv inv' N lambda i HC HD HI HI' P ND Hr. rewrite !(local_score_pc n) by (try assumption; now apply rescaled_positive).
  assert (ND' : NoDup P) by (now apply NoDup_cons_iff in ND). assert (Hr' : forall a, In a P -> (a < n)%nat) by (intros; apply Hr; now right). destruct HD as [HS HP].
  rewrite (pc_rescaled n) by assumption. rewrite ln_mult; [ring| |apply (pc_positive cov n HP); try assumption; now apply (all_pivots cov n HP)].
  specialize (HC i). destruct (Rtotal_order (c i) 0) as [H|[H|H]]; [nra|contradiction|nra].
Qed.
Theorem C229_BIC_units_comparison : forall n c cov inv inv' N lambda i P Q, (forall i, c i <> 0) -> positive_definite n cov -> inverse_of n cov inv -> inverse_of n (rescaled_cov c cov) inv' ->
  NoDup (i :: P) -> NoDup (i :: Q) -> (forall a, In a (i :: P ++ Q) -> (a < n)%nat) ->
  local_score_BIC (rescaled_cov c cov) inv' N lambda i P - local_score_BIC (rescaled_cov c cov) inv' N lambda i Q = local_score_BIC cov inv N lambda i P - local_score_BIC cov inv N lambda i Q.
Proof.
  intros n c cov inv inv' N lambda i P Q HC HD HI HI' NP NQ Hr. rewrite !(C229_BIC_units n c cov inv inv') by first [assumption | intros a [<- | Ha]; apply Hr; [now left|right; apply in_or_app; tauto]]. ring.
Qed.
(** The inverse of the rescaled matrix exists whenever that of the original does. *)
Lemma rescaled_inverse n c cov inv : (forall i, c i <> 0) -> inverse_of n cov inv -> inverse_of n (rescaled_cov c cov) (fun P a b => inv P a b / (c a * c b)).
Proof.
  intros HC HI P ND Hr a b Ha Hb. replace (rsum _ P) with (c a / c b * rsum (fun x => cov a x * inv P x b) P).
  - rewrite (HI P ND Hr a b Ha Hb). destruct (Nat.eqb_spec a b) as [-> | _]; field; apply HC.
  - rewrite <- rsum_mult. apply rsum_ext. intros x _. unfold rescaled_cov. field. split; apply HC.
Qed.
Lemma C229_example : positive_definite 2 (rescaled_cov (fun i => if Nat.eqb i 0 then 100 else 1) cov2) /\ inverse_of 2 (rescaled_cov (fun i => if Nat.eqb i 0 then 100 else 1) cov2) (fun P a b => inv2 P a b / ((if Nat.eqb a 0 then 100 else 1) * (if Nat.eqb b 0 then 100 else 1))).
Proof.
  assert (HC : forall i : nat, (if Nat.eqb i 0 then 100 else 1) <> 0) by (intros [|i]; cbn; lra). split; [apply rescaled_positive; [exact HC|apply cov2_positive_definite]|]. exact (rescaled_inverse 2 _ cov2 inv2 HC inv2_inverse).
Qed.
End Bic.

(** ** C230: GES *)
Local Open Scope Z_scope.
Section Ges.
Variable c : nat -> Z.
Variable sc : nat -> list nat -> Z.
(** One constant per variable added to the local scores. *)
Definition shifted (c : nat -> Z) (sc : nat -> list nat -> Z) : nat -> list nat -> Z := fun j P => sc j P + c j.
Let sc' := shifted c sc.
(** The record of local scores after the shift. *)
Definition rshift (rec rec' : record) : Prop := forall j, rec' j = map (fun e => (fst e, snd e + c j)) (rec j).
Definition oshift (j : nat) (s : option Z) : option Z := match s with Some v => Some (v + c j) | None => None end.
Lemma lookup2_shift j t3 t2 l : forall s1 s2, lookup2 t3 t2 (map (fun e => (fst e, snd e + c j)) l) (oshift j s1) (oshift j s2) =
  (oshift j (fst (lookup2 t3 t2 l s1 s2)), oshift j (snd (lookup2 t3 t2 l s1 s2))).
Proof.
  induction l as [|[k v] l IH]; intros s1 s2; [reflexivity|]. cbn [map fst snd lookup2].
  assert (E1 : (if same_ids k t3 then Some (v + c j) else oshift j s1) = oshift j (if same_ids k t3 then Some v else s1)) by (destruct (same_ids k t3); reflexivity).
  assert (E2 : (if same_ids k t2 then Some (v + c j) else if same_ids k [-1] && Nat.eqb (length t2) 0 then Some (v + c j) else oshift j s2) =
    oshift j (if same_ids k t2 then Some v else if same_ids k [-1] && Nat.eqb (length t2) 0 then Some v else s2)) by (destruct (same_ids k t2), (same_ids k [-1] && Nat.eqb (length t2) 0)%bool; reflexivity).
  rewrite E1, E2. destruct (if same_ids k t3 then Some v else s1) as [a|], (if same_ids k t2 then Some v else if same_ids k [-1] && Nat.eqb (length t2) 0 then Some v else s2) as [b|]; cbn [oshift fst snd]; try reflexivity; apply (IH (Some a) None) || apply (IH None (Some b)) || apply (IH None None).
Qed.
Lemma rappend_shift rec rec' j z v : rshift rec rec' -> rshift (rappend rec j (z, v)) (rappend rec' j (z, v + c j)).
Proof. intros H k. unfold rappend. destruct (Nat.eqb_spec k j) as [-> | _]; [|apply H]. rewrite H, map_app. reflexivity. Qed.
Lemma changed_shift rec rec' j t3 t2 : rshift rec rec' -> fst (changed_score sc' rec' j t3 t2) = fst (changed_score sc rec j t3 t2) /\ rshift (snd (changed_score sc rec j t3 t2)) (snd (changed_score sc' rec' j t3 t2)).
Proof.
  intros H. unfold changed_score. rewrite H. pose proof (lookup2_shift j (map Z.of_nat t3) (map Z.of_nat t2) (rec j) None None) as E. cbn [oshift] in E. rewrite E.
  destruct (lookup2 _ _ (rec j) None None) as [s1 s2]. cbn [fst snd]. unfold sc', shifted. destruct s1 as [v1|], s2 as [v2|]; cbn [oshift fst snd]; (split; [lia|]); try exact H; repeat apply rappend_shift; exact H.
Qed.
(** A sweep with the shifted scores finds the same operator with the same change. *)
Definition sshift (st st' : sweep_st) : Prop := rshift (fst st) (fst st') /\ snd st = snd st'.
Lemma fwd_subset_shift vf g i j sub fl st st' k r : sshift st st' -> fwd_subset vf sc g i j sub (Ret (fl, st)) k = r ->
  match r with
  | Ret (fl2, st2) => exists st2', fwd_subset vf sc' g i j sub (Ret (fl, st')) k = Ret (fl2, st2') /\ sshift st2 st2'
  | Running => fwd_subset vf sc' g i j sub (Ret (fl, st')) k = Running
  | Failed => fwd_subset vf sc' g i j sub (Ret (fl, st')) k = Failed end.
Proof.
  intros [H1 H2] <-. destruct st as [rec best], st' as [rec' best']. cbn [fst snd] in H1, H2. subst best'. unfold fwd_subset. cbn [obind].
  destruct (Nat.ltb (nth k fl 0%nat) 2); [|eexists; split; [reflexivity|now split]]. destruct (insert_test1 g i j (nth k sub [])); [|eexists; split; [reflexivity|now split]].
  destruct (if Nat.eqb (nth k fl 0%nat) 0 then insert_test2 vf g i j (nth k sub []) else Ret true) as [[]| |]; cbn [obind]; try reflexivity; [|eexists; split; [reflexivity|now split]].
  unfold insert_changed_score. destruct (changed_shift rec rec' j (fst (insert_sets g i j (nth k sub []))) (snd (insert_sets g i j (nth k sub []))) H1) as [E1 E2].
  destruct (changed_score sc rec j _ _) as [ch r1]. destruct (changed_score sc' rec' j _ _) as [ch' r1']. cbn [fst snd] in E1, E2. subst ch'. eexists. split; [reflexivity|now split].
Qed.
(** Two runs in step. *)
Definition oshifted {A} (rel : A -> A -> Prop) (x y : outcome A) : Prop := match x, y with Ret a, Ret b => rel a b | Running, Running => True | Failed, Failed => True | _, _ => False end.
Lemma obind_shift {A B} (R : A -> A -> Prop) (Q : B -> B -> Prop) x y f g : oshifted R x y -> (forall a b, R a b -> oshifted Q (f a) (g b)) -> oshifted Q (obind x f) (obind y g).
Proof. intros H HF. destruct x, y; cbn in *; try contradiction; auto. Qed.
Lemma fold_shift {A B} (R : A -> A -> Prop) (f g : outcome A -> B -> outcome A) l : (forall x y b, oshifted R x y -> oshifted R (f x b) (g y b)) -> forall x y, oshifted R x y -> oshifted R (fold_left f l x) (fold_left g l y).
Proof. intros HF. induction l as [|b l IH]; intros x y H; [exact H|]. cbn [fold_left]. apply IH, HF, H. Qed.
Definition fshift (x y : list nat * sweep_st) : Prop := fst x = fst y /\ sshift (snd x) (snd y).
Lemma fwd_pair_shift vf maxP g x y ij : oshifted sshift x y -> oshifted sshift (fwd_pair vf maxP sc g x ij) (fwd_pair vf maxP sc' g y ij).
Proof.
  intros H. unfold fwd_pair. apply (obind_shift sshift sshift _ _ _ _ H). intros st st' HS. destruct ij as [i j]. destruct (_ && _ && _ && _)%bool; [|exact HS].
  apply (obind_shift fshift sshift).
  - apply fold_shift; [|now split]. clear. intros x y k H. destruct x as [[fl st]| |], y as [[fl' st']| |]; try contradiction; try exact H. destruct H as [H1 H2]. cbn [fst snd] in H1, H2. subst fl'.
    pose proof (fwd_subset_shift vf g i j (Combinatorial (T0set g i j)) fl st st' k _ H2 eq_refl) as Q. destruct (fwd_subset vf sc g i j _ (Ret (fl, st)) k) as [[fl2 st2]| |].
    + destruct Q as (st2' & -> & Q). now split.
    + now rewrite Q.
    + now rewrite Q.
  - intros a b [_ Q]. exact Q.
Qed.
Lemma fwd_sweep_shift vf maxP big g rec rec' : rshift rec rec' -> oshifted sshift (fwd_sweep vf maxP big sc g rec) (fwd_sweep vf maxP big sc' g rec').
Proof. intros H. unfold fwd_sweep. apply fold_shift; [|now split]. intros x y b. apply fwd_pair_shift. Qed.
Lemma bwd_subset_shift g i j sub fl st st' k : sshift st st' -> fshift (bwd_subset sc g i j sub (fl, st) k) (bwd_subset sc' g i j sub (fl, st') k).
Proof.
  intros [H1 H2]. destruct st as [rec best], st' as [rec' best']. cbn [fst snd] in H1, H2. subst best'. unfold bwd_subset.
  destruct (if Nat.eqb (nth k fl 0%nat) 1 then _ else _) as [v fl']. destruct v; [|now split; [|split]].
  unfold delete_changed_score. destruct (changed_shift rec rec' j (fst (delete_sets g i j (nth k sub []))) (snd (delete_sets g i j (nth k sub []))) H1) as [E1 E2].
  destruct (changed_score sc rec j _ _) as [ch r1]. destruct (changed_score sc' rec' j _ _) as [ch' r1']. cbn [fst snd] in E1, E2. subst ch'. split; [reflexivity|now split].
Qed.
Lemma bwd_sweep_shift big g rec rec' : rshift rec rec' -> oshifted sshift (bwd_sweep big sc g rec) (bwd_sweep big sc' g rec').
Proof.
  intros H. unfold bwd_sweep. cbn [oshifted]. set (P := fun x y : sweep_st => sshift x y). assert (K : forall l x y, P x y -> P (fold_left (bwd_pair sc g) l x) (fold_left (bwd_pair sc' g) l y)).
  { induction l as [|[i j] l IH]; intros x y Q; [exact Q|]. cbn [fold_left]. apply IH. unfold bwd_pair. destruct (_ || _)%bool; [|exact Q].
    assert (L : forall ks a b, fshift a b -> fshift (fold_left (bwd_subset sc g i j (Combinatorial (NAset g i j))) ks a) (fold_left (bwd_subset sc' g i j (Combinatorial (NAset g i j))) ks b)).
    { induction ks as [|k ks IK]; intros a b F; [exact F|]. cbn [fold_left]. apply IK. destruct a as [fl st], b as [fl' st']. destruct F as [F1 F2]. cbn [fst snd] in F1, F2. subst fl'. now apply bwd_subset_shift. }
    apply (L (seq 0 (length (Combinatorial (NAset g i j)))) (map (fun _ => 1%nat) (Combinatorial (NAset g i j)), x) (map (fun _ => 1%nat) (Combinatorial (NAset g i j)), y)). split; [reflexivity|exact Q]. }
  apply K. split; [exact H|reflexivity].
Qed.
(** The states of the loop: the same but for the scores, which differ by [d]. *)
Definition lshift (d : Z) (a b : loop_st) : Prop :=
  l_G b = l_G a /\ l_older b = l_older a /\ l_steps b = l_steps a /\ rshift (l_rec a) (l_rec b) /\ l_score_new b = l_score_new a + d /\ l_updates b = l_updates a /\
  l_scores b = map (fun s => s + d) (l_scores a).
Lemma loop_shift d gf sw sw' op : (forall g rec rec', rshift rec rec' -> oshifted sshift (sw g rec) (sw' g rec')) ->
  forall fuel a b, lshift d a b -> oshifted (fun x y => lshift d (fst x) (fst y) /\ snd y = snd x + d) (ges_loop fuel gf sw op a) (ges_loop fuel gf sw' op b).
Proof.
  intros HW. induction fuel as [|fuel IH]; intros a b H; [exact I|]. destruct H as (H1 & H2 & H3 & H4 & H5 & H6 & H7). cbn [ges_loop]. rewrite H1.
  apply (obind_shift sshift); [now apply HW|]. intros [rec [mn md]] [rec' [mn' md']] [Q1 Q2]. cbn [fst snd] in Q1, Q2. injection Q2 as <- <-.
  assert (SS : l_scores b ++ [l_score_new b] = map (fun s => s + d) (l_scores a ++ [l_score_new a])) by (rewrite H7, map_app, H5; reflexivity).
  destruct md as [[[i j] T]|].
  2: { split; [|exact H5]. unfold lshift. cbn [fst l_G l_older l_steps l_rec l_score_new l_updates l_scores]. now repeat split. }
  replace (l_score_new b - (l_score_new b + mn)) with (l_score_new a - (l_score_new a + mn)) by lia. destruct (l_score_new a - (l_score_new a + mn) <=? 0).
  { split; [|exact H5]. unfold lshift. cbn [fst l_G l_older l_steps l_rec l_score_new l_updates l_scores]. now repeat split. }
  destruct (of_res (op (l_G a) i j T)) as [g1| |]; cbn [obind]; try exact I. destruct (of_opt (pdag2dag gf g1)) as [g2| |]; cbn [obind]; try exact I. destruct (dag2cpdag gf g2) as [g3| |]; cbn [obind]; try exact I.
  assert (OV : overwrite b g1 = overwrite a g1) by (unfold overwrite; now rewrite H2, H3). rewrite OV. destruct (overwrite a g1) as [older steps].
  apply IH. unfold lshift. cbn [l_G l_older l_steps l_rec l_score_new l_updates l_scores]. rewrite H6, SS. repeat split; try reflexivity; [exact Q1|lia].
Qed.
Lemma score_g_shift g : score_g sc' g = score_g sc g + fold_right Z.add 0 (map c (seq 0 (gn g))).
Proof.
  unfold score_g. enough (K : forall l a, fold_left (fun s i => s + sc' i (get_parents g i)) l a = fold_left (fun s i => s + sc i (get_parents g i)) l a + fold_right Z.add 0 (map c l)) by apply K.
  assert (A : forall l a b, fold_left (fun s i => s + sc' i (get_parents g i)) l (a + b) = fold_left (fun s i => s + sc' i (get_parents g i)) l a + b).
  { induction l as [|i l IH]; intros a b; [reflexivity|]. cbn [fold_left]. rewrite <- IH. f_equal. lia. }
  induction l as [|i l IH]; intros a; cbn [fold_left map fold_right]; [lia|]. unfold sc' at 2, shifted. replace (a + (sc i (get_parents g i) + c i)) with ((a + sc i (get_parents g i)) + c i) by lia. rewrite A, IH. lia.
Qed.
End Ges.
(** Adding one constant per variable to the local scores changes neither GES's graphs nor its operators, and shifts all reported scores by the sum of the constants. *)
Theorem C230_GES_units : forall fuel gf vf n maxP big sc c,
  let d := fold_right Z.add 0 (map c (seq 0 n)) in
  match ges fuel gf vf n maxP big sc, ges fuel gf vf n maxP big (fun j P => sc j P + c j) with
  | Ret R, Ret R' => r_G R' = r_G R /\ r_update1 R' = r_update1 R /\ r_update2 R' = r_update2 R /\ r_step1 R' = r_step1 R /\ r_step2 R' = r_step2 R /\
      r_score R' = r_score R + d /\ r_scores1 R' = map (fun s => s + d) (r_scores1 R) /\ r_scores2 R' = map (fun s => s + d) (r_scores2 R)
  | Running, Running => True
  | Failed, Failed => True
  | _, _ => False
  end.
Proof.
  intros fuel gf vf n maxP big sc c d.
  assert (K : oshifted (fun R R' => r_G R' = r_G R /\ r_update1 R' = r_update1 R /\ r_update2 R' = r_update2 R /\ r_step1 R' = r_step1 R /\ r_step2 R' = r_step2 R /\
      r_score R' = r_score R + d /\ r_scores1 R' = map (fun s => s + d) (r_scores1 R) /\ r_scores2 R' = map (fun s => s + d) (r_scores2 R)) (ges fuel gf vf n maxP big sc) (ges fuel gf vf n maxP big (shifted c sc))); [|exact K].
  unfold ges. destruct (of_opt (pdag2dag gf (empty_graph n))) as [g1| |]; cbn [obind]; try exact I. destruct (dag2cpdag gf g1) as [g2| |]; cbn [obind]; try exact I.
  apply (obind_shift (fun x y => lshift c d (fst x) (fst y) /\ snd y = snd x + d)).
  - apply loop_shift; [intros g rec rec'; apply fwd_sweep_shift|]. unfold lshift. cbn [l_G l_older l_steps l_rec l_score_new l_updates l_scores map]. repeat split. rewrite score_g_shift. reflexivity.
  - intros [s1 z1] [s1' z1'] [(H1 & H2 & H3 & H4 & H5 & H6 & H7) Hz]. cbn [fst snd] in *. apply (obind_shift (fun x y => lshift c d (fst x) (fst y) /\ snd y = snd x + d)).
    + rewrite H1, H3. apply loop_shift; [intros g rec rec'; apply bwd_sweep_shift|]. unfold lshift. cbn [l_G l_older l_steps l_rec l_score_new l_updates l_scores map]. now repeat split.
    + intros [s2 z2] [s2' z2'] [(G1 & G2 & G3 & G4 & G5 & G6 & G7) Gz]. cbn [fst snd] in *. cbn [oshifted r_G r_update1 r_update2 r_step1 r_step2 r_score r_scores1 r_scores2]. now repeat split.
Qed.
Example C230_example : let o := ges (ges_fuel 3) (ges_fuel 3) (ges_fuel 3) 3 3 10000000 (fun j P => wsc w3 j P + 10 * Z.of_nat (S j)) in
  out [] o (fun R => map fst (r_update1 R)) = [(0, 1)%nat; (1, 2)%nat] /\ out [] o r_scores1 = [60; 57; 55].
Proof. vm_compute. split; reflexivity. Qed.

(** ** C231: BOSS and GRaSP *)
(** Adding one constant per variable to the local scores changes neither the orders nor the parents nor the graphs. *)
Theorem C231_boss_units : forall sc c p sh fuel eps verbose, set_score sc ->
  boss_search (fun v P => sc v P + c v) p sh fuel eps verbose = boss_search sc p sh fuel eps verbose /\
  forall cfuel, boss (fun v P => sc v P + c v) p sh fuel cfuel eps verbose = boss sc p sh fuel cfuel eps verbose.
Proof.
  intros sc c p sh fuel eps verbose Hsc. pose proof (boss_search_shift sc Hsc c p sh fuel eps verbose) as Q. split; [exact Q|]. intros cfuel. unfold boss. now rewrite Q.
Qed.
Theorem C231_grasp_units : forall sc c p sh fuel eps depth, set_score sc ->
  match grasp_search sc p sh fuel eps depth, grasp_search (fun v P => sc v P + c v) p sh fuel eps depth with
  | Some s, Some s' => g_order s' = g_order s /\ (forall y, g_pa s' y = g_pa s y) /\ g_edges s' = g_edges s /\ forall y, g_loc s' y = g_loc s y + c y
  | None, None => True
  | _, _ => False
  end /\ forall cfuel, grasp (fun v P => sc v P + c v) p sh fuel cfuel eps depth = grasp sc p sh fuel cfuel eps depth.
Proof.
  intros sc c p sh fuel eps depth Hsc. pose proof (grasp_search_shift sc Hsc c p sh fuel eps depth) as Q. unfold grasp. destruct (grasp_search sc p sh fuel eps depth) as [s|].
  - destruct Q as (s' & -> & H1 & H2 & H3 & H4 & H5 & H6 & H7 & H8). assert (E : g_pa s' = g_pa s) by (unfold g_pa; now rewrite H2, H3). split; [|intros cfuel; now rewrite E].
    split; [exact H1|]. split; [intros y; now rewrite E|]. now split.
  - rewrite Q. split; [exact I|reflexivity].
Qed.
Example C231_example : set_score gsc /\ match boss_search (fun v P => gsc v P + 10 * Z.of_nat v) 3 (fun _ l => l) 5 1 true with Some (o, pa) => (o, map pa [0; 1; 2]%nat) | _ => ([], []) end = ([0; 2; 1], [[]; [2; 0]; [0]])%nat.
Proof. split; [apply table_set|vm_compute; reflexivity]. Qed.
