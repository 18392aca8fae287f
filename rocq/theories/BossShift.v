(** BOSS and GRaSP when one constant per variable is added to the local scores: the two runs go in step. *)
From Verif Require Import Base GraphModel UtilsModel UtilsProofs CpdagModel CacheModel CacheProofs ExactSpec BossModel BossTree.
From Coq Require Import Permutation.
Local Open Scope Z_scope.

Section Shift.
Variable sc : nat -> list nat -> Z.
Hypothesis Hsc : set_score sc.
Variable c : nat -> Z.
Let sc' : nat -> list nat -> Z := fun v P => sc v P + c v.
Lemma shifted_set : set_score sc'.
Proof. intros v P P' H. unfold sc'. now rewrite (Hsc v P P' H). Qed.
(** *** Trees *)
Fixpoint shift_node (d : Z) (n : gnode) : gnode :=
  match n with GN a g s brs rm => GN a (g + d) (s + d) (match brs with Some l => Some (map (shift_node d) l) | None => None end) rm end.
Lemma shift_add d n : n_add (shift_node d n) = n_add n. Proof. destruct n; reflexivity. Qed.
Lemma shift_gscore d n : n_gscore (shift_node d n) = n_gscore n + d. Proof. destruct n; reflexivity. Qed.
Lemma n_insert_shift d x l : n_insert (shift_node d x) (map (shift_node d) l) = map (shift_node d) (n_insert x l).
Proof.
  induction l as [|y l IH]; [reflexivity|]. cbn [map n_insert]. rewrite !shift_gscore. replace (n_gscore y + d <? n_gscore x + d) with (n_gscore y <? n_gscore x) by (destruct (Z.ltb_spec (n_gscore y) (n_gscore x)), (Z.ltb_spec (n_gscore y + d) (n_gscore x + d)); try reflexivity; lia).
  destruct (n_gscore y <? n_gscore x); [|reflexivity]. cbn [map]. now rewrite IH.
Qed.
Lemma n_sort_shift d l : n_sort (map (shift_node d) l) = map (shift_node d) (n_sort l).
Proof. induction l as [|x l IH]; [reflexivity|]. cbn [map]. unfold n_sort in *. cbn [fold_right]. rewrite IH. apply n_insert_shift. Qed.
Lemma ltb_shift a b d : (a + d <? b + d) = (a <? b).
Proof. destruct (Z.ltb_spec a b), (Z.ltb_spec (a + d) (b + d)); try reflexivity; lia. Qed.
Lemma grow_shift v g avail parents : grow sc' v (g + c v) avail parents = map (shift_node (c v)) (grow sc v g avail parents).
Proof.
  unfold grow. rewrite <- n_sort_shift. f_equal. induction avail as [|a avail IH]; [reflexivity|]. cbn [map filter]. change (sc' v (parents ++ [a])) with (sc v (parents ++ [a]) + c v). cbn [n_gscore new_node]. rewrite ltb_shift.
  destruct (g <? sc v (parents ++ [a])); cbn [map]; rewrite IH; reflexivity.
Qed.
Lemma shrink_fold_shift v l : forall ps s b, fold_left (shrink_one sc' v) l (ps, s + c v, b) = (let '(ps', s', b') := fold_left (shrink_one sc v) l (ps, s, b) in (ps', s' + c v, b')).
Proof.
  induction l as [|r l IH]; intros ps s b; [reflexivity|]. cbn [fold_left]. unfold shrink_one at 2 4. change (sc' v (lremove r ps)) with (sc v (lremove r ps) + c v). rewrite ltb_shift. destruct (s <? sc v (lremove r ps)); apply IH.
Qed.
Lemma shrink_shift v fuel : forall ps s rm, shrink sc' fuel v ps (s + c v) rm = (let '(ps', s', rm') := shrink sc fuel v ps s rm in (ps', s' + c v, rm')).
Proof.
  induction fuel as [|fuel IH]; intros ps s rm; [reflexivity|]. cbn [shrink]. rewrite shrink_fold_shift. destruct (fold_left (shrink_one sc v) ps (ps, s, None)) as [[ps' s'] [b|]]; [apply IH|reflexivity].
Qed.
Lemma find_branch_shift d prefix l : forall avail, find_branch prefix (map (shift_node d) l) avail =
  match find_branch prefix l avail with Some (pre, b, post, av) => Some (map (shift_node d) pre, shift_node d b, map (shift_node d) post, av) | None => None end.
Proof.
  induction l as [|b l IH]; intros avail; [reflexivity|]. cbn [map find_branch]. rewrite shift_add. destruct (memb (n_add b) prefix); [reflexivity|]. rewrite IH. destruct (find_branch prefix l (lremove (n_add b) avail)) as [[[[pre b'] post] av]|]; reflexivity.
Qed.
Lemma trace_shift v fuel : forall prefix avail parents n, let '(n1, t, ps) := trace sc fuel v prefix avail parents n in
  exists t', trace sc' fuel v prefix avail parents (shift_node (c v) n) = (shift_node (c v) n1, t', ps).
Proof.
  induction fuel as [|fuel IH]; intros prefix avail parents [a g s brs rm]; [eexists; reflexivity|]. cbn [trace shift_node].
  replace (match (match brs with Some l => Some (map (shift_node (c v)) l) | None => None end) with None => grow sc' v (g + c v) avail parents | Some l => l end) with (map (shift_node (c v)) (match brs with None => grow sc v g avail parents | Some l => l end)) by (destruct brs; [reflexivity|symmetry; apply grow_shift]).
  set (l := match brs with None => _ | Some l => l end). rewrite find_branch_shift. destruct (find_branch prefix l avail) as [[[[pre b] post] av]|].
  - rewrite shift_add. specialize (IH prefix av (parents ++ [n_add b]) b). destruct (trace sc fuel v prefix av (parents ++ [n_add b]) b) as [[b1 t] ps]. destruct IH as (t' & ->). exists t'. cbn [shift_node]. rewrite map_app. reflexivity.
  - destruct rm as [rm|]; [eexists; reflexivity|]. rewrite shrink_shift. destruct (shrink sc (S (length parents)) v parents s []) as [[ps s'] rm']. eexists. reflexivity.
Qed.
Lemma ptrace_shift v fuel : forall prefix avail parents, NoDup avail -> (length avail < fuel)%nat -> fst (ptrace sc' fuel v prefix avail parents) = fst (ptrace sc fuel v prefix avail parents) + c v.
Proof.
  induction fuel as [|fuel IH]; intros prefix avail parents HN HL; [lia|]. cbn [ptrace]. change (sc' v parents) with (sc v parents + c v). rewrite grow_shift, map_map. rewrite (map_ext _ n_add (shift_add (c v))).
  destruct (pfind prefix (map n_add (grow sc v (sc v parents) avail parents)) avail) as [[x av]|] eqn:E.
  - apply pfind_some in E; [|now apply grow_nodup|exact HN|apply grow_incl]. destruct E as (_ & _ & E3 & E4 & _). apply IH; [exact E3|lia].
  - rewrite shrink_shift. destruct (shrink sc (S (length parents)) v parents (sc v parents) []) as [[ps s'] rm']. reflexivity.
Qed.

(** *** The trees of all variables *)
Variable p : nat.
Definition gshift (G G' : gsts) : Prop := gok sc p G /\ gok sc' p G' /\ forall v, G' v = shift_node (c v) (G v).
Lemma new_shift : gshift (new_gsts sc) (new_gsts sc').
Proof. split; [now apply new_gok|]. split; [apply new_gok, shifted_set|]. reflexivity. Qed.
Lemma gst_trace_shift G G' v prefix : gshift G G' -> let '(G1, t, ps) := gst_trace sc p G v prefix in exists G1', gst_trace sc' p G' v prefix = (G1', t + c v, ps) /\ gshift G1 G1'.
Proof.
  intros (H1 & H2 & H3). pose proof (gst_trace_ok sc Hsc p G v prefix H1) as Q. pose proof (gst_trace_ok sc' shifted_set p G' v prefix H2) as Q'. unfold gst_trace in *. rewrite H3 in *.
  pose proof (trace_shift v (S p) prefix (filter (fun i => negb (Nat.eqb i v)) (seq 0 p)) [] (G v)) as T. destruct (trace sc (S p) v prefix _ [] (G v)) as [[n t] ps]. destruct T as (t' & T). rewrite T in *.
  destruct Q as (Q1 & Q2 & _), Q' as (Q1' & Q2' & _). exists (fset G' v (shift_node (c v) n)). split.
  - assert (E : t' = t + c v) by (rewrite Q2, Q2'; unfold val, tr; apply ptrace_shift; [apply others_nodup|apply others_length]). now rewrite E.
  - split; [exact Q1|]. split; [exact Q1'|]. intros u. unfold fset. destruct (Nat.eqb_spec u v) as [-> | _]; [reflexivity|apply H3].
Qed.
Lemma trace_all_shift rest : forall before G G' pa, gshift G G' -> gshift (fst (trace_all sc p before rest G pa)) (fst (trace_all sc' p before rest G' pa)) /\ snd (trace_all sc' p before rest G' pa) = snd (trace_all sc p before rest G pa).
Proof.
  induction rest as [|v r IH]; intros before G G' pa H; [now split|]. cbn [trace_all]. pose proof (gst_trace_shift G G' v before H) as Q. destruct (gst_trace sc p G v before) as [[G1 t] ps]. destruct Q as (G1' & -> & Q). now apply IH.
Qed.

(** *** BOSS *)
Definition csum (l : list nat) : Z := fold_right Z.add 0 (map c l).
Lemma csum_app l m : csum (l ++ m) = csum l + csum m.
Proof. unfold csum. rewrite map_app. induction (map c l) as [|x r IH]; cbn [app fold_right]; [reflexivity|]. rewrite IH. lia. Qed.
Definition others_of (v : nat) (l : list nat) : list nat := filter (fun w => negb (Nat.eqb v w)) l.
Lemma forward_shift v ws : forall j prefix score scores scores' G G' d, gshift G G' ->
  let '(prefix1, score1, scores1, G1) := bm_forward sc p v ws j prefix score scores G in
  exists scores1' G1', bm_forward sc' p v ws j prefix (score + d) scores' G' = (prefix1, score1 + d + csum (others_of v ws), scores1', G1') /\ gshift G1 G1' /\
    (forall k, (j <= k < j + length ws)%nat -> scores1' k = scores1 k + d + csum (others_of v (firstn (k - j) ws)) + c v) /\
    (forall k, (k < j)%nat -> scores1 k = scores k /\ scores1' k = scores' k).
Proof.
  induction ws as [|w r IH]; intros j prefix score scores scores' G G' d H; cbn [bm_forward].
  - exists scores', G'. split; [cbn; f_equal; f_equal; f_equal; lia|]. split; [exact H|]. split; [cbn; intros; lia|auto].
  - pose proof (gst_trace_shift G G' v prefix H) as Q. destruct (gst_trace sc p G v prefix) as [[G1 t] ps]. destruct Q as (G1' & -> & Q).
    assert (F : forall k, (S j <= k)%nat -> firstn (k - j) (w :: r) = w :: firstn (k - S j) r). { intros k Hk. replace (k - j)%nat with (S (k - S j)) by lia. reflexivity. }
    destruct (Nat.eqb_spec v w) as [E|N]; cbn [negb].
    + specialize (IH (S j) prefix score (fset scores j (t + score)) (fset scores' j (t + c v + (score + d))) G1 G1' d Q). destruct (bm_forward sc p v r (S j) prefix score _ G1) as [[[p1 s1] sc1] G2]. destruct IH as (sc1' & G2' & -> & I1 & I2 & I3).
      exists sc1', G2'. split. { f_equal. f_equal. f_equal. unfold others_of. cbn [filter]. rewrite (proj2 (Nat.eqb_eq v w) E). cbn [negb]. reflexivity. } split; [exact I1|]. split.
      * intros k Hk. cbn [length] in Hk. destruct (Nat.eq_dec k j) as [-> | Nk].
        -- destruct (I3 j ltac:(lia)) as [-> ->]. unfold fset. rewrite Nat.eqb_refl, Nat.sub_diag. cbn. unfold csum. cbn. lia.
        -- rewrite I2 by lia. rewrite F by lia. unfold others_of. cbn [filter]. rewrite (proj2 (Nat.eqb_eq v w) E). cbn [negb]. reflexivity.
      * intros k Hk. destruct (I3 k ltac:(lia)) as [-> ->]. unfold fset. destruct (Nat.eqb_spec k j); [lia|auto].
    + pose proof (gst_trace_shift G1 G1' w prefix Q) as R. destruct (gst_trace sc p G1 w prefix) as [[G2 t2] ps2]. destruct R as (G2' & -> & R).
      specialize (IH (S j) (prefix ++ [w]) (score + t2) (fset scores j (t + score)) (fset scores' j (t + c v + (score + d))) G2 G2' (d + c w) R). replace (score + d + (t2 + c w)) with (score + t2 + (d + c w)) by lia.
      destruct (bm_forward sc p v r (S j) (prefix ++ [w]) (score + t2) _ G2) as [[[p1 s1] sc1] G3]. destruct IH as (sc1' & G3' & -> & I1 & I2 & I3).
      assert (O : forall l, others_of v (w :: l) = w :: others_of v l) by (intros l; unfold others_of; cbn [filter]; rewrite (proj2 (Nat.eqb_neq v w) N); reflexivity).
      exists sc1', G3'. split. { f_equal. f_equal. f_equal. rewrite O. unfold csum. cbn [map fold_right]. lia. } split; [exact I1|]. split.
      * intros k Hk. cbn [length] in Hk. destruct (Nat.eq_dec k j) as [-> | Nk].
        -- destruct (I3 j ltac:(lia)) as [-> ->]. unfold fset. rewrite Nat.eqb_refl, Nat.sub_diag. cbn. unfold csum. cbn. lia.
        -- rewrite I2 by lia. rewrite F by lia. rewrite O. unfold csum. cbn [map fold_right]. lia.
      * intros k Hk. destruct (I3 k ltac:(lia)) as [-> ->]. unfold fset. destruct (Nat.eqb_spec k j); [lia|auto].
Qed.
(** Positions not yet visited still lack the variables after them; the others are complete. *)
Lemma backward_shift v T ws : forall prefix score scores scores' best G G' e, gshift G G' -> T = csum (others_of v (rev ws)) + c v + e -> (length ws <= best)%nat ->
  scores' best = scores best + T -> (forall k, (k < length ws)%nat -> scores' k = scores k + csum (others_of v (firstn k (rev ws))) + c v) ->
  let '(scores1, best1, G1) := bm_backward sc p v ws prefix score scores best G in
  exists scores1' G1', bm_backward sc' p v ws prefix (score + e) scores' best G' = (scores1', best1, G1') /\ gshift G1 G1' /\ scores1' best1 = scores1 best1 + T /\
    (forall k, (k < length ws)%nat -> scores1' k = scores1 k + T) /\ (forall k, (length ws <= k)%nat -> scores1' k = scores' k /\ scores1 k = scores k).
Proof.
  induction ws as [|w r IH]; intros prefix score scores scores' best G G' e H ET HB EB HS; cbn [bm_backward].
  - exists scores', G'. split; [reflexivity|]. split; [exact H|]. split; [exact EB|]. split; [intros k Hk; cbn [length] in Hk; lia|auto].
  - cbn [rev] in *. cbn [length] in HS, HB. assert (LR : length (rev r) = length r) by apply rev_length.
    assert (HSr : scores' (length r) = scores (length r) + csum (others_of v (rev r)) + c v). { rewrite HS by lia. rewrite firstn_app, LR, Nat.sub_diag. rewrite <- LR at 2. rewrite firstn_all. cbn [firstn]. now rewrite app_nil_r. }
    assert (HSk : forall k, (k < length r)%nat -> scores' k = scores k + csum (others_of v (firstn k (rev r))) + c v). { intros k Hk. rewrite HS by lia. rewrite firstn_app, LR. replace (k - length r)%nat with 0%nat by lia. cbn [firstn]. now rewrite app_nil_r. }
    unfold others_of in ET. rewrite filter_app, csum_app in ET. cbn [filter] in ET. fold (others_of v (rev r)) in ET.
    assert (K : forall prefix1 score1 G1 G1' e1, gshift G1 G1' -> T = csum (others_of v (rev r)) + c v + e1 ->
      let '(scores1, best1, G2) := bm_backward sc p v r prefix1 score1 (fset scores (length r) (scores (length r) + score1)) (if fset scores (length r) (scores (length r) + score1) best <? fset scores (length r) (scores (length r) + score1) (length r) then length r else best) G1 in
      exists scores1' G2', bm_backward sc' p v r prefix1 (score1 + e1) (fset scores' (length r) (scores' (length r) + (score1 + e1))) (if fset scores' (length r) (scores' (length r) + (score1 + e1)) best <? fset scores' (length r) (scores' (length r) + (score1 + e1)) (length r) then length r else best) G1' = (scores1', best1, G2') /\ gshift G2 G2' /\ scores1' best1 = scores1 best1 + T /\
        (forall k, (k < S (length r))%nat -> scores1' k = scores1 k + T) /\ (forall k, (S (length r) <= k)%nat -> scores1' k = scores' k /\ scores1 k = scores k)).
    { intros prefix1 score1 G1 G1' e1 Q ET1. assert (X : fset scores' (length r) (scores' (length r) + (score1 + e1)) (length r) = fset scores (length r) (scores (length r) + score1) (length r) + T) by (unfold fset; rewrite !Nat.eqb_refl, HSr; lia).
      assert (Y : fset scores' (length r) (scores' (length r) + (score1 + e1)) best = fset scores (length r) (scores (length r) + score1) best + T) by (unfold fset; destruct (Nat.eqb_spec best (length r)); [lia|exact EB]).
      rewrite X, Y, ltb_shift. set (best1 := if _ <? _ then length r else best).
      specialize (IH prefix1 score1 (fset scores (length r) (scores (length r) + score1)) (fset scores' (length r) (scores' (length r) + (score1 + e1))) best1 G1 G1' e1 Q ET1).
      assert (B1 : (length r <= best1)%nat) by (unfold best1; destruct (_ <? _); lia). specialize (IH B1).
      assert (B2 : fset scores' (length r) (scores' (length r) + (score1 + e1)) best1 = fset scores (length r) (scores (length r) + score1) best1 + T) by (unfold best1; destruct (_ <? _); assumption).
      specialize (IH B2). assert (B3 : forall k, (k < length r)%nat -> fset scores' (length r) (scores' (length r) + (score1 + e1)) k = fset scores (length r) (scores (length r) + score1) k + csum (others_of v (firstn k (rev r))) + c v).
      { intros k Hk. unfold fset. destruct (Nat.eqb_spec k (length r)); [lia|]. now apply HSk. }
      specialize (IH B3). destruct (bm_backward sc p v r prefix1 score1 _ best1 G1) as [[sc1 b1] G2]. destruct IH as (sc1' & G2' & -> & I1 & I2 & I3 & I4). exists sc1', G2'. split; [reflexivity|]. split; [exact I1|]. split; [exact I2|]. split.
      - intros k Hk. destruct (Nat.eq_dec k (length r)) as [-> | N]; [|apply I3; lia]. destruct (I4 (length r) (Nat.le_refl _)) as [-> ->]. exact X.
      - intros k Hk. destruct (I4 k ltac:(lia)) as [-> ->]. unfold fset. destruct (Nat.eqb_spec k (length r)); [lia|auto]. }
    destruct (Nat.eqb_spec v w) as [E|N]; cbn [negb] in *.
    + apply (K prefix score G G' e H). cbn in ET. rewrite ET. unfold csum. cbn. lia.
    + pose proof (gst_trace_shift G G' w (lremove w prefix) H) as Q. destruct (gst_trace sc p G w (lremove w prefix)) as [[G1 t] ps]. destruct Q as (G1' & -> & Q). replace (score + e + (t + c w)) with (score + t + (e + c w)) by lia.
      apply (K (lremove w prefix) (score + t) G1 G1' (e + c w) Q). rewrite ET. unfold csum. cbn [map fold_right]. lia.
Qed.
Lemma better_mutation_shift eps v order G G' : gshift G G' -> let '(b, order1, G1) := better_mutation sc p eps v order G in
  exists G1', better_mutation sc' p eps v order G' = (b, order1, G1') /\ gshift G1 G1'.
Proof.
  intros H. unfold better_mutation. pose proof (forward_shift v order 0 [] 0 (fun _ => 0) (fun _ => 0) G G' 0 H) as F. change (0 + 0) with 0 in F. destruct (bm_forward sc p v order 0 [] 0 _ G) as [[[prefix score] scores] G1]. destruct F as (scores' & G1' & -> & F1 & F2 & _).
  pose proof (gst_trace_shift G1 G1' v prefix F1) as Q. destruct (gst_trace sc p G1 v prefix) as [[G2 t] ps]. destruct Q as (G2' & -> & Q).
  set (T := csum (others_of v order) + c v). pose proof (backward_shift v T (rev order) (prefix ++ [v]) 0 (fset scores (length order) (t + score)) (fset scores' (length order) (t + c v + (score + 0 + csum (others_of v order)))) (length order) G2 G2' 0 Q) as W.
  rewrite rev_involutive, rev_length in W. specialize (W ltac:(unfold T; lia) (Nat.le_refl _)). change (0 + 0) with 0 in W.
  specialize (W ltac:(unfold fset, T; rewrite !Nat.eqb_refl; lia)).
  assert (HS : forall k, (k < length order)%nat -> fset scores' (length order) (t + c v + (score + 0 + csum (others_of v order))) k = fset scores (length order) (t + score) k + csum (others_of v (firstn k order)) + c v).
  { intros k Hk. unfold fset. destruct (Nat.eqb_spec k (length order)); [lia|]. rewrite F2 by lia. rewrite Nat.sub_0_r. lia. }
  specialize (W HS). destruct (bm_backward sc p v (rev order) (prefix ++ [v]) 0 _ (length order) G2) as [[scores2 best] G3]. destruct W as (scores2' & G3' & -> & W1 & W2 & W3 & W4).
  assert (EI : scores2' (lindex v order) = scores2 (lindex v order) + T).
  { destruct (Nat.lt_ge_cases (lindex v order) (length order)) as [L|L]; [now apply W3|]. destruct (W4 _ L) as [-> ->]. unfold fset. destruct (Nat.eqb_spec (lindex v order) (length order)) as [E|E]; [unfold T; lia|]. exfalso. apply E.
    enough (lindex v order <= length order)%nat by lia. clear. induction order as [|a r IH]; cbn; [lia|]. destruct (Nat.eqb a v); lia. }
  rewrite W2, EI. replace (scores2 (lindex v order) + T + eps) with (scores2 (lindex v order) + eps + T) by lia. rewrite ltb_shift. destruct (scores2 best <? scores2 (lindex v order) + eps); eexists; split; try reflexivity; exact W1.
Qed.
Lemma boss_pass_shift eps vars order G G' : gshift G G' -> let '(b, order1, G1) := boss_pass sc p eps vars order G in exists G1', boss_pass sc' p eps vars order G' = (b, order1, G1') /\ gshift G1 G1'.
Proof.
  unfold boss_pass. generalize false as b. revert order G G'. induction vars as [|v vars IH]; intros order G G' b H; cbn [fold_left]; [eexists; split; [reflexivity|exact H]|].
  pose proof (better_mutation_shift eps v order G G' H) as Q. destruct (better_mutation sc p eps v order G) as [[b1 o1] G1]. destruct Q as (G1' & -> & Q). now apply IH.
Qed.
Variable sh : nat -> list nat -> list nat.
Lemma boss_loop_shift eps verbose fuel : forall k vars order G G', gshift G G' ->
  match boss_loop sc p sh fuel eps verbose k vars order G with
  | Some (o, G1) => exists G1', boss_loop sc' p sh fuel eps verbose k vars order G' = Some (o, G1') /\ gshift G1 G1'
  | None => boss_loop sc' p sh fuel eps verbose k vars order G' = None
  end.
Proof.
  induction fuel as [|fuel IH]; intros k vars order G G' H; [reflexivity|]. cbn [boss_loop].
  assert (V : gshift (if verbose then fst (trace_all sc p [] order G (fun _ => [])) else G) (if verbose then fst (trace_all sc' p [] order G' (fun _ => [])) else G')) by (destruct verbose; [apply trace_all_shift, H|exact H]).
  pose proof (boss_pass_shift eps (sh k vars) order _ _ V) as Q. destruct (boss_pass sc p eps (sh k vars) order _) as [[imp o1] G2]. destruct Q as (G2' & -> & Q). destruct imp; [now apply IH|]. eexists. split; [reflexivity|exact Q].
Qed.
Lemma boss_search_shift fuel eps verbose : boss_search sc' p sh fuel eps verbose = boss_search sc p sh fuel eps verbose.
Proof.
  unfold boss_search. pose proof (boss_loop_shift eps verbose fuel 0 (seq 0 p) (seq 0 p) (new_gsts sc) (new_gsts sc') new_shift) as Q. destruct (boss_loop sc p sh fuel eps verbose 0 (seq 0 p) (seq 0 p) (new_gsts sc)) as [[o G]|].
  - destruct Q as (G' & -> & Q). f_equal. f_equal. now apply trace_all_shift.
  - now rewrite Q.
Qed.

(** *** GRaSP *)
Definition sshift (s s' : gstate) : Prop :=
  g_order s' = g_order s /\ g_ref s' = g_ref s /\ g_heap s' = g_heap s /\ g_next s' = g_next s /\ g_edges s' = g_edges s /\ g_rnd s' = g_rnd s /\ (forall y, g_loc s' y = g_loc s y + c y) /\ gshift (g_gst s) (g_gst s').
Ltac ss := unfold sshift in *; cbn [g_order g_ref g_heap g_next g_edges g_rnd g_loc g_gst with_order with_heap with_loc with_edges with_gst with_parents with_rnd] in *.
Lemma pa_shift s s' y : sshift s s' -> g_pa s' y = g_pa s y.
Proof. intros (_ & H2 & H3 & _). unfold g_pa. now rewrite H2, H3. Qed.
Lemma get_shift s s' k : sshift s s' -> g_get s' k = g_get s k.
Proof. intros (H1 & _). unfold g_get. now rewrite H1. Qed.
Lemma tuck_shift i j s s' : sshift s s' -> sshift (tuck p i j s) (tuck p i j s').
Proof.
  intros H. unfold tuck. rewrite (get_shift _ _ _ H). assert (E : g_pa s' = g_pa s) by (destruct H as (_ & H2 & H3 & _); unfold g_pa; now rewrite H2, H3). rewrite E. pose proof H as (H1 & _). rewrite H1. ss. tauto.
Qed.
Lemma update_one_shift s s' eb old new d k : sshift s s' -> let '(s1, eb1, old1, new1) := update_one sc p (s, eb, old, new) k in
  exists s1' d', update_one sc' p (s', eb, old + d, new + d) k = (s1', eb1, old1 + d', new1 + d') /\ sshift s1 s1'.
Proof.
  intros H. unfold update_one. rewrite (get_shift _ _ _ H). pose proof H as (H1 & H2 & H3 & H4 & H5 & H6 & H7 & H8). rewrite H1, H2, H3. set (z := g_get s k).
  pose proof (gst_trace_shift _ _ z (firstn k (g_order s)) H8) as Q. destruct (gst_trace sc p (g_gst s) z (firstn k (g_order s))) as [[G t] ps]. destruct Q as (G' & -> & Q).
  eexists. exists (d + c z). split.
  - rewrite H7. f_equal; [|lia]. f_equal. lia.
  - ss. repeat (split; [first [assumption | now rewrite H3]|]). split; [|exact Q]. intros y. unfold fset. destruct (Nat.eqb_spec y z) as [-> | _]; [reflexivity|apply H7].
Qed.
Lemma update_shift i j s s' : sshift s s' -> let '(s1, eb, b) := update sc p i j s in exists s1', update sc' p i j s' = (s1', eb, b) /\ sshift s1 s1'.
Proof.
  intros H. unfold update. assert (K : forall ks s s' eb old new d, sshift s s' -> let '(s1, eb1, old1, new1) := fold_left (update_one sc p) ks (s, eb, old, new) in
    exists s1' d', fold_left (update_one sc' p) ks (s', eb, old + d, new + d) = (s1', eb1, old1 + d', new1 + d') /\ sshift s1 s1').
  { clear H s s'. induction ks as [|k ks IH]; intros s s' eb old new d H; [exists s', d; now split|]. cbn [fold_left]. pose proof (update_one_shift s s' eb old new d k H) as Q. destruct (update_one sc p (s, eb, old, new) k) as [[[s1 eb1] old1] new1]. destruct Q as (s1' & d' & -> & Q). now apply IH. }
  specialize (K (seq j (S i - j)) s s' 0 0 0 0 H). change (0 + 0) with 0 in K. destruct (fold_left (update_one sc p) _ (s, 0, 0, 0)) as [[[s1 eb] old] new]. destruct K as (s1' & d & -> & K). exists s1'. split; [|exact K]. f_equal. lia.
Qed.
Definition snap_shift (a b : list (nat * (nat * list nat * Z))) : Prop := b = map (fun x => let '(k, (z, ps, l)) := x in (k, (z, ps, l + c z))) a.
Lemma snapshot_shift s s' i j : sshift s s' -> snap_shift (snapshot s i j) (snapshot s' i j).
Proof. intros H. unfold snap_shift, snapshot. rewrite map_map. apply map_ext. intros k. rewrite (get_shift _ _ _ H), (pa_shift _ _ _ H). destruct H as (_ & _ & _ & _ & _ & _ & H7 & _). now rewrite H7. Qed.
Lemma restore_shift a b e : snap_shift a b -> forall s s', sshift s s' -> sshift (restore a e s) (restore b e s').
Proof.
  intros ->. unfold restore. assert (K : forall l s s', sshift s s' -> sshift (fold_left restore_one l s) (fold_left restore_one (map (fun x => let '(k, (z, ps, l)) := x in (k, (z, ps, l + c z))) l) s')).
  { induction l as [|[k [[z ps] v]] l IH]; intros s s' H; [exact H|]. cbn [map fold_left]. apply IH. unfold restore_one. pose proof H as (H1 & H2 & H3 & H4 & H5 & H6 & H7 & H8). ss. rewrite H1, H2, H3, H4. repeat (split; [first [reflexivity | assumption]|]). split; [|exact H8].
    intros y. unfold fset. destruct (Nat.eqb_spec y z) as [-> | _]; [reflexivity|apply H7]. }
  intros s s' H. specialize (K a s s' H). revert K. generalize (fold_left restore_one a s) as u, (fold_left restore_one (map (fun x => let '(k, (z, ps, l)) := x in (k, (z, ps, l + c z))) a) s') as u'. intros u u' K. ss. tauto.
Qed.
Section Dfs.
Variable eps : Z.
Definition rec_shift (r r' : option (pset -> list pset -> gstate -> bool * gstate)) : Prop :=
  match r, r' with
  | None, None => True
  | Some f, Some f' => forall fl h s s', sshift s s' -> fst (f' fl h s') = fst (f fl h s) /\ sshift (snd (f fl h s)) (snd (f' fl h s'))
  | _, _ => False
  end.
Variables r r' : option (pset -> list pset -> gstate -> bool * gstate).
Hypothesis HR : rec_shift r r'.
Variable history : list pset.
Lemma try_x_shift i yr x flipped s s' : sshift s s' -> let '(b, fl, s1) := try_x sc p eps r history i yr x flipped s in exists s1', try_x sc' p eps r' history i yr x flipped s' = (b, fl, s1') /\ sshift s1 s1'.
Proof.
  intros H. unfold try_x. rewrite (pa_shift _ _ x H). pose proof H as (H1 & H2 & H3 & H4 & H5 & H6 & H7 & H8). rewrite H1, H3, H5.
  destruct (_ && negb (seteq (x :: g_pa s x) (g_heap s yr)))%bool; [eexists; split; [reflexivity|exact H]|].
  pose proof (update_shift i (lindex x (g_order s)) _ _ (tuck_shift i (lindex x (g_order s)) s s' H)) as U. destruct (update sc p i (lindex x (g_order s)) (tuck p i (lindex x (g_order s)) s)) as [[s1 eb] sb]. destruct U as (s1' & -> & U).
  pose proof (snapshot_shift s s' i (lindex x (g_order s)) H) as SN.
  destruct (eps <? sb). { eexists. split; [reflexivity|]. pose proof U as (_ & _ & _ & _ & U5 & _). rewrite U5. clear - U. ss. tauto. }
  destruct (- eps <? sb); [|eexists; split; [reflexivity|now apply restore_shift]].
  rewrite (pa_shift _ _ x U). pose proof U as (U1 & _). rewrite U1. set (fl1 := pxor flipped _).
  destruct (_ && negb (existsb (pseteq fl1) history))%bool; [|eexists; split; [reflexivity|now apply restore_shift]].
  unfold rec_shift in HR. destruct r as [f|], r' as [f'|]; try contradiction; [|eexists; split; [reflexivity|now apply restore_shift]].
  destruct (HR fl1 (history ++ [fl1]) s1 s1' U) as [R1 R2]. destruct (f fl1 (history ++ [fl1]) s1) as [b s2], (f' fl1 (history ++ [fl1]) s1') as [b' s2']. cbn [fst snd] in R1, R2. subst b'. destruct b; eexists; split; try reflexivity; [exact R2|now apply restore_shift].
Qed.
Lemma x_loop_shift n : forall t i yr flipped s s', sshift s s' -> let '(b, fl, s1) := x_loop sc p eps r history n t i yr flipped s in exists s1', x_loop sc' p eps r' history n t i yr flipped s' = (b, fl, s1') /\ sshift s1 s1'.
Proof.
  induction n as [|n IH]; intros t i yr flipped s s' H; [eexists; split; [reflexivity|exact H]|]. cbn [x_loop]. pose proof H as (_ & _ & H3 & _). rewrite H3. destruct (nth_error (g_heap s yr) t) as [x|]; [|eexists; split; [reflexivity|exact H]].
  pose proof (try_x_shift i yr x flipped s s' H) as Q. destruct (try_x sc p eps r history i yr x flipped s) as [[b fl] s1]. destruct Q as (s1' & -> & Q). destruct b; [eexists; split; [reflexivity|exact Q]|]. now apply IH.
Qed.
Variable sh2 : nat -> list nat -> list nat.
Lemma i_loop_shift l : forall flipped s s', sshift s s' -> let '(b, s1) := i_loop sc p sh2 eps r history l flipped s in exists s1', i_loop sc' p sh2 eps r' history l flipped s' = (b, s1') /\ sshift s1 s1'.
Proof.
  induction l as [|i l IH]; intros flipped s s' H; [eexists; split; [reflexivity|exact H]|]. cbn [i_loop]. rewrite (get_shift _ _ _ H). pose proof H as (H1 & H2 & H3 & H4 & H5 & H6 & H7 & H8). rewrite H2, H3, H6. set (yr := g_ref s (g_get s i)).
  assert (U : sshift (with_rnd (with_heap s yr (sh2 (g_rnd s) (g_heap s yr)))) (with_rnd (with_heap s' yr (sh2 (g_rnd s) (g_heap s yr))))). { clear - H. ss. destruct H as (H1 & H2 & H3 & H4 & H5 & H6 & H7). rewrite H3, H6. tauto. }
  pose proof (x_loop_shift (S p) 0 i yr flipped _ _ U) as Q. destruct (x_loop sc p eps r history (S p) 0 i yr flipped _) as [[b fl] s1]. destruct Q as (s1' & -> & Q). destruct b; [eexists; split; [reflexivity|exact Q]|]. now apply IH.
Qed.
End Dfs.
Lemma dfs_shift eps depth : forall flipped history s s', sshift s s' -> let '(b, s1) := dfs sc p sh eps depth flipped history s in exists s1', dfs sc' p sh eps depth flipped history s' = (b, s1') /\ sshift s1 s1'.
Proof.
  induction depth as [|depth IH]; intros flipped history s s' H; cbn [dfs]; pose proof H as (H1 & H2 & H3 & H4 & H5 & H6 & H7 & H8); rewrite H1, H6; (apply i_loop_shift; [|clear - H; ss; destruct H as (H1 & H2 & H3 & H4 & H5 & H6 & H7); rewrite H6; tauto]).
  - exact I.
  - intros fl h u u' U. specialize (IH fl h u u' U). destruct (dfs sc p sh eps depth fl h u) as [b u1]. destruct IH as (u1' & -> & Q). split; [reflexivity|exact Q].
Qed.
Lemma grasp_init_shift : sshift (grasp_init sc p sh) (grasp_init sc' p sh).
Proof.
  unfold grasp_init. match goal with |- sshift (fold_left ?f ?l ?a) (fold_left ?g ?l ?b) => assert (K : forall ks s s', sshift s s' -> sshift (fold_left f ks s) (fold_left g ks s')); [|apply K] end.
  - induction ks as [|i ks IH]; intros s s' H; [exact H|]. cbn [fold_left]. apply IH. rewrite (get_shift _ _ _ H). pose proof H as (H1 & H2 & H3 & H4 & H5 & H6 & H7 & H8). rewrite H1. set (y := g_get s i).
    pose proof (gst_trace_shift _ _ y (firstn i (g_order s)) H8) as Q. destruct (gst_trace sc p (g_gst s) y (firstn i (g_order s))) as [[G t] ps]. destruct Q as (G' & -> & Q).
    ss. rewrite H2, H3, H5. repeat (split; [first [reflexivity | assumption]|]). split; [|exact Q]. intros u. unfold fset. destruct (Nat.eqb_spec u y) as [-> | _]; [reflexivity|apply H7].
  - ss. do 7 (split; [reflexivity|]). apply new_shift.
Qed.
Lemma grasp_loop_shift fuel eps depth : forall s s', sshift s s' -> match grasp_loop sc p sh fuel eps depth s with Some s1 => exists s1', grasp_loop sc' p sh fuel eps depth s' = Some s1' /\ sshift s1 s1' | None => grasp_loop sc' p sh fuel eps depth s' = None end.
Proof.
  induction fuel as [|fuel IH]; intros s s' H; [reflexivity|]. cbn [grasp_loop]. pose proof (dfs_shift eps (depth - 1) [] [] s s' H) as Q. destruct (dfs sc p sh eps (depth - 1) [] [] s) as [b s1]. destruct Q as (s1' & -> & Q). destruct b; [now apply IH|]. eexists. split; [reflexivity|exact Q].
Qed.
Lemma grasp_search_shift fuel eps depth : match grasp_search sc p sh fuel eps depth with Some s => exists s', grasp_search sc' p sh fuel eps depth = Some s' /\ sshift s s' | None => grasp_search sc' p sh fuel eps depth = None end.
Proof. apply grasp_loop_shift, grasp_init_shift. Qed.
End Shift.
