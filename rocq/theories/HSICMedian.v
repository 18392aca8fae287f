(** numpy.median, and the distances above the diagonal: order and scale. *)
From Verif Require Import Base UtilsModel BICModel BICProofs EffectModel EffectProofs VARModel VARProofs ChisqProps CALMProofs KCIModel KCIProofs KCIProps HSICModel HSICProofs.
From Coq Require Import Permutation Sorted Reals Lra.
Local Open Scope R_scope.

Lemma rins_perm x l : Permutation (rins x l) (x :: l).
Proof. induction l as [|y l IH]; cbn [rins]; [reflexivity|]. destruct (Rle_dec x y); [reflexivity|]. rewrite IH. apply perm_swap. Qed.
Lemma rsort_perm l : Permutation (rsort l) l.
Proof. induction l as [|x l IH]; cbn [rsort fold_right]; [constructor|]. fold (rsort l). now rewrite rins_perm, IH. Qed.
Lemma rins_sorted x l : StronglySorted Rle l -> StronglySorted Rle (rins x l).
Proof.
  induction 1 as [|y l Hs IH Hf]; cbn [rins]; [repeat constructor|]. destruct (Rle_dec x y) as [L|L].
  - constructor; [now constructor|]. constructor; [exact L|]. rewrite Forall_forall in *. intros z Hz. apply Rle_trans with y; auto.
  - constructor; [exact IH|]. rewrite Forall_forall in *. intros z Hz. apply (Permutation_in _ (rins_perm x l)) in Hz. destruct Hz as [<- | Hz]; [lra|auto].
Qed.
Lemma rsort_sorted l : StronglySorted Rle (rsort l).
Proof. induction l as [|x l IH]; [constructor|]. apply rins_sorted, IH. Qed.
Lemma rsorted_unique l m : StronglySorted Rle l -> StronglySorted Rle m -> Permutation l m -> l = m.
Proof.
  intros Hl. revert m. induction Hl as [|x l Hs IH Hf]; intros m Hm P; [now apply Permutation_nil in P|].
  destruct Hm as [|y m Hm Hf2]; [apply Permutation_sym, Permutation_nil in P; discriminate|]. rewrite Forall_forall in *.
  assert (x = y).
  { apply Rle_antisym.
    - assert (I : In y (x :: l)) by (apply (Permutation_in _ (Permutation_sym P)); now left). destruct I as [-> | I]; [lra|now apply Hf].
    - assert (I : In x (y :: m)) by (apply (Permutation_in _ P); now left). destruct I as [-> | I]; [lra|now apply Hf2]. }
  subst y. f_equal. apply IH; [exact Hm|]. now apply Permutation_cons_inv in P.
Qed.
Lemma rsort_eq l m : Permutation l m -> rsort l = rsort m.
Proof. intros P. apply rsorted_unique; [apply rsort_sorted|apply rsort_sorted|]. now rewrite !rsort_perm. Qed.
Lemma rmedian_perm l m : Permutation l m -> rmedian l = rmedian m.
Proof. intros P. unfold rmedian. now rewrite (rsort_eq l m P), (Permutation_length P). Qed.
Lemma rins_scale u x l : 0 < u -> rins (u * x) (map (Rmult u) l) = map (Rmult u) (rins x l).
Proof.
  intros Hu. induction l as [|y l IH]; cbn [rins map]; [reflexivity|]. destruct (Rle_dec x y) as [L|L], (Rle_dec (u * x) (u * y)) as [M|M]; cbn [map]; try reflexivity.
  - exfalso. apply M. apply Rmult_le_compat_l; lra.
  - exfalso. apply L. apply (Rmult_le_reg_l u); assumption.
  - now rewrite IH.
Qed.
Lemma rsort_scale u l : 0 < u -> rsort (map (Rmult u) l) = map (Rmult u) (rsort l).
Proof. intros Hu. induction l as [|x l IH]; [reflexivity|]. cbn [map rsort fold_right]. fold (rsort (map (Rmult u) l)). rewrite IH. fold (rsort l). now apply rins_scale. Qed.
Lemma rmedian_scale u l : 0 < u -> rmedian (map (Rmult u) l) = u * rmedian l.
Proof.
  intros Hu. unfold rmedian. rewrite rsort_scale, map_length by exact Hu.
  assert (N : forall k, nth k (map (Rmult u) (rsort l)) 0 = u * nth k (rsort l) 0) by (intros k; replace 0 with (u * 0) at 1 by ring; apply map_nth).
  rewrite !N. destruct (Nat.even (length l)); [field|reflexivity].
Qed.
(** The median of a non-empty list lies between any bounds of its elements. *)
Lemma rmedian_between lo hi l : l <> [] -> (forall x, In x l -> lo <= x <= hi) -> lo <= rmedian l <= hi.
Proof.
  intros Hne H. unfold rmedian. assert (LEN : length (rsort l) = length l) by apply Permutation_length, rsort_perm.
  assert (L0 : (0 < length l)%nat) by (destruct l; [contradiction|cbn; lia]).
  assert (N : forall k, (k < length l)%nat -> lo <= nth k (rsort l) 0 <= hi) by (intros k Hk; apply H, (Permutation_in _ (rsort_perm l)), nth_In; lia).
  assert (D : (Nat.div2 (length l) < length l)%nat) by (apply Nat.lt_div2; exact L0).
  destruct (Nat.even (length l)); [|now apply N]. pose proof (N (Nat.div2 (length l)) D). pose proof (N (Nat.div2 (length l) - 1)%nat ltac:(lia)). lra.
Qed.
Lemma rmedian_pos l : l <> [] -> (forall x, In x l -> 0 < x) -> 0 < rmedian l.
Proof.
  intros Hne H. assert (LEN : length (rsort l) = length l) by apply Permutation_length, rsort_perm. assert (L0 : (0 < length l)%nat) by (destruct l; [contradiction|cbn; lia]).
  assert (N : forall k, (k < length l)%nat -> 0 < nth k (rsort l) 0) by (intros k Hk; apply H, (Permutation_in _ (rsort_perm l)), nth_In; lia).
  unfold rmedian. assert (D : (Nat.div2 (length l) < length l)%nat) by (apply Nat.lt_div2; exact L0).
  destruct (Nat.even (length l)); [|now apply N]. pose proof (N _ D). pose proof (N (Nat.div2 (length l) - 1)%nat ltac:(lia)). lra.
Qed.

(** ** The distances above the diagonal *)
Definition keep (x : R) : list R := if Rlt_dec 0 x then [x] else [].
Lemma filter_pairs (f : nat -> nat -> R) l m :
  filter (fun r => if Rlt_dec 0 r then true else false) (flat_map (fun a => map (f a) m) l) = flat_map (fun a => flat_map (fun b => keep (f a b)) m) l.
Proof.
  induction l as [|a l IH]; [reflexivity|]. cbn [flat_map]. rewrite filter_app, IH. f_equal. clear IH. induction m as [|b m IHm]; [reflexivity|]. cbn [map filter flat_map]. unfold keep at 1.
  destruct (Rlt_dec 0 (f a b)); cbn [app]; now rewrite IHm.
Qed.
Lemma flat_map_split {A B} (f g : A -> list B) l : Permutation (flat_map (fun a => f a ++ g a) l) (flat_map f l ++ flat_map g l).
Proof.
  induction l as [|a l IH]; [constructor|]. cbn [flat_map]. rewrite IH, <- !app_assoc. apply Permutation_app_head. rewrite !app_assoc. apply Permutation_app_tail, Permutation_app_comm.
Qed.
Lemma flat_map_nil {A B} (l : list A) : flat_map (fun _ => @nil B) l = [].
Proof. now induction l. Qed.
Lemma flat_map_swap {A B C} (h : A -> B -> list C) l m : Permutation (flat_map (fun a => flat_map (h a) m) l) (flat_map (fun b => flat_map (fun a => h a b) l) m).
Proof.
  induction l as [|a l IH]; cbn [flat_map]; [now rewrite flat_map_nil|]. rewrite IH. symmetry. apply (flat_map_split (h a) (fun b => flat_map (fun a => h a b) l)).
Qed.
Lemma sqdist_sym d X a b : sqdist d X a b = sqdist d X b a.
Proof. unfold sqdist. apply rsum_ext. intros. ring. Qed.
Lemma sqdist_refl d X a : sqdist d X a a = 0.
Proof. unfold sqdist. rewrite (rsum_ext _ (fun _ => 0 * 0)) by (intros; ring). rewrite rsum_const. ring. Qed.
Lemma upper_keep m d X : upper_dists m d X = flat_map (fun a => flat_map (fun b => if Nat.leb b a then [] else keep (sqdist d X a b)) (seq 0 m)) (seq 0 m).
Proof.
  unfold upper_dists. rewrite (filter_pairs (fun a b => dists d X a b - (if Nat.leb b a then dists d X a b else 0))).
  apply flat_map_ext'. intros a _. apply flat_map_ext'. intros b _. destruct (Nat.leb b a).
  - rewrite Rminus_diag_eq by reflexivity. unfold keep. destruct (Rlt_dec 0 0); [lra|reflexivity].
  - rewrite Rminus_0_r. now rewrite dists_sqdist.
Qed.
(** All ordered pairs give every distance twice. *)
Lemma upper_twice m d X : Permutation (flat_map (fun a => flat_map (fun b => keep (sqdist d X a b)) (seq 0 m)) (seq 0 m)) (upper_dists m d X ++ upper_dists m d X).
Proof.
  rewrite upper_keep.
  transitivity (flat_map (fun a => flat_map (fun b => if Nat.leb b a then [] else keep (sqdist d X a b)) (seq 0 m) ++ flat_map (fun b => if Nat.leb b a then keep (sqdist d X a b) else []) (seq 0 m)) (seq 0 m)).
  - apply flat_map_perm. intros a _. rewrite <- flat_map_split. apply flat_map_perm. intros b _. destruct (Nat.leb b a); [reflexivity|now rewrite app_nil_r].
  - rewrite flat_map_split. apply Permutation_app_head. rewrite flat_map_swap. apply flat_map_perm. intros b _. apply flat_map_perm. intros a _.
    destruct (Nat.leb_spec b a), (Nat.leb_spec a b); try lia; [|now rewrite sqdist_sym|reflexivity]. replace a with b by lia. rewrite sqdist_refl. unfold keep. destruct (Rlt_dec 0 0); [lra|reflexivity].
Qed.
Lemma half_perm (l m : list R) : Permutation (l ++ l) (m ++ m) -> Permutation l m.
Proof.
  intros P. apply (Permutation_count_occ Req_EM_T). intros x. pose proof (proj1 (Permutation_count_occ Req_EM_T (l ++ l) (m ++ m)) P x) as E. rewrite !count_occ_app in E. lia.
Qed.
Lemma upper_shuffle m sg d X : shuffle m sg -> Permutation (upper_dists m d (fun s c => X (sg s) c)) (upper_dists m d X).
Proof.
  intros H. apply half_perm. rewrite <- !upper_twice.
  transitivity (flat_map (fun a => flat_map (fun b => keep (sqdist d X a b)) (map sg (seq 0 m))) (map sg (seq 0 m))).
  - assert (E : forall (f : nat -> list R) l, flat_map f (map sg l) = flat_map (fun a => f (sg a)) l) by (intros f l; induction l as [|x l IH]; [reflexivity|cbn [map flat_map]; now rewrite IH]).
    rewrite E. apply flat_map_perm. intros a _. now rewrite E.
  - rewrite (flat_map_list_perm _ _ _ H). apply flat_map_perm. intros a _. now apply flat_map_list_perm.
Qed.
Lemma keep_scale u x : 0 < u -> keep (u * x) = map (Rmult u) (keep x).
Proof. intros Hu. unfold keep. destruct (Rlt_dec 0 (u * x)), (Rlt_dec 0 x); try reflexivity; exfalso; nra. Qed.
Lemma upper_scale m d X X' u : 0 < u -> (forall a b, sqdist d X' a b = u * sqdist d X a b) -> upper_dists m d X' = map (Rmult u) (upper_dists m d X).
Proof.
  intros Hu H. rewrite !upper_keep. induction (seq 0 m) as [|a l IH] at 2 4; [reflexivity|]. cbn [flat_map]. rewrite map_app, <- IH. f_equal.
  clear IH. induction (seq 0 m) as [|b k IHk]; [reflexivity|]. cbn [flat_map]. rewrite map_app, <- IHk. f_equal. destruct (Nat.leb b a); [reflexivity|]. rewrite H. now apply keep_scale.
Qed.
Lemma upper_in m d X r : In r (upper_dists m d X) <-> exists a b, (a < b)%nat /\ (b < m)%nat /\ r = sqdist d X a b /\ 0 < r.
Proof.
  rewrite upper_keep, in_flat_map. split.
  - intros (a & Ha & H). apply in_flat_map in H. destruct H as (b & Hb & H). destruct (Nat.leb_spec b a); [destruct H|]. unfold keep in H. destruct (Rlt_dec 0 (sqdist d X a b)); [|destruct H]. destruct H as [<- | []].
    apply in_seq0 in Hb. exists a, b. auto.
  - intros (a & b & Hab & Hb & -> & P). exists a. split; [apply in_seq0; lia|]. apply in_flat_map. exists b. split; [now apply in_seq0|]. destruct (Nat.leb_spec b a); [lia|]. unfold keep. destruct (Rlt_dec 0 (sqdist d X a b)); [now left|contradiction].
Qed.
