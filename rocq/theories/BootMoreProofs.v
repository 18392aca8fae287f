(** Medians, reordering by an argsort and the table of total effects. *)
From Verif Require Import Base UtilsModel BootModel BootSpec BootProofs BootMoreModel BootMoreSpec.
From Coq Require Import Permutation Sorted Lia.
Local Open Scope Z_scope.

Lemma zinsert_perm x l : Permutation (zinsert x l) (x :: l).
Proof. induction l as [|y l IH]; cbn; [reflexivity|]. destruct (x <=? y); [reflexivity|]. rewrite IH. apply perm_swap. Qed.
Lemma zsort_perm l : Permutation (zsort l) l.
Proof. induction l as [|x l IH]; cbn; [constructor|]. rewrite zinsert_perm. now constructor. Qed.
Lemma zinsert_sorted x l : StronglySorted Z.le l -> StronglySorted Z.le (zinsert x l).
Proof.
  induction 1 as [|y l H IH F]; cbn; [repeat constructor|]. destruct (Z.leb_spec x y) as [L|L].
  - constructor; [now constructor|]. constructor; [exact L|]. rewrite Forall_forall in *. intros z Hz. specialize (F z Hz). lia.
  - constructor; [exact IH|]. apply Forall_forall. intros z Hz. apply (Permutation_in _ (zinsert_perm x l)) in Hz. destruct Hz as [<-|Hz]; [lia|]. rewrite Forall_forall in F. auto.
Qed.
Lemma zsort_sorted l : StronglySorted Z.le (zsort l).
Proof. induction l as [|x l IH]; cbn; [constructor|]. now apply zinsert_sorted. Qed.
Lemma median2_spec l : l <> [] -> twice_median l (median2 l).
Proof.
  intros N. exists (zsort l). split; [apply zsort_perm|]. split; [apply zsort_sorted|]. unfold median2.
  assert (L : length (zsort l) = length l) by (apply Permutation_length, zsort_perm). rewrite <- L. assert (N' : (0 < length (zsort l))%nat) by (rewrite L; destruct l; [congruence|cbn; lia]).
  generalize dependent (zsort l). intros s _ N'. clear N l.
  assert (SPL : forall (s : list Z) k, (k < length s)%nat -> exists a b, s = a ++ nth k s 0 :: b /\ length a = k).
  { intros s0 k Hk. destruct (nth_split s0 0 Hk) as (a & b & E & La). eauto. }
  assert (DV : (length s = 2 * (length s / 2) + length s mod 2)%nat) by (apply Nat.div_mod; lia). pose proof (Nat.mod_upper_bound (length s) 2 ltac:(lia)) as MB.
  destruct (Nat.eq_dec (length s mod 2) 1) as [O|O].
  - left. assert (E : ((length s - 1) / 2 = length s / 2)%nat) by (symmetry; apply Nat.div_unique with 0%nat; lia). rewrite E. destruct (SPL s (length s / 2)%nat) as (a & b & Es & La); [lia|].
    exists a, (nth (length s / 2) s 0), b. split; [exact Es|]. split; [|reflexivity]. apply (f_equal (@length Z)) in Es. rewrite app_length in Es. cbn [length] in Es. lia.
  - right. assert (E : ((length s - 1) / 2 = length s / 2 - 1)%nat) by (symmetry; apply Nat.div_unique with 1%nat; lia). rewrite E. set (k := (length s / 2 - 1)%nat) in *. replace (length s / 2)%nat with (S k) by lia.
    destruct (SPL s k) as (a & b & Es & La); [lia|]. destruct b as [|y b]; [apply (f_equal (@length Z)) in Es; rewrite app_length in Es; cbn [length] in Es; lia|].
    assert (Ey : nth (S k) s 0 = y). { rewrite Es. rewrite app_nth2 by lia. replace (S k - length a)%nat with 1%nat by lia. reflexivity. }
    exists a, (nth k s 0), y, b. split; [exact Es|]. split; [|now rewrite Ey]. apply (f_equal (@length Z)) in Es. rewrite app_length in Es. cbn [length] in Es. lia.
Qed.

(** ** Reordering *)
Lemma reorder_nth {A} (d : A) u ord : (forall q, In q ord -> (q < length u)%nat) -> reorder ord u = map (fun q => nth q u d) ord.
Proof.
  induction ord as [|q o IH]; intros B; [reflexivity|]. unfold reorder in *. cbn [flat_map map]. rewrite (nth_error_nth' u d) by (apply B; now left). cbn. f_equal. apply IH. intros x Hx. apply B. now right.
Qed.
Lemma map_nth_all {A} (d : A) u : map (fun q => nth q u d) (seq 0 (length u)) = u.
Proof.
  induction u as [|x u IH]; [reflexivity|]. cbn [length seq map nth]. f_equal. rewrite <- seq_shift, map_map. cbn [nth]. exact IH.
Qed.
Lemma reorder_map {A B} (f : A -> B) ord u : reorder ord (map f u) = map f (reorder ord u).
Proof.
  unfold reorder. induction ord as [|q o IH]; [reflexivity|]. cbn [flat_map]. rewrite map_app, <- IH. f_equal. rewrite nth_error_map. destruct (nth_error u q); reflexivity.
Qed.
Lemma StronglySorted_map {A B} (P : B -> B -> Prop) (Q : A -> A -> Prop) (g : A -> B) l : (forall a b, In a l -> In b l -> Q a b -> P (g a) (g b)) -> StronglySorted Q l -> StronglySorted P (map g l).
Proof.
  intros H S1. induction S1 as [|a l S1 IH F]; cbn [map]; [constructor|]. constructor; [apply IH; intros x y Hx Hy; apply H; now right|].
  apply Forall_forall. intros y Hy. apply in_map_iff in Hy. destruct Hy as (x & <- & I). rewrite Forall_forall in F. apply H; [now left|now right|auto].
Qed.
Lemma reorder_argsort {A} argsort (f : A -> Z) u : sorts argsort -> Permutation (reorder (argsort (map f u)) u) u /\ StronglySorted (fun x y => f x <= f y) (reorder (argsort (map f u)) u).
Proof.
  intros HS. destruct (HS (map f u)) as [HP Hs]. rewrite map_length in HP. set (ord := argsort (map f u)) in *. clearbody ord.
  assert (Bo : forall q, In q ord -> (q < length u)%nat) by (intros q Hq; apply in_seq0; now apply (Permutation_in _ HP)).
  destruct u as [|d u0] eqn:Eu.
  { assert (ord = []) by (destruct ord as [|q o]; [reflexivity|]; exfalso; specialize (Bo q (or_introl eq_refl)); cbn in Bo; lia). subst ord. split; constructor. }
  rewrite <- Eu in *. rewrite (reorder_nth d u ord Bo). split; [transitivity (map (fun q => nth q u d) (seq 0 (length u))); [now apply Permutation_map|now rewrite map_nth_all]|].
  eapply StronglySorted_map; [|exact Hs]. intros a b Ha Hb L. cbn beta in L. rewrite !(nth_indep (map f u) 0 (f d)), !map_nth in L by (rewrite map_length; auto). exact L.
Qed.

(** ** Counting *)
Lemma above_count thr samples d : above thr samples d = Z.of_nat (holds_in (fun B : mat => thr <? Z.abs (B (fst d) (snd d))) samples).
Proof.
  unfold above. assert (G : forall l s, fold_left (fun s B => s + (if over thr B (fst d) (snd d) then 1 else 0)) l s = s + Z.of_nat (holds_in (fun B : mat => thr <? Z.abs (B (fst d) (snd d))) l)).
  { induction l as [|B l IH]; intros s; cbn [fold_left]; [unfold holds_in; cbn; lia|]. rewrite IH. unfold holds_in, over. cbn [filter]. destruct (thr <? Z.abs (B (fst d) (snd d))); cbn [length]; lia. }
  rewrite G. lia.
Qed.
Lemma in_positions r c i j : In (i, j) (positions r c) <-> (i < r)%nat /\ (j < c)%nat.
Proof.
  unfold positions. rewrite in_flat_map. split.
  - intros (a & Ha & K). apply in_map_iff in K. destruct K as (b & Q & Hb). injection Q as -> ->. rewrite in_seq0 in *. auto.
  - intros [Hi Hj]. exists i. split; [now apply in_seq0|]. apply in_map_iff. exists j. split; [reflexivity|now apply in_seq0].
Qed.
Lemma NoDup_join_map {A B C} (g : A -> B -> C) (la : list A) (lb : list B) : (forall a b a' b', g a b = g a' b' -> a = a' /\ b = b') -> NoDup la -> NoDup lb -> NoDup (flat_map (fun a => map (g a) lb) la).
Proof.
  intros G NA NB. induction NA as [|a la N NA IH]; cbn; [constructor|].
  assert (NM : NoDup (map (g a) lb)). { apply FinFun.Injective_map_NoDup; [|exact NB]. intros x y E. now apply G in E. }
  assert (D : forall x, In x (map (g a) lb) -> ~ In x (flat_map (fun a => map (g a) lb) la)).
  { intros x Hx K. apply in_map_iff in Hx. destruct Hx as (b & <- & _). apply in_flat_map in K. destruct K as (a' & Ha & K). apply in_map_iff in K. destruct K as (b' & E & _). apply G in E. destruct E as [-> _]. contradiction. }
  clear - IH NM D. induction NM as [|x m M1 M2 IHm]; cbn; [exact IH|]. constructor; [rewrite in_app_iff; intros [I|I]; [auto|apply (D x); [now left|exact I]]|]. apply IHm. intros y Hy. apply D. now right.
Qed.
Lemma positions_NoDup r c : NoDup (positions r c).
Proof. unfold positions. apply NoDup_join_map; [intros a b a' b' [= -> ->]; auto|apply seq_NoDup|apply seq_NoDup]. Qed.
Lemma combine_map3 {A B C} (f : A -> B) (g : A -> C) l : combine (combine l (map f l)) (map g l) = map (fun x => (x, f x, g x)) l.
Proof. induction l as [|x l IH]; [reflexivity|]. cbn. now rewrite IH. Qed.

(** ** The order of the fitted model *)
Lemma before_cons a l x y : before (a :: l) x y <-> (a = x /\ In y l) \/ before l x y.
Proof.
  split.
  - intros (l1 & l2 & l3 & E). destruct l1 as [|b l1]; cbn in E; injection E as -> ->; [left; split; [reflexivity|apply in_or_app; right; now left]|right; exists l1, l2, l3; reflexivity].
  - intros [[-> H]|(l1 & l2 & l3 & ->)]; [|exists (a :: l1), l2, l3; reflexivity]. apply in_split in H. destruct H as (l2 & l3 & ->). exists [], l2, l3. reflexivity.
Qed.
Lemma row_effects (e : nat -> nat -> Z) from rest : forall t i j,
  fold_left (fun t to => upd t to from (e from to)) rest t i j = (if (Nat.eqb j from && (if in_dec Nat.eq_dec i rest then true else false))%bool then e from i else t i j).
Proof.
  induction rest as [|b r IH]; intros t i j; [now rewrite andb_false_r|]. cbn [fold_left]. rewrite IH. destruct (Nat.eqb_spec j from) as [->|N].
  - cbn [andb]. destruct (in_dec Nat.eq_dec i r) as [I|I].
    + destruct (in_dec Nat.eq_dec i (b :: r)) as [I'|I']; [reflexivity|exfalso; apply I'; now right].
    + destruct (in_dec Nat.eq_dec i (b :: r)) as [[->|I']|I'].
      * apply upd_same.
      * contradiction.
      * apply upd_other. left. intros ->. apply I'. now left.
  - cbn [andb]. apply upd_other. now right.
Qed.
Lemma order_effects_spec (e : nat -> nat -> Z) order : forall t i j, (before order j i -> order_effects e order t i j = e j i) /\ (~ before order j i -> order_effects e order t i j = t i j).
Proof.
  induction order as [|a r IH]; intros t i j; [split; [intros (l1 & l2 & l3 & E); destruct l1; discriminate|reflexivity]|]. cbn [order_effects].
  destruct (IH (fold_left (fun t to => upd t to a (e a to)) r t) i j) as [H1 H2]. assert (D : before r j i \/ ~ before r j i).
  { clear. induction r as [|b r IH]; [right; intros (l1 & l2 & l3 & E); destruct l1; discriminate|]. rewrite before_cons. destruct IH as [H|H]; [tauto|]. destruct (Nat.eq_dec b j) as [->|N]; [|right; intros [[K _]|K]; contradiction].
    destruct (in_dec Nat.eq_dec i r); [tauto|right; intros [[_ K]|K]; contradiction]. }
  rewrite before_cons. destruct D as [D|D]; [split; [intros _; auto|tauto]|]. rewrite (H2 D), row_effects. split.
  - intros [[-> I]|K]; [|contradiction]. rewrite Nat.eqb_refl. destruct (in_dec Nat.eq_dec i r); [reflexivity|contradiction].
  - intros N. destruct (Nat.eqb_spec j a) as [->|Q]; [|reflexivity]. destruct (in_dec Nat.eq_dec i r) as [I|I]; [exfalso; apply N; now left|reflexivity].
Qed.
