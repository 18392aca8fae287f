(** Lemmas about permutations and the determinant. *)
From Verif Require Import Base GraphModel GraphSpec BICModel BICProofs EffectModel EffectProofs VARModel VARProofs CALMModel LikeModel BootProofs.
From Coq Require Import Permutation Reals Lra.
Local Open Scope R_scope.

Lemma insertions_perm x l p : In p (insertions x l) -> Permutation (x :: l) p.
Proof.
  revert p. induction l as [|y r IH]; intros p H; cbn [insertions] in H.
  - destruct H as [<-|[]]. apply Permutation_refl.
  - destruct H as [<-|H]; [apply Permutation_refl|]. apply in_map_iff in H. destruct H as (q & <- & H). apply IH in H.
    rewrite perm_swap. now constructor.
Qed.
Lemma perms_perm l p : In p (perms l) -> Permutation l p.
Proof.
  revert p. induction l as [|x r IH]; intros p H; cbn [perms] in H.
  - destruct H as [<-|[]]. constructor.
  - apply in_flat_map in H. destruct H as (q & H1 & H2). apply insertions_perm in H2. rewrite <- H2. constructor. now apply IH.
Qed.
Lemma insertions_at x l1 l2 : In (l1 ++ x :: l2) (insertions x (l1 ++ l2)).
Proof.
  induction l1 as [|y l1 IH]; cbn [app].
  - destruct l2; now left.
  - cbn [insertions]. right. now apply in_map.
Qed.
Lemma perm_perms l p : Permutation l p -> In p (perms l).
Proof.
  revert p. induction l as [|x r IH]; intros p H.
  - apply Permutation_nil in H. subst. now left.
  - assert (I : In x p) by (eapply Permutation_in; [exact H|now left]). apply in_split in I. destruct I as (l1 & l2 & ->).
    apply Permutation_cons_app_inv in H. cbn [perms]. apply in_flat_map. exists (l1 ++ l2). split; [now apply IH|apply insertions_at].
Qed.

Lemma insertions_nodup x l : ~ In x l -> NoDup (insertions x l).
Proof.
  induction l as [|y r IH]; intros H; cbn [insertions]; [constructor; [easy|constructor]|]. constructor.
  - intros I. apply in_map_iff in I. destruct I as (q & E & _). injection E as E _. apply H. now left.
  - assert (ND : NoDup (insertions x r)) by (apply IH; intros I; apply H; now right). clear -ND.
    induction ND as [|q l N _ IH]; cbn [map]; constructor; auto. intros I. apply in_map_iff in I. destruct I as (q' & E & I). injection E as ->. contradiction.
Qed.
Lemma remove_insertions x l p : ~ In x l -> In p (insertions x l) -> remove Nat.eq_dec x p = l.
Proof.
  revert p. induction l as [|y r IH]; intros p N H; cbn [insertions] in H.
  - destruct H as [<-|[]]. cbn. destruct (Nat.eq_dec x x); congruence.
  - destruct H as [<-|H].
    + cbn [remove]. destruct (Nat.eq_dec x x) as [_|]; [|congruence]. change (remove Nat.eq_dec x (y :: r) = y :: r). now apply notin_remove.
    + apply in_map_iff in H. destruct H as (q & <- & H). cbn [remove]. destruct (Nat.eq_dec x y) as [->|]; [exfalso; apply N; now left|]. f_equal. apply IH; [|exact H].
      intros I. apply N. now right.
Qed.
Lemma perms_nodup l : NoDup l -> NoDup (perms l).
Proof.
  induction 1 as [|x r N ND IH]; cbn [perms]; [constructor; [easy|constructor]|].
  assert (P : forall q, In q (perms r) -> ~ In x q) by (intros q Hq I; apply N; eapply Permutation_in; [apply Permutation_sym, perms_perm; exact Hq|exact I]).
  revert IH P. generalize (perms r). intros L NL P. induction NL as [|q L Nq NL IH]; cbn [flat_map]; [constructor|].
  assert (DJ : forall a, In a (insertions x q) -> ~ In a (flat_map (insertions x) L)).
  { intros a Ha I. apply in_flat_map in I. destruct I as (q' & Hq' & Ha'). assert (q = q'); [|congruence].
    rewrite <- (remove_insertions x q a), <- (remove_insertions x q' a); auto; apply P; auto; [now right|now left]. }
  assert (N1 : NoDup (insertions x q)) by (apply insertions_nodup, P; now left).
  assert (N2 : NoDup (flat_map (insertions x) L)) by (apply IH; intros; apply P; now right). clear -DJ N1 N2.
  induction N1 as [|a l Na N1 IH]; [exact N2|]. cbn [app]. constructor.
  - rewrite in_app_iff. intros [I|I]; [contradiction|]. apply (DJ a); [now left|exact I].
  - apply IH. intros b Hb. apply DJ. now right.
Qed.

Lemma inversions_sorted n : forall s, inversions (seq s n) = 0%nat.
Proof.
  induction n as [|n IH]; intros s; [reflexivity|]. cbn [seq inversions]. rewrite IH, Nat.add_0_r.
  assert (E : filter (fun y => Nat.ltb y s) (seq (S s) n) = []); [|now rewrite E].
  destruct (filter _ _) as [|y l] eqn:E; [reflexivity|exfalso]. assert (I : In y (y :: l)) by now left. rewrite <- E in I. apply filter_In in I.
  destruct I as [I1 I2]. apply in_seq in I1. apply Nat.ltb_lt in I2. lia.
Qed.

(** Products *)
Lemma rprod_ext {A} (f g : A -> R) l : (forall x, In x l -> f x = g x) -> rprod f l = rprod g l.
Proof. induction l as [|a l IH]; intros H; [reflexivity|]. unfold rprod in *. cbn. rewrite H, IH; auto; [intros; apply H; now right|now left]. Qed.
Lemma rprod_mult {A} (f g : A -> R) l : rprod (fun x => f x * g x) l = rprod f l * rprod g l.
Proof. induction l as [|a l IH]; unfold rprod in *; cbn; [ring|]. rewrite IH. ring. Qed.
Lemma rprod_perm {A} (f : A -> R) l m : Permutation l m -> rprod f l = rprod f m.
Proof. unfold rprod. induction 1; cbn; [reflexivity|now rewrite IHPermutation|ring|congruence]. Qed.
Lemma rprod_map {A B} (f : B -> R) (g : A -> B) l : rprod (fun x => f (g x)) l = rprod f (map g l).
Proof. induction l as [|a l IH]; [reflexivity|]. unfold rprod in *. cbn. now rewrite IH. Qed.
Lemma rprod_zero {A} (f : A -> R) l x : In x l -> f x = 0 -> rprod f l = 0.
Proof. induction l as [|a l IH]; intros H E; [destruct H|]. unfold rprod in *. cbn. destruct H as [->|H]; [rewrite E; ring|]. rewrite IH by auto. ring. Qed.
Lemma rprod_one {A} (f : A -> R) l : (forall x, In x l -> f x = 1) -> rprod f l = 1.
Proof. induction l as [|a l IH]; intros H; [reflexivity|]. unfold rprod in *. cbn. rewrite H, IH; auto; [ring|intros; apply H; now right|now left]. Qed.
Lemma rprod_neq0 {A} (f : A -> R) l : (forall x, In x l -> f x <> 0) -> rprod f l <> 0.
Proof. induction l as [|a l IH]; intros H; unfold rprod in *; cbn; [lra|]. apply Rmult_integral_contrapositive. split; [apply H; now left|apply IH; intros; apply H; now right]. Qed.

Lemma nth_all (p : list nat) n : length p = n -> map (fun i => nth i p 0%nat) (seq 0 n) = p.
Proof.
  intros <-. induction p as [|x p IH]; [reflexivity|]. cbn [length seq map nth]. f_equal. rewrite <- seq_shift, map_map. exact IH.
Qed.
Lemma perm_length d p : In p (perms (seq 0 d)) -> length p = d.
Proof. intros H. apply perms_perm, Permutation_length in H. rewrite seq_length in H. auto. Qed.

(** Scaling rows and columns. *)
Lemma det_ext d M N : (forall i j, (i < d)%nat -> (j < d)%nat -> M i j = N i j) -> det d M = det d N.
Proof.
  intros H. unfold det. apply rsum_ext. intros p Hp. f_equal. apply rprod_ext. intros i Hi. apply in_seq0 in Hi. apply H; [exact Hi|].
  pose proof (perm_length d p Hp) as L. pose proof (perms_perm _ _ Hp) as P. apply in_seq0. eapply Permutation_in; [apply Permutation_sym, P|]. apply nth_In. lia.
Qed.
Lemma det_scale d a b M : det d (fun i j => a i * M i j * b j) = rprod a (seq 0 d) * rprod b (seq 0 d) * det d M.
Proof.
  unfold det. rewrite <- rsum_mult. apply rsum_ext. intros p Hp.
  rewrite rprod_mult, rprod_mult. rewrite (rprod_map b (fun i => nth i p 0%nat)), nth_all by (now apply perm_length).
  rewrite <- (rprod_perm b _ _ (perms_perm _ _ Hp)). ring.
Qed.

(** A permutation of 0..d-1 that never decreases a numbering with strict increase off the diagonal is the identity. *)
Lemma rank_sum_lt (f g : nat -> nat) l x : (forall i, In i l -> (f i <= g i)%nat) -> In x l -> (f x < g x)%nat ->
  (list_sum (map f l) < list_sum (map g l))%nat.
Proof.
  induction l as [|a l IH]; intros H I L; [destruct I|]. unfold list_sum in *. cbn [map fold_right]. pose proof (H a (or_introl eq_refl)).
  assert (LE : (fold_right plus 0 (map f l) <= fold_right plus 0 (map g l))%nat).
  { clear -H. assert (K : forall i, In i l -> (f i <= g i)%nat) by (intros; apply H; now right). clear H. induction l as [|b l IH]; cbn; [lia|].
    pose proof (K b (or_introl eq_refl)). specialize (IH (fun i Hi => K i (or_intror Hi))). lia. }
  destruct I as [->|I]; [lia|]. specialize (IH (fun i Hi => H i (or_intror Hi)) I L). lia.
Qed.
Lemma list_sum_perm l m : Permutation l m -> list_sum l = list_sum m.
Proof. unfold list_sum. induction 1; cbn; lia. Qed.

Lemma perm_rank_id d r (B : rmat) p : In p (perms (seq 0 d)) ->
  (forall i, (i < d)%nat -> nth i p 0%nat = i \/ (r i < r (nth i p 0%nat))%nat) -> p = seq 0 d.
Proof.
  intros Hp H. pose proof (perm_length d p Hp) as L. apply perms_perm in Hp.
  assert (K : forall i, (i < d)%nat -> nth i p 0%nat = i).
  { intros i Hi. destruct (H i Hi) as [E|LT]; [exact E|exfalso].
    assert (S1 : (list_sum (map r (seq 0 d)) < list_sum (map (fun i => r (nth i p 0%nat)) (seq 0 d)))%nat).
    { apply rank_sum_lt with i; [|now apply in_seq0|exact LT]. intros j Hj. apply in_seq0 in Hj. destruct (H j Hj) as [->|]; lia. }
    rewrite <- (map_map (fun i => nth i p 0%nat) r), nth_all in S1 by exact L.
    rewrite (list_sum_perm (map r (seq 0 d)) (map r p)) in S1 by (now apply Permutation_map). lia. }
  rewrite <- (nth_all p d L). rewrite <- (map_id (seq 0 d)) at 2. apply map_ext_in. intros i Hi. apply in_seq0 in Hi. now apply K.
Qed.

(** Specification: B has no cycle. *)
Definition acyclic_weights (d : nat) (B : rmat) : Prop := acyclic (fun i j => (i < d)%nat /\ (j < d)%nat /\ B i j <> 0).

Lemma weights_rank d B : acyclic_weights d B -> exists r : nat -> nat, forall i j, (i < d)%nat -> (j < d)%nat -> B i j <> 0 -> (r i < r j)%nat.
Proof.
  intros HA. set (E := fun i j => Nat.ltb i d && Nat.ltb j d && (if Req_EM_T (B i j) 0 then false else true)).
  assert (EE : forall i j, E i j = true <-> (i < d)%nat /\ (j < d)%nat /\ B i j <> 0).
  { intros i j. unfold E. rewrite !andb_true_iff, !Nat.ltb_lt. destruct (Req_EM_T (B i j) 0); intuition congruence. }
  destruct (relation_rank d E) as (r & Hr).
  - intros a b H. apply EE in H. tauto.
  - intros a (b & H1 & H2). apply (HA a). exists b. split; [now apply EE|]. eapply GraphProofs.reach_mono; [|exact H2]. intros x y H. now apply EE.
  - exists r. intros i j Hi Hj N. apply Hr, EE. auto.
Qed.

Lemma rsum_single {A} (f : A -> R) l x : NoDup l -> In x l -> (forall y, In y l -> y <> x -> f y = 0) -> rsum f l = f x.
Proof.
  induction 1 as [|a l N ND IH]; intros I H; [destruct I|]. rewrite rsum_cons. destruct I as [->|I].
  - rewrite (rsum_ext f (fun _ => 0)); [rewrite rsum_0; ring|]. intros y Hy. apply H; [now right|]. intros ->. contradiction.
  - rewrite IH; [|exact I|intros; apply H; [now right|assumption]]. rewrite (H a); [ring|now left|]. intros ->. contradiction.
Qed.

Lemma det_acyclic d B : acyclic_weights d B -> det d (eye_minus B) = 1.
Proof.
  intros HA. destruct (weights_rank d B HA) as (r & Hr). assert (D0 : forall i, (i < d)%nat -> B i i = 0).
  { intros i Hi. destruct (Req_dec (B i i) 0) as [|N]; [assumption|]. pose proof (Hr i i Hi Hi N). lia. }
  unfold det. rewrite (rsum_single _ _ (seq 0 d)).
  - rewrite inversions_sorted. cbn [pow]. rewrite rprod_one; [ring|]. intros i Hi. apply in_seq0 in Hi. rewrite seq_nth by exact Hi. cbn [plus].
    unfold eye_minus, eye. rewrite Nat.eqb_refl, D0 by exact Hi. ring.
  - apply perms_nodup, seq_NoDup.
  - apply perm_perms, Permutation_refl.
  - intros p Hp Ne. rename Ne into NE0.
    assert (NE : ~ (forall i, (i < d)%nat -> nth i p 0%nat = i \/ (r i < r (nth i p 0%nat))%nat)) by (intros K; apply NE0; now apply (perm_rank_id d r B)).
    assert (X : exists i, In i (seq 0 d) /\ ~ (nth i p 0%nat = i \/ (r i < r (nth i p 0%nat))%nat)).
    { destruct (Exists_dec (fun i => ~ (nth i p 0%nat = i \/ (r i < r (nth i p 0%nat))%nat)) (seq 0 d)) as [Ex|Nx].
      - intros i. destruct (Nat.eq_dec (nth i p 0%nat) i), (lt_dec (r i) (r (nth i p 0%nat))); tauto.
      - apply Exists_exists in Ex. exact Ex.
      - exfalso. apply NE. intros i Hi. destruct (Nat.eq_dec (nth i p 0%nat) i) as [E|N1]; [now left|]. destruct (lt_dec (r i) (r (nth i p 0%nat))) as [L|N2]; [now right|].
        exfalso. apply Nx. apply Exists_exists. exists i. split; [now apply in_seq0|tauto]. }
    destruct X as (i & Hi & Ni). rewrite (rprod_zero _ _ i Hi); [ring|]. apply in_seq0 in Hi.
    assert (Hn : (nth i p 0 < d)%nat) by (apply in_seq0; eapply Permutation_in; [apply Permutation_sym, perms_perm, Hp|apply nth_In; rewrite (perm_length d p Hp); exact Hi]).
    unfold eye_minus, eye. destruct (Nat.eqb_spec i (nth i p 0%nat)) as [E|_]; [exfalso; apply Ni; now left|].
    destruct (Req_dec (B i (nth i p 0%nat)) 0) as [->|N]; [ring|]. exfalso. apply Ni. right. now apply Hr.
Qed.
