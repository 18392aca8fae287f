(** Sums over index ranges (the counting loops of the code). *)
From Verif Require Import Base EdgeModel GraphModel.
Local Open Scope Z_scope.

Lemma sum_over_acc l f s : fold_left (fun s k => s + f k) l s = s + sum_over l f.
Proof.
  unfold sum_over. revert s. induction l as [|a l IH]; cbn; intros s; [lia|].
  rewrite (IH (s + f a)). rewrite (IH (f a)). lia.
Qed.

Lemma sum_over_nil f : sum_over [] f = 0.
Proof. reflexivity. Qed.

Lemma sum_over_cons a l f : sum_over (a :: l) f = f a + sum_over l f.
Proof. unfold sum_over at 1. cbn [fold_left]. rewrite sum_over_acc. lia. Qed.

Lemma sum_over_app l1 l2 f : sum_over (l1 ++ l2) f = sum_over l1 f + sum_over l2 f.
Proof. induction l1 as [|a l IH]; cbn [app]; rewrite ?sum_over_nil, ?sum_over_cons; lia. Qed.

Lemma sum_over_ext l f g : (forall k, In k l -> f k = g k) -> sum_over l f = sum_over l g.
Proof.
  induction l as [|a l IH]; intros H; [reflexivity|]. rewrite !sum_over_cons.
  rewrite H by now left. rewrite IH; [reflexivity|]. intros; apply H; now right.
Qed.

Lemma sum_over_plus l f g : sum_over l (fun k => f k + g k) = sum_over l f + sum_over l g.
Proof. induction l as [|a l IH]; rewrite ?sum_over_nil, ?sum_over_cons; lia. Qed.

Lemma sum_over_le l f g : (forall k, In k l -> f k <= g k) -> sum_over l f <= sum_over l g.
Proof.
  induction l as [|a l IH]; intros H; rewrite ?sum_over_nil, ?sum_over_cons; [lia|].
  specialize (IH (fun k Hk => H k (or_intror Hk))). specialize (H a (or_introl eq_refl)). lia.
Qed.

Lemma sum_over_nonneg l f : (forall k, In k l -> 0 <= f k) -> 0 <= sum_over l f.
Proof.
  intros H. assert (E : sum_over l (fun _ => 0) = 0).
  { clear. induction l; rewrite ?sum_over_nil, ?sum_over_cons; lia. }
  rewrite <- E. now apply sum_over_le.
Qed.

Lemma sum_over_const l c : sum_over l (fun _ => c) = c * Z.of_nat (length l).
Proof. induction l as [|a l IH]; rewrite ?sum_over_nil, ?sum_over_cons; cbn [length]; lia. Qed.

Lemma sum_over_zero l f : (forall k, In k l -> f k = 0) -> sum_over l f = 0.
Proof.
  intros H. rewrite (sum_over_ext l f (fun _ => 0) H). rewrite sum_over_const. lia.
Qed.

Lemma sum_over_zero_inv l f : (forall k, In k l -> 0 <= f k) -> sum_over l f = 0 -> forall k, In k l -> f k = 0.
Proof.
  induction l as [|a l IH]; intros Hp H k []; rewrite sum_over_cons in H.
  - subst a. assert (0 <= sum_over l f) by (apply sum_over_nonneg; intros; apply Hp; now right).
    specialize (Hp k (or_introl eq_refl)). lia.
  - assert (0 <= sum_over l f) by (apply sum_over_nonneg; intros; apply Hp; now right).
    pose proof (Hp a (or_introl eq_refl)). apply IH; auto; [intros; apply Hp; now right|lia].
Qed.

Lemma sum_over_seq_S s n f : sum_over (seq s (S n)) f = sum_over (seq s n) f + f (s + n)%nat.
Proof. rewrite seq_S, sum_over_app, sum_over_cons, sum_over_nil. lia. Qed.

Lemma sum_over_swap l1 l2 (f : nat -> nat -> Z) :
  sum_over l1 (fun i => sum_over l2 (fun j => f i j)) = sum_over l2 (fun j => sum_over l1 (fun i => f i j)).
Proof.
  induction l1 as [|a l IH]; [rewrite sum_over_nil, sum_over_zero; auto|].
  rewrite sum_over_cons, IH, <- sum_over_plus. apply sum_over_ext. intros. now rewrite sum_over_cons.
Qed.

(** Sum over the pairs i < j < n. *)
Definition sum_pairs (n : nat) (f : nat -> nat -> Z) : Z :=
  sum_over (seq 0 n) (fun i => sum_over (seq (S i) (n - S i)) (fun j => f i j)).

Lemma sum_pairs_S n f : sum_pairs (S n) f = sum_pairs n f + sum_over (seq 0 n) (fun i => f i n).
Proof.
  unfold sum_pairs. rewrite sum_over_seq_S. cbn [plus].
  rewrite (sum_over_zero (seq (S n) (S n - S n))).
  2:{ rewrite Nat.sub_diag. cbn. tauto. }
  rewrite Z.add_0_r, <- sum_over_plus. apply sum_over_ext. intros i Hi. apply in_seq in Hi.
  replace (S n - S i)%nat with (S (n - S i)) by lia. rewrite sum_over_seq_S.
  do 2 f_equal. lia.
Qed.

Lemma sum_pairs_ext n f g : (forall i j, (i < j)%nat -> (j < n)%nat -> f i j = g i j) -> sum_pairs n f = sum_pairs n g.
Proof.
  intros H. unfold sum_pairs. apply sum_over_ext. intros i Hi. apply sum_over_ext. intros j Hj.
  apply in_seq in Hi, Hj. apply H; lia.
Qed.

Lemma sum_pairs_le n f g : (forall i j, (i < j)%nat -> (j < n)%nat -> f i j <= g i j) -> sum_pairs n f <= sum_pairs n g.
Proof.
  intros H. unfold sum_pairs. apply sum_over_le. intros i Hi. apply sum_over_le. intros j Hj.
  apply in_seq in Hi, Hj. apply H; lia.
Qed.

Lemma sum_pairs_plus n f g : sum_pairs n (fun i j => f i j + g i j) = sum_pairs n f + sum_pairs n g.
Proof.
  unfold sum_pairs. rewrite <- sum_over_plus. apply sum_over_ext. intros. apply sum_over_plus.
Qed.

Lemma sum_pairs_const n c : 2 * sum_pairs n (fun _ _ => c) = c * (Z.of_nat n * (Z.of_nat n - 1)).
Proof.
  induction n as [|n IH]; [unfold sum_pairs; cbn; lia|].
  rewrite sum_pairs_S, sum_over_const, seq_length. nia.
Qed.

Lemma sum_pairs_zero_inv n f : (forall i j, (i < j)%nat -> (j < n)%nat -> 0 <= f i j) -> sum_pairs n f = 0 ->
  forall i j, (i < j)%nat -> (j < n)%nat -> f i j = 0.
Proof.
  intros Hp H i j Hij Hj. unfold sum_pairs in H.
  assert (Hi : sum_over (seq (S i) (n - S i)) (fun j => f i j) = 0).
  { apply (sum_over_zero_inv (seq 0 n) (fun i => sum_over (seq (S i) (n - S i)) (fun j => f i j))); auto.
    - intros k Hk. apply sum_over_nonneg. intros l Hl. apply in_seq in Hk, Hl. apply Hp; lia.
    - apply in_seq. lia. }
  apply (sum_over_zero_inv (seq (S i) (n - S i)) (fun j => f i j)); auto.
  - intros k Hk. apply in_seq in Hk. apply Hp; lia.
  - apply in_seq. lia.
Qed.

(** Double sum of a symmetric function with zero diagonal. *)
Lemma sum_square_sym n f :
  (forall i, (i < n)%nat -> f i i = 0) ->
  (forall i j, (i < n)%nat -> (j < n)%nat -> f i j = f j i) ->
  sum_over (seq 0 n) (fun i => sum_over (seq 0 n) (fun j => f i j)) = 2 * sum_pairs n f.
Proof.
  induction n as [|n IH]; intros Hd Hs; [reflexivity|].
  rewrite sum_pairs_S, sum_over_seq_S. cbn [plus].
  rewrite (sum_over_ext (seq 0 n) (fun i => sum_over (seq 0 (S n)) (fun j => f i j))
             (fun i => sum_over (seq 0 n) (fun j => f i j) + f i n)).
  2:{ intros. now rewrite sum_over_seq_S. }
  rewrite sum_over_plus, IH by (intros; auto).
  rewrite sum_over_seq_S. cbn [plus]. rewrite (Hd n) by lia.
  rewrite (sum_over_ext (seq 0 n) (fun j => f n j) (fun j => f j n)).
  2:{ intros k Hk. apply in_seq in Hk. apply Hs; lia. }
  lia.
Qed.

Lemma length_flat_map_sum {A} (h : nat -> list A) l :
  Z.of_nat (length (flat_map h l)) = sum_over l (fun k => Z.of_nat (length (h k))).
Proof.
  induction l as [|a l IH]; cbn [flat_map]; [reflexivity|]. rewrite app_length, sum_over_cons. lia.
Qed.
