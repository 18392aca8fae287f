(** Proofs about the LiNGAM model. *)
From Verif Require Import Base UtilsModel GraphSpec GraphProofs RankLib UtilsProofs LingamModel LingamSpec.
From Coq Require Import Permutation.
Local Open Scope Z_scope.

(** ** Lists *)
Definition pair_dec (p q : nat * nat) : {p = q} + {p <> q}.
Proof. decide equality; apply Nat.eq_dec. Defined.
Lemma in_others U j x : In x (others U j) <-> In x U /\ x <> j.
Proof. unfold others. rewrite filter_In, negb_true_iff, Nat.eqb_neq. reflexivity. Qed.
Lemma others_NoDup U j : NoDup U -> NoDup (others U j).
Proof. apply NoDup_filter. Qed.
Lemma others_perm U m : NoDup U -> In m U -> Permutation U (m :: others U m).
Proof.
  intros ND Hm. apply NoDup_Permutation; [exact ND|constructor; [rewrite in_others; tauto|now apply others_NoDup]|].
  intros x. cbn [In]. rewrite in_others. destruct (Nat.eq_dec m x) as [->|N]; intuition congruence.
Qed.
Lemma others_length U m : NoDup U -> In m U -> length U = S (length (others U m)).
Proof. intros ND Hm. now rewrite (Permutation_length (others_perm U m ND Hm)). Qed.
Lemma in_all_pairs n i j : In (i, j) (all_pairs n) <-> (i < n)%nat /\ (j < n)%nat.
Proof.
  unfold all_pairs. rewrite in_flat_map. split.
  - intros (a & Ha & K). apply in_map_iff in K. destruct K as (b & E & Hb). injection E as <- <-. now rewrite !in_seq0 in *.
  - intros [Hi Hj]. exists i. rewrite in_seq0. split; [exact Hi|]. apply in_map_iff. exists j. rewrite in_seq0. auto.
Qed.
Lemma NoDup_all_pairs n : NoDup (all_pairs n).
Proof.
  unfold all_pairs. assert (ND : NoDup (seq 0 n)) by apply seq_NoDup. revert ND. generalize (seq 0 n) at 1 3. intros l. induction l as [|a l IH]; intros ND; cbn; [constructor|].
  inversion ND as [|? ? N1 N2]; subst. specialize (IH N2).
  assert (K : forall x, In x (map (fun j => (a, j)) (seq 0 n)) -> ~ In x (flat_map (fun i => map (fun j => (i, j)) (seq 0 n)) l)).
  { intros x H1 H2. apply in_map_iff in H1. destruct H1 as (j & <- & _). apply in_flat_map in H2. destruct H2 as (b & Hb & H2). apply in_map_iff in H2. destruct H2 as (j' & E & _). injection E as -> _. auto. }
  assert (NM : NoDup (map (fun j => (a, j)) (seq 0 n))) by (apply FinFun.Injective_map_NoDup; [intros ? ? E; now injection E|apply seq_NoDup]).
  revert NM K. generalize (map (fun j => (a, j)) (seq 0 n)). intros m. induction m as [|x m IHm]; intros NM K; cbn; [exact IH|].
  inversion NM as [|? ? M1 M2]; subst. constructor.
  - rewrite in_app_iff. intros [H|H]; [auto|]. apply (K x); [now left|exact H].
  - apply IHm; [exact M2|]. intros y Hy. apply K. now right.
Qed.
Lemma pair_eqb_iff p q : pair_eqb p q = true <-> p = q.
Proof. destruct p, q. unfold pair_eqb. cbn. rewrite andb_true_iff, !Nat.eqb_eq. split; [intros [-> ->]|intros E; injection E]; auto. Qed.
Lemma swap_swap p : swap (swap p) = p.
Proof. now destruct p. Qed.
Lemma in_swap l a b : In (a, b) (map swap l) <-> In (b, a) l.
Proof.
  rewrite in_map_iff. split; [intros ([x y] & E & K); cbn in E; injection E as -> ->; exact K|]. intros K. exists (b, a). auto.
Qed.
Lemma occ_app l1 l2 p : occurrences (l1 ++ l2) p = (occurrences l1 p + occurrences l2 p)%nat.
Proof. unfold occurrences. now rewrite filter_app, app_length. Qed.
Lemma occ_0 l p : occurrences l p = 0%nat <-> ~ In p l.
Proof.
  unfold occurrences. rewrite length_zero_iff_nil. split.
  - intros E H. assert (K : In p (filter (pair_eqb p) l)) by (apply filter_In; split; [exact H|now apply pair_eqb_iff]). now rewrite E in K.
  - intros N. destruct (filter (pair_eqb p) l) as [|q r] eqn:E; [reflexivity|]. exfalso. assert (K : In q (filter (pair_eqb p) l)) by (rewrite E; now left).
    apply filter_In in K. destruct K as [K1 K2]. apply pair_eqb_iff in K2. subst q. auto.
Qed.
Lemma occ_NoDup l p : NoDup l -> (occurrences l p <= 1)%nat.
Proof.
  intros ND. induction ND as [|a l N ND IH]; [auto|]. unfold occurrences in *. cbn. destruct (pair_eqb p a) eqn:E; [|exact IH].
  apply pair_eqb_iff in E. subst a. apply occ_0 in N. unfold occurrences in N. cbn [length]. lia.
Qed.
Lemma occ_1 l p : NoDup l -> occurrences l p = 1%nat <-> In p l.
Proof.
  intros ND. pose proof (occ_NoDup l p ND). pose proof (occ_0 l p). destruct (in_dec pair_dec p l) as [I|I].
  - split; [auto|]. intros _. destruct (occurrences l p) as [|[|k]]; [exfalso; now apply (proj1 H0)|reflexivity|lia].
  - apply H0 in I as I'. rewrite I'. split; [discriminate|contradiction].
Qed.
Lemma in_unique n c l p : In p (unique_counts n c l) <-> In p (all_pairs n) /\ In p l /\ c (occurrences l p) = true.
Proof.
  unfold unique_counts. rewrite filter_In, andb_true_iff, negb_true_iff, Nat.eqb_neq. pose proof (occ_0 l p) as K.
  destruct (in_dec pair_dec p l) as [I|I]; tauto.
Qed.
Lemma in_where_val n k v i j : In (i, j) (where_val n k v) <-> (i < n)%nat /\ (j < n)%nat /\ k i j = Some v.
Proof.
  unfold where_val. rewrite filter_In, in_all_pairs. cbn [fst snd]. unfold is_val.
  destruct (k i j) as [z|]; [rewrite Z.eqb_eq; split; [intros [[? ?] ->]; auto|intros (? & ? & E); injection E; auto]|split; [intros [_ K]; discriminate|intros (_ & _ & K); discriminate]].
Qed.
Lemma where_val_NoDup n k v : NoDup (where_val n k v).
Proof. apply NoDup_filter, NoDup_all_pairs. Qed.
Lemma NoDup_swap l : NoDup l -> NoDup (map swap l).
Proof. apply FinFun.Injective_map_NoDup. intros p q E. apply (f_equal swap) in E. now rewrite !swap_swap in E. Qed.

(** ** before *)
Lemma before_nth l i j d : (i < j)%nat -> (j < length l)%nat -> before l (nth i l d) (nth j l d).
Proof.
  intros Hij Hj. destruct (nth_split l d Hj) as (l1 & l2 & E & L). set (y := nth j l d) in *.
  assert (Hi : (i < length l1)%nat) by lia. destruct (nth_split l1 d Hi) as (m1 & m2 & E1 & L1).
  exists m1, m2, l2. rewrite E at 1. rewrite E, app_nth1 by exact Hi. rewrite E1 at 1. now rewrite <- app_assoc.
Qed.
Lemma before_in l a b : before l a b -> In a l /\ In b l.
Proof. intros (l1 & l2 & l3 & ->). rewrite !in_app_iff. cbn [In]. rewrite !in_app_iff. cbn [In]. tauto. Qed.
Lemma before_app_l l m a b : before l a b -> before (l ++ m) a b.
Proof. intros (l1 & l2 & l3 & ->). exists l1, l2, (l3 ++ m). repeat (rewrite <- app_assoc; cbn). reflexivity. Qed.
Lemma before_last l a b : In a l -> before (l ++ [b]) a b.
Proof. intros Ha. apply in_split in Ha. destruct Ha as (l1 & l2 & ->). exists l1, l2, []. now rewrite <- app_assoc. Qed.
(** Position in the list: a topological numbering. *)
Fixpoint pos (l : list nat) (x : nat) : nat := match l with [] => 0%nat | y :: r => if Nat.eqb x y then 0%nat else S (pos r x) end.
Lemma pos_app l m x : ~ In x l -> pos (l ++ m) x = (length l + pos m x)%nat.
Proof.
  induction l as [|y l IH]; intros N; [reflexivity|]. cbn. destruct (Nat.eqb_spec x y) as [->|]; [exfalso; apply N; now left|]. rewrite IH; [reflexivity|]. intros K. apply N. now right.
Qed.
Lemma before_pos l a b : NoDup l -> before l a b -> (pos l a < pos l b)%nat.
Proof.
  intros ND (l1 & l2 & l3 & ->). assert (Na : ~ In a l1 /\ ~ In a (l2 ++ b :: l3)).
  { apply NoDup_remove_2 in ND. rewrite in_app_iff in ND. tauto. }
  assert (Nb : ~ In b (l1 ++ a :: l2)). { replace (l1 ++ a :: l2 ++ b :: l3) with ((l1 ++ a :: l2) ++ b :: l3) in ND by (now rewrite <- app_assoc). apply NoDup_remove_2 in ND. rewrite in_app_iff in ND. tauto. }
  rewrite pos_app by tauto. cbn. rewrite Nat.eqb_refl. rewrite pos_app by (rewrite in_app_iff in Nb; tauto). cbn.
  destruct (Nat.eqb_spec b a) as [->|N]; [exfalso; apply Nb; rewrite in_app_iff; cbn; tauto|]. lia.
Qed.
Lemma rank_acyclic' {A} (R : A -> A -> Prop) (r : A -> nat) : (forall a b, R a b -> (r a < r b)%nat) -> acyclic R.
Proof.
  intros H. assert (K : forall a b, reach R a b -> (r a <= r b)%nat) by (induction 1 as [|a b c Q _ IH]; [lia|apply H in Q; lia]).
  intros a (b & Q1 & Q2). apply H in Q1. apply K in Q2. lia.
Qed.
Lemma reach1_rank {A} (R : A -> A -> Prop) (r : A -> nat) : (forall a b, R a b -> (r a < r b)%nat) -> forall a b, reach1 R a b -> (r a < r b)%nat.
Proof.
  intros H. assert (K : forall a b, reach R a b -> (r a <= r b)%nat) by (induction 1 as [|a b c Q _ IH]; [lia|apply H in Q; lia]).
  intros a b (c & Q1 & Q2). apply H in Q1. apply K in Q2. lia.
Qed.

(** ** The adjacency matrix *)
Lemma assign_other t : forall ps cs B a b, (a <> t \/ ~ In b ps) -> assign_row B t ps cs a b = B a b.
Proof.
  induction ps as [|p ps IH]; intros cs B a b N; [reflexivity|]. destruct cs as [|c cs]; [reflexivity|]. unfold assign_row in *. cbn [combine fold_left fst snd].
  rewrite IH by (cbn [In] in N; tauto). apply upd_other. cbn [In] in N. destruct N as [N|N]; [now left|right; intros ->; apply N; now left].
Qed.
Lemma assign_same t : forall ps cs B q, NoDup ps -> length cs = length ps -> (q < length ps)%nat -> assign_row B t ps cs t (nth q ps 0%nat) = nth q cs 0.
Proof.
  induction ps as [|p ps IH]; intros cs B q ND L Hq; [cbn in Hq; lia|]. destruct cs as [|c cs]; [discriminate|]. inversion ND as [|? ? N1 N2]; subst.
  change (assign_row B t (p :: ps) (c :: cs)) with (assign_row (upd B t p c) t ps cs). destruct q as [|q]; cbn [nth].
  - rewrite assign_other by auto. apply upd_same.
  - apply IH; auto; cbn [length] in *; lia.
Qed.
Section Adj.
Variable lasso : lassoer.
Variable k : option knw.
Variable order : list nat.
Hypothesis ND : NoDup order.
Definition preds (i : nat) : list nat := filter (allowed k (nth i order 0%nat)) (firstn i order).
Lemma preds_NoDup i : NoDup (preds i).
Proof. apply NoDup_filter. rewrite <- (firstn_skipn i order) in ND. revert ND. generalize (firstn i order) (skipn i order). intros l m. induction l as [|x l IH]; cbn; intros K; [constructor|]. inversion K as [|? ? K1 K2]; subst. constructor; [intros H; apply K1, in_or_app; now left|auto]. Qed.
Lemma adjacency_run m : (m < length order)%nat -> let B := fold_left (adjacency_step lasso k order) (seq 1 m) zeros in
  (forall a b, B a b <> 0 -> exists i, (1 <= i <= m)%nat /\ a = nth i order 0%nat /\ In b (preds i)) /\
  ((forall ps t, length (lasso ps t) = length ps) -> forall i q, (1 <= i <= m)%nat -> (q < length (preds i))%nat ->
     B (nth i order 0%nat) (nth q (preds i) 0%nat) = nth q (lasso (preds i) (nth i order 0%nat)) 0).
Proof.
  induction m as [|m IH]; intros Hm B.
  - split; [intros a b H; exfalso; now apply H|intros; lia].
  - destruct (IH ltac:(lia)) as [I1 I2]. subst B. rewrite seq_S, fold_left_app. cbn [fold_left]. set (B := fold_left (adjacency_step lasso k order) (seq 1 m) zeros) in *.
    replace (1 + m)%nat with (S m) by lia. set (t := nth (S m) order 0%nat) in *.
    assert (EB : adjacency_step lasso k order B (S m) = assign_row B t (preds (S m)) (lasso (preds (S m)) t)).
    { unfold adjacency_step, preds. fold t. destruct (filter (allowed k t) (firstn (S m) order)); reflexivity. }
    rewrite EB. split.
    + intros a b H. destruct (Nat.eq_dec a t) as [->|Na]; [destruct (in_dec Nat.eq_dec b (preds (S m))) as [I|I]|].
      * exists (S m). split; [lia|]. split; [reflexivity|exact I].
      * rewrite assign_other in H by auto. destruct (I1 t b H) as (i & K1 & K2 & K3). exists i. split; [lia|auto].
      * rewrite assign_other in H by auto. destruct (I1 a b H) as (i & K1 & K2 & K3). exists i. split; [lia|auto].
    + intros HL i q Hi Hq. destruct (Nat.eq_dec i (S m)) as [->|Ni].
      * apply assign_same; auto. apply preds_NoDup.
      * rewrite assign_other; [apply I2; auto; lia|]. left. intros E. apply Ni. apply (proj1 (NoDup_nth order 0%nat) ND i (S m)); [lia|lia|exact E].
Qed.
Lemma adjacency_arrow a b : arrow (estimate_adjacency_matrix lasso k order) a b -> before order a b /\ allowed k b a = true.
Proof.
  unfold arrow, estimate_adjacency_matrix. destruct order as [|x o] eqn:Eo; [intros H; exfalso; now apply H|]. rewrite <- Eo in *.
  intros H. destruct (adjacency_run (length order - 1)) as [I1 _]; [rewrite Eo; cbn; lia|]. destruct (I1 b a H) as (i & K1 & -> & K3).
  unfold preds in K3. apply filter_In in K3. destruct K3 as [K3 K4]. split; [|exact K4]. apply (In_nth _ _ 0%nat) in K3. destruct K3 as (j & Hj & <-).
  rewrite firstn_length in Hj. rewrite <- (firstn_skipn i order) at 1. rewrite <- (firstn_skipn i order) at 3. rewrite firstn_skipn.
  replace (nth j (firstn i order) 0%nat) with (nth j order 0%nat); [apply before_nth; lia|].
  rewrite <- (firstn_skipn i order) at 1. rewrite app_nth1; [reflexivity|rewrite firstn_length; lia].
Qed.
End Adj.
