(** C264: sorting edges. *)
From Verif Require Import Base EdgeModel EdgeOrdModel.
From Coq Require Import Permutation Sorted.

Definition same_nodes (a b : edge) : Prop := e_node1 a = e_node1 b /\ e_node2 a = e_node2 b.
(** Neither edge is first in one end and last in the other. *)
Definition aligned (a b : edge) : Prop :=
  (e_node1 a <= e_node1 b /\ e_node2 a <= e_node2 b)%nat \/ (e_node1 b <= e_node1 a /\ e_node2 b <= e_node2 a)%nat.

Lemma lt_spec a b : edge_lt a b = true <-> (e_node1 a < e_node1 b \/ e_node2 a < e_node2 b)%nat.
Proof. unfold edge_lt. rewrite orb_true_iff, !Nat.ltb_lt. reflexivity. Qed.

(** < is irreflexive, and two edges neither of which is less join the same nodes the same way round. *)
Theorem C264_lt_connected : forall a b, edge_lt a a = false /\ (edge_lt a b = false -> edge_lt b a = false -> same_nodes a b).
Proof.
  intros a b. split; [destruct (edge_lt a a) eqn:E; [apply lt_spec in E; lia|reflexivity]|].
  intros H1 H2. assert (N1 : ~ (e_node1 a < e_node1 b \/ e_node2 a < e_node2 b)%nat) by (rewrite <- lt_spec, H1; discriminate).
  assert (N2 : ~ (e_node1 b < e_node1 a \/ e_node2 b < e_node2 a)%nat) by (rewrite <- lt_spec, H2; discriminate). split; lia.
Qed.
(** Among aligned edges < is a strict order; *)
Theorem C264_aligned_order : forall a b c, aligned a b -> aligned b c -> aligned a c ->
  (edge_lt a b = true -> edge_lt b a = false) /\ (edge_lt a b = true -> edge_lt b c = true -> edge_lt a c = true).
Proof.
  intros a b c A1 A2 A3. unfold aligned in *. split.
  - intros H. apply lt_spec in H. destruct (edge_lt b a) eqn:E; [apply lt_spec in E; lia|reflexivity].
  - rewrite !lt_spec. lia.
Qed.

Lemma run_parts (A : Type) (lt : A -> A -> bool) l : forall p, (let '(u, v) := up_run lt p l in u ++ v = l) /\ (let '(u, v) := down_run lt p l in u ++ v = l).
Proof.
  induction l as [|x r IH]; intros p; [split; reflexivity|]. cbn. destruct (IH x) as [H1 H2]. destruct (lt x p); split; try reflexivity.
  - destruct (down_run lt x r) as [u v]. cbn. now rewrite H2.
  - destruct (up_run lt x r) as [u v]. cbn. now rewrite H1.
Qed.
Lemma put_perm (A : Type) (lt : A -> A -> bool) s x : Permutation (put lt s x) (x :: s).
Proof. unfold put, insert_at. rewrite <- Permutation_middle. apply perm_skip. now rewrite firstn_skipn. Qed.
Lemma puts_perm (A : Type) (lt : A -> A -> bool) v : forall s, Permutation (fold_left (put lt) v s) (s ++ v).
Proof.
  induction v as [|x v IH]; intros s; [now rewrite app_nil_r|]. cbn. rewrite IH, put_perm. cbn. apply Permutation_middle.
Qed.
(** sort only rearranges. *)
Theorem C264_sort_permutes : forall l, Permutation (py_sort edge_lt l) l.
Proof.
  intros [|x [|y r]]; [reflexivity|reflexivity|]. cbn [py_sort]. pose proof (run_parts edge edge_lt r y) as [H1 H2]. destruct (edge_lt y x).
  - destruct (down_run edge_lt y r) as [u v]. rewrite puts_perm, <- Permutation_rev, <- H2. reflexivity.
  - destruct (up_run edge_lt y r) as [u v]. rewrite puts_perm, <- H1. reflexivity.
Qed.

(** Sorting with a comparison that is asymmetric and whose complement is transitive on P. *)
Section Sort.
Context {A : Type} (lt : A -> A -> bool) (P : A -> Prop).
Definition ler (a b : A) : Prop := lt b a = false.
Hypothesis Hasym : forall a b, P a -> P b -> lt a b = true -> lt b a = false.
Hypothesis Htrans : forall a b c, P a -> P b -> P c -> ler a b -> ler b c -> ler a c.

Lemma ss_app (s t : list A) : StronglySorted ler (s ++ t) <-> StronglySorted ler s /\ StronglySorted ler t /\ (forall a b, In a s -> In b t -> ler a b).
Proof.
  induction s as [|x s IH]; cbn.
  - split; [intros H; split; [constructor|split; [exact H|intros a b []]] | tauto].
  - split.
    + intros H. inversion H as [|? ? S F]; subst. apply IH in S. destruct S as (S1 & S2 & S3). rewrite Forall_forall in F. split; [|split; [exact S2|]].
      * constructor; [exact S1|]. rewrite Forall_forall. intros y I. apply F, in_or_app. now left.
      * intros a b [<-|I] J; [apply F, in_or_app; now right | now apply S3].
    + intros (S1 & S2 & S3). inversion S1 as [|? ? S F]; subst. rewrite Forall_forall in F. constructor; [apply IH; split; [exact S|split; [exact S2|intros a b I J; apply S3; auto]]|].
      rewrite Forall_forall. intros y I. apply in_app_or in I. destruct I as [I|I]; [now apply F | apply S3; auto].
Qed.
Lemma ss_nth s d i j : StronglySorted ler s -> (i < j < length s)%nat -> ler (nth i s d) (nth j s d).
Proof.
  intros S. revert i j. induction S as [|x s S IH F]; intros i j H; cbn in H; [lia|]. rewrite Forall_forall in F. destruct j as [|j]; [lia|]. destruct i as [|i]; cbn.
  - apply F, nth_In. lia.
  - apply IH. lia.
Qed.
Lemma bisect_spec x s : P x -> (forall y, In y s -> P y) -> StronglySorted ler s -> forall k l r, (l <= r <= length s)%nat -> (r - l <= k)%nat ->
  (forall j, (j < l)%nat -> lt x (nth j s x) = false) -> (forall j, (r <= j < length s)%nat -> lt x (nth j s x) = true) ->
  (bisect lt k l r x s <= length s)%nat /\ (forall j, (j < bisect lt k l r x s)%nat -> lt x (nth j s x) = false) /\
  (forall j, (bisect lt k l r x s <= j < length s)%nat -> lt x (nth j s x) = true).
Proof.
  intros Px Ps S. assert (N : forall j, (j < length s)%nat -> P (nth j s x)) by (intros j H; now apply Ps, nth_In).
  induction k as [|k IH]; intros l r H K Hl Hr; cbn [bisect].
  - replace r with l in Hr by lia. split; [lia|]. split; assumption.
  - destruct (Nat.ltb_spec l r) as [L|L]; [|replace r with l in Hr by lia; split; [lia|split; assumption]]. cbn zeta.
    assert (D : ((r - l) / 2 < r - l)%nat) by (apply Nat.div_lt; lia). set (m := (l + (r - l) / 2)%nat) in *. assert (M : (l <= m < r)%nat) by lia.
    destruct (lt x (nth m s x)) eqn:E; apply IH; try lia; try assumption.
    + intros j J. destruct (Nat.eq_dec j m) as [->|Q]; [exact E|]. destruct (lt x (nth j s x)) eqn:X; [reflexivity|exfalso].
      assert (ler (nth m s x) x) by (apply (Htrans _ (nth j s x)); [apply N; lia|apply N; lia|exact Px|apply ss_nth; [exact S|lia]|exact X]). unfold ler in *. congruence.
    + intros j J. destruct (Nat.eq_dec j m) as [->|Q]; [exact E|]. apply (Htrans (nth j s x) (nth m s x) x); [apply N; lia|apply N; lia|exact Px|apply ss_nth; [exact S|lia]|exact E].
Qed.
Lemma put_sorted s x : P x -> (forall y, In y s -> P y) -> StronglySorted ler s -> StronglySorted ler (put lt s x).
Proof.
  intros Px Ps S. destruct (bisect_spec x s Px Ps S (length s) 0 (length s)) as (B & B1 & B2); try lia. unfold put, insert_at. set (i := bisect lt (length s) 0 (length s) x s) in *.
  rewrite <- (firstn_skipn i s) in S. apply ss_app in S. destruct S as (S1 & S2 & S3). apply ss_app. split; [exact S1|].
  assert (Q2 : forall z, In z (skipn i s) -> ler x z).
  { intros z I. assert (I' := I). apply (In_nth _ _ x) in I. destruct I as (j & J & <-). rewrite skipn_length in J.
    assert (E : nth j (skipn i s) x = nth (i + j) s x).
    { rewrite <- (firstn_skipn i s) at 2. rewrite app_nth2; rewrite firstn_length_le by lia; [f_equal; lia|lia]. }
    rewrite E. apply Hasym; [exact Px|apply Ps, nth_In; lia|]. apply B2. lia. }
  assert (Q1 : forall y, In y (firstn i s) -> ler y x).
  { intros y I. apply (In_nth _ _ x) in I. destruct I as (j & J & <-). rewrite firstn_length_le in J by lia.
    assert (E : nth j (firstn i s) x = nth j s x) by (rewrite <- (firstn_skipn i s) at 2; rewrite app_nth1; [reflexivity|rewrite firstn_length_le; lia]).
    rewrite E. now apply B1. }
  split; [constructor; [exact S2|rewrite Forall_forall; exact Q2]|]. intros a b I [<-|J]; [now apply Q1|now apply S3].
Qed.
Lemma puts_sorted v : forall s, (forall y, In y (s ++ v) -> P y) -> StronglySorted ler s -> StronglySorted ler (fold_left (put lt) v s).
Proof.
  induction v as [|x v IH]; intros s Ps S; [exact S|]. cbn. apply IH.
  - intros y I. apply Ps. apply in_app_or in I. destruct I as [I|I]; [|apply in_or_app; right; now right].
    apply (Permutation_in _ (put_perm A lt s x)) in I. apply in_or_app. destruct I as [<-|I]; [right; now left|now left].
  - apply put_sorted; [apply Ps, in_or_app; right; now left|intros y I; apply Ps, in_or_app; now left|exact S].
Qed.
Lemma up_sorted l : forall p, (forall y, In y (p :: l) -> P y) -> StronglySorted ler (p :: fst (up_run lt p l)).
Proof.
  induction l as [|x l IH]; intros p Pl; cbn; [repeat constructor|]. destruct (lt x p) eqn:E; cbn; [repeat constructor|].
  assert (T : StronglySorted ler (x :: fst (up_run lt x l))) by (apply IH; intros y I; apply Pl; now right).
  pose proof (run_parts A lt l x) as [U _]. destruct (up_run lt x l) as [u v]. cbn in *. constructor; [exact T|]. constructor; [exact E|].
  inversion T as [|? ? S F]; subst. rewrite Forall_forall in *. intros y I. apply (Htrans p x y); [apply Pl; now left|apply Pl; right; now left| |exact E|now apply F].
  apply Pl. right. right. apply in_or_app. now left.
Qed.
Lemma down_sorted l : forall p, (forall y, In y (p :: l) -> P y) -> StronglySorted ler (rev (p :: fst (down_run lt p l))) /\ (forall y, In y (fst (down_run lt p l)) -> ler y p).
Proof.
  induction l as [|x l IH]; intros p Pl; cbn; [split; [repeat constructor|intros y []]|]. destruct (lt x p) eqn:E; cbn; [|split; [repeat constructor|intros y []]].
  assert (Q : forall y, In y (x :: l) -> P y) by (intros y I; apply Pl; now right). destruct (IH x Q) as [T L]. pose proof (run_parts A lt l x) as [_ U].
  destruct (down_run lt x l) as [u v]. cbn in *.
  assert (X : ler x p) by (apply Hasym; [apply Q; now left|apply Pl; now left|exact E]).
  assert (Y : forall y, y = x \/ In y u -> ler y p).
  { intros y [->|I]; [exact X|]. apply (Htrans y x p); [apply Q; right; rewrite <- U; apply in_or_app; now left|apply Q; now left|apply Pl; now left|now apply L|exact X]. }
  split; [|intros y [<-|I]; apply Y; auto].
  apply ss_app. split; [exact T|]. split; [repeat constructor|]. intros a b I [<-|[]]. apply Y. apply in_app_or in I. destruct I as [I|[<-|[]]]; [right; now apply in_rev|now left].
Qed.
Lemma py_sort_sorted l : (forall y, In y l -> P y) -> StronglySorted ler (py_sort lt l).
Proof.
  intros Pl. destruct l as [|x [|y r]]; [constructor|repeat constructor|]. cbn [py_sort]. pose proof (run_parts A lt r y) as [U D].
  assert (Py : forall z, In z (y :: r) -> P z) by (intros z I; apply Pl; now right). destruct (lt y x) eqn:E.
  - pose proof (down_sorted (y :: r) x Pl) as [S _]. cbn [down_run] in S. rewrite E in S. destruct (down_run lt y r) as [u v]. cbn [fst] in S. apply puts_sorted; [|exact S].
    intros z I. apply in_app_or in I. apply Pl. destruct I as [I|I]; [apply in_rev in I; destruct I as [<-|[<-|I]]; [now left|right; now left|]|]; right; right; rewrite <- D; apply in_or_app; auto.
  - pose proof (up_sorted (y :: r) x Pl) as S. cbn [up_run] in S. rewrite E in S. destruct (up_run lt y r) as [u v]. cbn [fst] in S. apply puts_sorted; [|exact S].
    intros z I. apply in_app_or in I. apply Pl. destruct I as [[<-|[<-|I]]|I]; [now left|right; now left| |]; right; right; rewrite <- U; apply in_or_app; auto.
Qed.
End Sort.

(** A list of pairwise aligned edges is sorted: nothing later is less than anything earlier. *)
Theorem C264_aligned_sorts : forall l, (forall a b, In a l -> In b l -> aligned a b) ->
  StronglySorted (fun x y => edge_lt y x = false) (py_sort edge_lt l).
Proof.
  intros l H. apply (py_sort_sorted edge_lt (fun e => In e l)); [| |auto].
  - intros a b Ia Ib. apply (C264_aligned_order a b b); auto.
  - intros a b c Ia Ib Ic. unfold ler. pose proof (H a b Ia Ib) as X. pose proof (H b c Ib Ic) as Y. pose proof (H a c Ia Ic) as Z. unfold aligned in *. intros Q1 Q2.
    assert (N1 : ~ (e_node1 b < e_node1 a \/ e_node2 b < e_node2 a)%nat) by (rewrite <- lt_spec, Q1; discriminate).
    assert (N2 : ~ (e_node1 c < e_node1 b \/ e_node2 c < e_node2 b)%nat) by (rewrite <- lt_spec, Q2; discriminate).
    destruct (edge_lt c a) eqn:E; [apply lt_spec in E; lia|reflexivity].
Qed.

(** Two edges that are not aligned are each less than the other, and sorting swaps them: what sort returns depends on the order it is given. *)
Theorem C264_not_an_order_refuted : forall a b, (e_node1 a < e_node1 b)%nat -> (e_node2 b < e_node2 a)%nat ->
  edge_lt a b = true /\ edge_lt b a = true /\ py_sort edge_lt [a; b] = [b; a] /\ py_sort edge_lt [b; a] = [a; b].
Proof.
  intros a b H1 H2. assert (X : edge_lt a b = true) by (apply lt_spec; lia). assert (Y : edge_lt b a = true) by (apply lt_spec; lia).
  split; [exact X|]. split; [exact Y|]. cbn. rewrite X, Y. split; reflexivity.
Qed.
(** So no list with two such edges has a sorted arrangement. *)
Theorem C264_no_sorted_arrangement_refuted : forall l a b, In a l -> In b l -> (e_node1 a < e_node1 b)%nat -> (e_node2 b < e_node2 a)%nat ->
  forall s, Permutation s l -> ~ StronglySorted (fun x y => edge_lt y x = false) s.
Proof.
  intros l a b Ia Ib H1 H2 s P S. apply (Permutation_in _ (Permutation_sym P)) in Ia, Ib. clear P.
  assert (X : edge_lt a b = true) by (apply lt_spec; lia). assert (Y : edge_lt b a = true) by (apply lt_spec; lia).
  induction S as [|x r S IH F]; [destruct Ia|]. rewrite Forall_forall in F. destruct Ia as [<-|Ia], Ib as [<-|Ib].
  - lia.
  - rewrite (F b Ib) in Y. discriminate.
  - rewrite (F a Ia) in X. discriminate.
  - exact (IH Ia Ib).
Qed.
Example C264_case : let a := directed_edge 0 3 in let b := undirected_edge 1 2 in let c := directed_edge 2 4 in
  py_sort edge_lt [c; b] = [b; c] /\ py_sort edge_lt [b; c] = [b; c] /\ py_sort edge_lt [a; b] = [b; a] /\ py_sort edge_lt [b; a] = [a; b] /\ aligned b c.
Proof. repeat split. left. cbn. lia. Qed.
