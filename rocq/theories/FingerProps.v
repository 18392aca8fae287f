(** C258: is the cache of other data refused? *)
From Verif Require Import Base CacheModel CacheProofs CacheProps FingerModel.
Require Import Ascii.

(** Specification: an index is at the edge of an axis of length n; the place of an index of an axis of length n1 in one of length n2,
    counted from the nearer end. *)
Definition edge_index (n i : nat) : Prop := (i < 3 \/ n - 3 <= i < n)%nat.
Definition opposite (n1 n2 i : nat) : nat := if Nat.ltb i 3 then i else (i + n2 - n1)%nat.
(** Two data sets with the same columns agree at the edges. *)
Definition same_edges (n1 n2 d : nat) (X1 X2 : mat) : Prop :=
  forall i j, edge_index n1 i -> edge_index d j -> X1 i j = X2 (opposite n1 n2 i) j.

Lemma axis_edge d j : In (Some j) (axis true d) -> edge_index d j.
Proof.
  unfold axis, edge_index. destruct (Nat.ltb_spec 6 d); cbn [andb]; intros I.
  - cbn in I. decompose [or] I; try discriminate; try contradiction; match goal with H : Some _ = Some _ |- _ => injection H as <- end; lia.
  - apply in_map_iff in I. destruct I as (k & [= ->] & I). apply in_seq in I. lia.
Qed.
Lemma shown_same n1 n2 d X1 X2 : (1000 < n1 * d)%nat -> (1000 < n2 * d)%nat -> (6 < n1)%nat -> (6 < n2)%nat ->
  same_edges n1 n2 d X1 X2 -> shown n1 d X1 = shown n2 d X2.
Proof.
  intros H1 H2 N1 N2 E. unfold shown. rewrite (proj2 (Nat.ltb_lt _ _) H1), (proj2 (Nat.ltb_lt _ _) H2). unfold axis at 2 4. rewrite (proj2 (Nat.ltb_lt _ _) N1), (proj2 (Nat.ltb_lt _ _) N2).
  cbn [andb map option_map].
  assert (K : forall i i', edge_index n1 i -> opposite n1 n2 i = i' ->
     map (option_map (fun j => X1 i j)) (axis true d) = map (option_map (fun j => X2 i' j)) (axis true d)).
  { intros i i' Hi <-. apply map_ext_in. intros [j|] Hj; [|reflexivity]. cbn [option_map]. f_equal. apply E; [exact Hi|now apply axis_edge]. }
  rewrite (K 0 0), (K 1 1), (K 2 2), (K (n1 - 3) (n2 - 3)), (K (n1 - 2) (n2 - 2)), (K (n1 - 1) (n2 - 1))%nat; try reflexivity;
  try (left; lia); try (right; lia); unfold opposite; match goal with |- context [Nat.ltb ?a 3] => destruct (Nat.ltb_spec a 3) end; lia.
Qed.

(** Refuted, whatever the formatting and the hash: take a cache written over one data set with more than 1000 entries after any history.
    Loaded over any other data set with more than 1000 entries (more or fewer samples, even) that agrees with the first in the first and last
    three rows and columns, it is accepted, and every p-value computed from the first data is served for the second. *)
Theorem C258_other_data_accepted_refuted : forall fmt md5 n1 n2 d X1 X2 kernel test m p c1 qs,
  (1000 < n1 * d)%nat -> (1000 < n2 * d)%nat -> (6 < n1)%nat -> (6 < n2)%nat -> same_edges n1 n2 d X1 X2 ->
  construct None (data_hash fmt md5 n1 d X1) m p = Ok c1 -> ~ In ";"%char m -> m <> k_hash -> m <> k_method -> m <> k_params ->
  let file := snd (cit_run kernel test 0 c1 qs) in
  exists c2, construct (Some file) (data_hash fmt md5 n2 d X2) m p = Ok c2 /\
    forall X Y C xs ys s key v, formatted kernel X Y C = Ok (xs, ys, s, key) -> cget file key = Some v ->
      forall test2 t, fst (cit_call kernel test2 t c2 X Y C) = Ok v.
Proof.
  intros fmt md5 n1 n2 d X1 X2 kernel test m p c1 qs H1 H2 N1 N2 E Hc S K1 K2 K3 file.
  assert (EH : data_hash fmt md5 n1 d X1 = data_hash fmt md5 n2 d X2) by (unfold data_hash; now rewrite (shown_same n1 n2 d X1 X2)).
  destruct (C34_other_methods_cache_is_accepted_refuted kernel test _ m p m p c1 qs Hc S K1 K2 K3) as (c2 & A & _ & B). exists c2. rewrite <- EH. auto.
Qed.
Print Assumptions C258_other_data_accepted_refuted.

(** What holds: data sets of the same shape with at most 1000 entries that differ are told apart, if the formatting and the hash are
    injective on them (the formatting rounds floats to 8 digits), so the cache of the other is refused. *)
Lemma shown_small n d X1 X2 : (n * d <= 1000)%nat -> shown n d X1 = shown n d X2 -> forall i j, (i < n)%nat -> (j < d)%nat -> X1 i j = X2 i j.
Proof.
  intros H E i j Hi Hj. unfold shown, axis in E. rewrite (proj2 (Nat.ltb_ge _ _) H) in E. cbn [andb] in E. rewrite !map_map in E. cbn [option_map] in E.
  assert (E1 := proj1 map_ext_in_iff E i (proj2 (in_seq n 0 i) ltac:(lia))). cbv beta in E1. injection E1 as E1. rewrite !map_map in E1. cbn [option_map] in E1.
  assert (E2 := proj1 map_ext_in_iff E1 j (proj2 (in_seq d 0 j) ltac:(lia))). cbv beta in E2. now injection E2.
Qed.
Theorem C258_small_data_partial : forall fmt md5 n d X1 X2 kernel test m p m' p' c1 qs, (n * d <= 1000)%nat ->
  (forall a b, fmt a = fmt b -> a = b) -> (forall a b, md5 a = md5 b -> a = b) -> (exists i j, (i < n)%nat /\ (j < d)%nat /\ X1 i j <> X2 i j) ->
  construct None (data_hash fmt md5 n d X1) m p = Ok c1 ->
  construct (Some (snd (cit_run kernel test 0 c1 qs))) (data_hash fmt md5 n d X2) m' p' = Raise.
Proof.
  intros fmt md5 n d X1 X2 kernel test m p m' p' c1 qs H IF IM (i & j & Hi & Hj & N) Hc.
  apply C34_other_data_is_refused with (h1 := data_hash fmt md5 n d X1) (m1 := m) (p1 := p); [exact Hc|]. intros E. apply IM, IF in E. apply N.
  eapply shown_small; eauto.
Qed.
Print Assumptions C258_small_data_partial.

(** The hypotheses met: 200 samples of 7 variables, all zero, against 300 samples that are zero only at the edges. *)
Example C258_example : same_edges 200 300 7 (fun _ _ => 0%Z) (fun i j => if (Nat.ltb 3 i && Nat.ltb i 290)%bool then Z.of_nat (i * j) else 0%Z).
Proof.
  intros i j Hi Hj. cbv beta. unfold opposite, edge_index in *. destruct (Nat.ltb_spec i 3).
  - destruct (Nat.ltb_spec 3 i); [lia|reflexivity].
  - destruct (Nat.ltb_spec (i + 300 - 200) 290); [lia|]. now rewrite andb_false_r.
Qed.
