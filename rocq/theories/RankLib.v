(** Every acyclic directed graph on finitely many nodes has a topological numbering. *)
From Verif Require Import Base EdgeModel EdgeProofs GraphModel GraphSpec GraphProofs QueryProofs.
Local Open Scope Z_scope.

Lemma dedge_bound g a b : dedge g a b -> (a < gn g)%nat /\ (b < gn g)%nat.
Proof. intros (H1 & H2 & _). auto. Qed.

Lemma reach_bound g a b : reach (dedge g) a b -> (b < gn g)%nat -> (a < gn g)%nat.
Proof. intros H Hb. destruct H as [|a b c HR _]; [exact Hb|]. apply HR. Qed.

(** Number of ancestors. *)
Definition rank (g : ggraph) (v : nat) : nat :=
  match get_ancestors (S (gn g)) g [v] with Some l => length l | None => 0%nat end.

Lemma rank_spec g v : (v < gn g)%nat ->
  exists l, rank g v = length l /\ NoDup l /\ (forall x, In x l <-> reach (dedge g) x v).
Proof.
  intros Hv. destruct (get_ancestors_correct g (S (gn g)) [v]) as (l & E & Hd & Hx).
  - lia.
  - intros w [<-|[]]. exact Hv.
  - exists l. unfold rank. rewrite E. split; [reflexivity|]. split; [exact Hd|].
    intros x. rewrite Hx. split.
    + intros (w & [<-|[]] & H). exact H.
    + intros H. exists v. split; [now left|exact H].
Qed.

Lemma rank_lt g a b : acyclic (dedge g) -> dedge g a b -> (rank g a < rank g b)%nat.
Proof.
  intros Hac Hab. destruct (dedge_bound _ _ _ Hab) as [Ha Hb].
  destruct (rank_spec g a Ha) as (la & -> & Da & Ia).
  destruct (rank_spec g b Hb) as (lb & -> & Db & Ib).
  assert (Hn : ~ In b la).
  { intros H. apply Ia in H. apply (Hac a). exists b. auto. }
  assert (Hinc : incl (b :: la) lb).
  { intros x [<-|Hx]; apply Ib; [constructor|].
    eapply reach_trans; [apply Ia, Hx|]. now apply reach_one. }
  assert (NoDup (b :: la)) by (constructor; assumption).
  apply NoDup_incl_length in Hinc; auto.
Qed.

Lemma rank_le_n g v : (v < gn g)%nat -> (rank g v <= gn g)%nat.
Proof.
  intros Hv. destruct (rank_spec g v Hv) as (l & -> & Hd & Hx).
  apply nodup_bound; [exact Hd|]. intros x H. apply Hx in H. eapply reach_bound; eauto.
Qed.

Lemma topological_rank g : acyclic (dedge g) ->
  exists r : nat -> nat, forall a b, dedge g a b -> (r a < r b)%nat.
Proof. intros H. exists (rank g). intros. now apply rank_lt. Qed.

Lemma rank_acyclic {A} (R : A -> A -> Prop) (r : A -> nat) :
  (forall a b, R a b -> (r a < r b)%nat) -> acyclic R.
Proof.
  intros H a (b & Hab & Hr).
  assert (G : forall x y, reach R x y -> (r x <= r y)%nat).
  { induction 1 as [|x y z Hxy _ IH]; [lia|]. apply H in Hxy. lia. }
  apply G in Hr. apply H in Hab. lia.
Qed.

(** A nonempty finite set of nodes has an element of least rank. *)
Lemma exists_min_rank (r : nat -> nat) (l : list nat) : l <> [] ->
  exists m, In m l /\ forall x, In x l -> (r m <= r x)%nat.
Proof.
  induction l as [|a l IH]; [congruence|]. intros _. destruct l as [|b l].
  - exists a. split; [now left|]. intros x [<-|[]]. lia.
  - destruct IH as (m & Hm & Hle); [discriminate|].
    destruct (le_lt_dec (r a) (r m)).
    + exists a. split; [now left|]. intros x [<-|Hx]; [lia|]. specialize (Hle x Hx). lia.
    + exists m. split; [now right|]. intros x [<-|Hx]; [lia|auto].
Qed.
