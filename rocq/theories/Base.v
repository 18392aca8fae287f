(** Shared vocabulary: integer matrices as functions, exceptions as values,
    and a few list facts used everywhere. *)
From Coq Require Export List Arith ZArith Bool Lia.
From Coq Require Import Permutation.
Export ListNotations.

Set Implicit Arguments.
Local Open Scope Z_scope.

(** A numpy integer matrix.  Simplification: the shape is carried separately
    (the vertex count of the graph record); entries outside the shape are never
    read by the models. *)
Definition mat := nat -> nat -> Z.

(** [m[i,j] = v] (numpy item assignment). *)
Definition upd (m : mat) (i j : nat) (v : Z) : mat :=
  fun a b => if (Nat.eqb a i && Nat.eqb b j)%bool then v else m a b.

(** [np.zeros((n,n))]. *)
Definition zeros : mat := fun _ _ => 0.

(** A Python call either returns a value or raises. *)
Inductive res (A : Type) : Type :=
| Ok : A -> res A
| Raise : res A.
Arguments Ok {A} _.
Arguments Raise {A}.

Definition res_bind {A B} (x : res A) (f : A -> res B) : res B :=
  match x with Ok a => f a | Raise => Raise end.

(** Pointwise equality of the [n]x[n] part of two matrices. *)
Definition mat_eq (n : nat) (m1 m2 : mat) : Prop :=
  forall i j, (i < n)%nat -> (j < n)%nat -> m1 i j = m2 i j.

Lemma upd_same m i j v : upd m i j v i j = v.
Proof. unfold upd. now rewrite !Nat.eqb_refl. Qed.

Lemma upd_other m i j v a b : (a <> i \/ b <> j)%nat -> upd m i j v a b = m a b.
Proof.
  intros H. unfold upd.
  destruct (Nat.eqb_spec a i), (Nat.eqb_spec b j); simpl; try reflexivity; lia.
Qed.

Lemma upd_case m i j v a b :
  (a = i /\ b = j /\ upd m i j v a b = v) \/
  ((a <> i \/ b <> j) /\ upd m i j v a b = m a b)%nat.
Proof.
  destruct (Nat.eq_dec a i) as [->|Ha]; [destruct (Nat.eq_dec b j) as [->|Hb]|].
  - left. repeat split. apply upd_same.
  - right. split; [lia|]. apply upd_other; lia.
  - right. split; [lia|]. apply upd_other; lia.
Qed.

(** Pointwise update of both halves of a pair, the shape of every edge write:
    [graph[j,i] = x; graph[i,j] = y]. *)
Definition upd2 (m : mat) (i j : nat) (x y : Z) : mat := upd (upd m j i x) i j y.

Lemma upd2_ij m i j x y : upd2 m i j x y i j = y.
Proof. apply upd_same. Qed.

Lemma upd2_ji m i j x y : i <> j -> upd2 m i j x y j i = x.
Proof. intros H. unfold upd2. rewrite upd_other by lia. apply upd_same. Qed.

Lemma upd2_other m i j x y a b :
  ~ (a = i /\ b = j) -> ~ (a = j /\ b = i) -> upd2 m i j x y a b = m a b.
Proof. intros H1 H2. unfold upd2. rewrite !upd_other; auto; lia. Qed.

Lemma in_seq0 n k : In k (seq 0 n) <-> (k < n)%nat.
Proof. rewrite in_seq. lia. Qed.

Lemma fold_left_inv {A B} (f : A -> B -> A) (P : A -> Prop) l a :
  P a -> (forall x y, In y l -> P x -> P (f x y)) -> P (fold_left f l a).
Proof.
  revert a. induction l as [|b l IH]; cbn; intros a Ha Hs; [exact Ha|].
  apply IH; [apply Hs; auto | intros; apply Hs; auto].
Qed.
