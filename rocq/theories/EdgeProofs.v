(** Lemmas about the edge model. *)
From Verif Require Import Base EdgeModel.
Local Open Scope Z_scope.

Lemma ep_eqb_spec a b : reflect (a = b) (ep_eqb a b).
Proof. destruct a, b; cbn; constructor; congruence. Qed.

Lemma endpoint_of_ev a : endpoint_of (ev a) = Ok a.
Proof. now destruct a. Qed.

Lemma endpoint_of_inv x a : endpoint_of x = Ok a -> x = ev a.
Proof.
  unfold endpoint_of.
  repeat match goal with |- context [if ?b =? ?c then _ else _] => destruct (Z.eqb_spec b c) end;
    intros H; try discriminate H; injection H as <-; subst; reflexivity.
Qed.

Lemma Edge_proximal a b ea eb :
  a <> b ->
  get_proximal_endpoint (Edge a b ea eb) a = Some ea /\
  get_proximal_endpoint (Edge a b ea eb) b = Some eb /\
  (forall c, c <> a -> c <> b -> get_proximal_endpoint (Edge a b ea eb) c = None).
Proof.
  intros Hab. unfold Edge, get_proximal_endpoint.
  destruct (pointing_left ea eb); cbn [e_node1 e_node2 e_end1 e_end2];
  repeat split; intros;
  repeat match goal with |- context [Nat.eqb ?x ?y] => destruct (Nat.eqb_spec x y) end;
  congruence.
Qed.

Lemma Edge_mirror a b ea eb :
  pointing_left ea eb = true \/ pointing_left eb ea = true ->
  Edge a b ea eb = Edge b a eb ea.
Proof. unfold Edge. destruct ea, eb; cbn; intros [H|H]; try discriminate H; reflexivity. Qed.

Lemma Edge_canonical a b ea eb :
  pointing_left (e_end1 (Edge a b ea eb)) (e_end2 (Edge a b ea eb)) = false.
Proof. unfold Edge. destruct ea, eb; reflexivity. Qed.

Lemma flip_canonical e : pointing_left (e_end1 (flip_if_left e)) (e_end2 (flip_if_left e)) = false.
Proof.
  unfold flip_if_left. destruct (pointing_left (e_end1 e) (e_end2 e)) eqn:H; [|exact H].
  cbn. destruct (e_end1 e), (e_end2 e); cbn in *; congruence.
Qed.

(** The numeric codes kept beside the endpoints agree with them. *)
Definition num_sync (e : edge) : Prop := e_num1 e = ev (e_end1 e) /\ e_num2 e = ev (e_end2 e).

Lemma Edge_sync a b ea eb : num_sync (Edge a b ea eb).
Proof. unfold num_sync, Edge. destruct (pointing_left ea eb); cbn; auto. Qed.

Definition is_mark (p : endpoint) : Prop := p = TAIL \/ p = ARROW \/ p = CIRCLE.

Lemma set1_sync e p : num_sync e -> is_mark p -> num_sync (set_endpoint1 e p).
Proof.
  destruct e as [a b x y u v]. intros [H1 H2] [-> | [-> | ->]]; cbn in *; subst;
  unfold num_sync, set_endpoint1, flip_if_left; destruct x, y; cbn; auto.
Qed.

Lemma set2_sync e p :
  num_sync e -> is_mark p -> ~ (p = ARROW /\ e_end2 e = ARROW /\ e_end1 e <> ARROW) ->
  num_sync (set_endpoint2 e p).
Proof.
  destruct e as [a b x y u v]. intros [H1 H2] [-> | [-> | ->]] HN; cbn in *; subst;
  unfold num_sync, set_endpoint2, flip_if_left; destruct x, y; cbn; auto;
  exfalso; apply HN; repeat split; congruence.
Qed.

Lemma flip_nodes e :
  (e_node1 (flip_if_left e) = e_node1 e /\ e_node2 (flip_if_left e) = e_node2 e) \/
  (e_node1 (flip_if_left e) = e_node2 e /\ e_node2 (flip_if_left e) = e_node1 e).
Proof. unfold flip_if_left. destruct (pointing_left _ _); cbn; auto. Qed.

Lemma flip_proximal e n : e_node1 e <> e_node2 e ->
  get_proximal_endpoint (flip_if_left e) n = get_proximal_endpoint e n.
Proof.
  intros H. unfold flip_if_left, get_proximal_endpoint.
  destruct (pointing_left (e_end1 e) (e_end2 e)); [cbn|reflexivity].
  destruct (Nat.eqb_spec (e_node2 e) n), (Nat.eqb_spec (e_node1 e) n); congruence.
Qed.

Lemma set1_shape e p : exists u v,
  set_endpoint1 e p = flip_if_left (mkE (e_node1 e) (e_node2 e) p (e_end2 e) u v).
Proof.
  unfold set_endpoint1.
  match goal with |- context [let '(_, _) := ?t in _] => destruct t as [u v] end.
  now exists u, v.
Qed.

Lemma set2_shape e p : exists u v,
  set_endpoint2 e p = flip_if_left (mkE (e_node1 e) (e_node2 e) (e_end1 e) p u v).
Proof.
  unfold set_endpoint2.
  match goal with |- context [let '(_, _) := ?t in _] => destruct t as [u v] end.
  now exists u, v.
Qed.

Lemma set1_marks e p : e_node1 e <> e_node2 e ->
  get_proximal_endpoint (set_endpoint1 e p) (e_node1 e) = Some p /\
  (forall n, n <> e_node1 e -> get_proximal_endpoint (set_endpoint1 e p) n = get_proximal_endpoint e n).
Proof.
  intros H. destruct (set1_shape e p) as (u & v & ->). split; intros;
  rewrite flip_proximal by exact H; unfold get_proximal_endpoint; cbn;
  [now rewrite Nat.eqb_refl|].
  destruct (Nat.eqb_spec (e_node1 e) n); congruence.
Qed.

Lemma set2_marks e p : e_node1 e <> e_node2 e ->
  get_proximal_endpoint (set_endpoint2 e p) (e_node2 e) = Some p /\
  (forall n, n <> e_node2 e -> get_proximal_endpoint (set_endpoint2 e p) n = get_proximal_endpoint e n).
Proof.
  intros H. destruct (set2_shape e p) as (u & v & ->). split; intros;
  rewrite flip_proximal by exact H; unfold get_proximal_endpoint; cbn.
  - destruct (Nat.eqb_spec (e_node1 e) (e_node2 e)); [congruence|]. now rewrite Nat.eqb_refl.
  - destruct (Nat.eqb_spec (e_node1 e) n); [reflexivity|].
    destruct (Nat.eqb_spec (e_node2 e) n); congruence.
Qed.

(** A history of endpoint updates through the public setters. *)
Inductive eop := Set1 (p : endpoint) | Set2 (p : endpoint).
Definition eapply (e : edge) (o : eop) : edge :=
  match o with Set1 p => set_endpoint1 e p | Set2 p => set_endpoint2 e p end.

Lemma set1_nodes e p : e_node1 e <> e_node2 e ->
  e_node1 (set_endpoint1 e p) <> e_node2 (set_endpoint1 e p).
Proof.
  intros H. destruct (set1_shape e p) as (u & v & ->).
  destruct (flip_nodes (mkE (e_node1 e) (e_node2 e) p (e_end2 e) u v)) as [[A B]|[A B]];
  rewrite A, B; cbn; congruence.
Qed.

Lemma set2_nodes e p : e_node1 e <> e_node2 e ->
  e_node1 (set_endpoint2 e p) <> e_node2 (set_endpoint2 e p).
Proof.
  intros H. destruct (set2_shape e p) as (u & v & ->).
  destruct (flip_nodes (mkE (e_node1 e) (e_node2 e) (e_end1 e) p u v)) as [[A B]|[A B]];
  rewrite A, B; cbn; congruence.
Qed.

Lemma eapply_canonical e o : pointing_left (e_end1 (eapply e o)) (e_end2 (eapply e o)) = false.
Proof.
  destruct o as [p|p]; cbn [eapply].
  - destruct (set1_shape e p) as (u & v & ->). apply flip_canonical.
  - destruct (set2_shape e p) as (u & v & ->). apply flip_canonical.
Qed.

Lemma updates_canonical ops a b ea eb :
  let e := fold_left eapply ops (Edge a b ea eb) in
  pointing_left (e_end1 e) (e_end2 e) = false.
Proof.
  cbn zeta. apply fold_left_inv; [apply Edge_canonical|].
  intros e o _ _. apply eapply_canonical.
Qed.
