(** C263: clear. *)
From Verif Require Import Base EdgeModel GraphModel NamedModel NamedProofs BulkModel ClearModel.
Local Open Scope Z_scope.

Lemma orun_raise h : fold_left (fun acc o => res_bind acc (fun x => ostep x o)) h (Raise : res gobj) = Raise.
Proof. induction h as [|o h IH]; [reflexivity|exact IH]. Qed.
Lemma orun_cons x o h y : orun x (o :: h) = Ok y -> exists z, ostep x o = Ok z /\ orun z h = Ok y.
Proof. unfold orun. cbn. destruct (ostep x o) as [z|] eqn:E; [eauto | rewrite orun_raise; discriminate]. Qed.
Lemma orun_cons' x o h z : ostep x o = Ok z -> orun x (o :: h) = orun z h.
Proof. intros E. unfold orun. cbn. now rewrite E. Qed.

Definition not_triple (o : oop) : Prop := match o with OTri _ _ => False | _ => True end.

(** As far as nodes and edges are concerned a cleared graph is a new one: any history answers alike on both, and leaves the same graph. *)
Theorem C263_clear_nodes_edges : forall x h, Forall not_triple h -> forall y, orun x (OClear :: h) = Ok y ->
  exists z, orun (new_gobj []) h = Ok z /\ o_g y = o_g z.
Proof.
  intros x h F y H. apply orun_cons in H. destruct H as (x1 & E & H). injection E as <-.
  assert (Q : o_g (gclear x) = o_g (new_gobj [])) by reflexivity. revert Q H. generalize (gclear x) (new_gobj []).
  induction h as [|o h IH]; intros a b Q H; [injection H as <-; exists b; split; [reflexivity|exact Q]|].
  apply orun_cons in H. destruct H as (a' & E & H). inversion F as [|? ? Fo Fh]; subst. specialize (IH Fh).
  assert (exists b', ostep b o = Ok b' /\ o_g a' = o_g b') as (b' & Eb & Q').
  { destruct o as [n|w t|k v|]; cbn in E |- *.
    - rewrite <- Q. destruct (napply (o_g a) n) as [G|]; [|discriminate]. injection E as <-. eexists. split; reflexivity.
    - contradiction.
    - injection E as <-. eexists. split; [reflexivity|exact Q].
    - injection E as <-. eexists. split; reflexivity. }
  rewrite (orun_cons' _ _ _ _ Eb). exact (IH _ _ Q' H).
Qed.

(** clear always succeeds and leaves no node. *)
Theorem C263_clear_empties : forall x, exists y, orun x [OClear] = Ok y /\ nodes (o_g y) = [] /\ gn (o_g y).(ng) = 0%nat.
Proof. intros x. eexists. repeat split. Qed.

(** But the annotations stay: every annotated triple and every attribute of the old graph is one of the cleared graph too, whatever nodes and
    edges come next - on a new graph no triple is annotated and no attribute is set. *)
Theorem C263_clear_annotations_refuted : forall x h y, Forall not_triple h -> orun x (OClear :: h) = Ok y ->
  (forall w t, is_triple (o_tri x w) t = true -> is_triple (o_tri y w) t = true) /\
  (forall k v, o_attr x k = Some v -> (forall v', ~ In (OAttr k v') h) -> o_attr y k = Some v) /\
  (forall z, orun (new_gobj []) h = Ok z -> forall w t, is_triple (o_tri z w) t = false).
Proof.
  assert (S : forall h a b, Forall not_triple h -> orun a h = Ok b -> (forall w, o_tri b w = o_tri a w) /\ (forall k, (forall v', ~ In (OAttr k v') h) -> o_attr b k = o_attr a k)).
  { induction h as [|o h IH]; intros a b F H; [injection H as <-; split; reflexivity|].
    apply orun_cons in H. destruct H as (c & E & H). inversion F as [|? ? Fo Fh]; subst. destruct (IH c b Fh H) as [H1 H2].
    assert (o_tri c = o_tri a /\ (forall k, (forall v', o <> OAttr k v') -> o_attr c k = o_attr a k)) as [T A].
    { destruct o as [n|w t|k v|]; cbn in E.
      - destruct (napply (o_g a) n); [|discriminate]. injection E as <-. split; reflexivity.
      - contradiction.
      - injection E as <-. split; [reflexivity|]. intros k' N. cbn. destruct (Nat.eqb_spec k' k) as [->|]; [|reflexivity]. now destruct (N v).
      - injection E as <-. split; reflexivity. }
    split; [intros w; now rewrite H1, T|]. intros k N. rewrite H2, A; [reflexivity| |].
    - intros v' X. apply (N v'). left. exact X.
    - intros v' X. apply (N v'). right. exact X. }
  intros x h y F H. apply orun_cons in H. destruct H as (x1 & E & H). injection E as <-. destruct (S _ _ _ F H) as [H1 H2]. split; [|split].
  - intros w t Q. rewrite H1. exact Q.
  - intros k v Q N. rewrite H2 by exact N. exact Q.
  - intros z Hz w t. destruct (S _ _ _ F Hz) as [H3 _]. rewrite H3. reflexivity.
Qed.
(** A graph of three nodes with an ambiguous triple, cleared and given one node: the triple of the old nodes is still annotated. *)
Example C263_case : exists y, orun (new_gobj [5; 6; 7]%nat) [ONode (NAddDirected 5 6); OTri Ambiguous (TAdd (5, 6, 7)%nat); OAttr 1 9; OClear; ONode (NAdd 4)] = Ok y /\
  nodes (o_g y) = [4%nat] /\ is_triple (o_tri y Ambiguous) (5, 6, 7)%nat = true /\ is_triple (o_tri y Underline) (5, 6, 7)%nat = false /\ o_attr y 1%nat = Some 9.
Proof. eexists. split; [reflexivity|]. repeat split. Qed.
