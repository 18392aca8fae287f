(** C262: attributes of nodes and graphs. *)
From Verif Require Import Base AttrModel.
Local Open Scope Z_scope.

(** Specification: the operations that name key k of object o; histories without transfers. *)
Definition touches (o k : nat) (op : aop) : Prop :=
  match op with AAdd o' k' _ | ARemove o' k' => o' = o /\ k' = k | _ => False end.
Definition no_transfer (h : list aop) : Prop := forall o o', ~ In (ATransfer o o') h.

Lemma arun_app K s h1 h2 : arun K s (h1 ++ h2) = arun K (arun K s h1) h2.
Proof. apply fold_left_app. Qed.

Lemma hupd_same h r k x : hupd h r k x r k = x.
Proof. unfold hupd. now rewrite !Nat.eqb_refl. Qed.
Lemma hupd_other h r k x r' k' : ~ (r' = r /\ k' = k) -> hupd h r k x r' k' = h r' k'.
Proof. unfold hupd. destruct (Nat.eqb_spec r' r), (Nat.eqb_spec k' k); cbn; tauto. Qed.

Lemma own_ref K h s : no_transfer h -> (forall o, aref s o = o) -> forall o, aref (arun K s h) o = o.
Proof.
  revert s. induction h as [|op h IH]; intros s NT H; [exact H|]. cbn. apply IH; [intros a b I; apply (NT a b); now right|].
  destruct op as [a k v|a k|a k|a b]; cbn; try exact H.
  - destruct (K a); [destruct (heap s (aref s a) k)|..]; exact H.
  - exfalso. apply (NT a b). now left.
Qed.
Lemma frame K h s o k : no_transfer h -> (forall x, aref s x = x) -> (forall op, In op h -> ~ touches o k op) ->
  heap (arun K s h) o k = heap s o k.
Proof.
  revert s. induction h as [|op h IH]; intros s NT H F; [reflexivity|]. change (arun K s (op :: h)) with (arun K (fst (astep K s op)) h). rewrite IH.
  - assert (Q := F op (or_introl eq_refl)). destruct op as [a k' v|a k'|a k'|a b]; cbn in Q |- *; rewrite ?H.
    + apply hupd_other. intros [X Y]. apply Q. now rewrite X, Y.
    + destruct (K a); [destruct (heap s a k')|..]; try reflexivity. cbn. apply hupd_other. intros [X Y]. apply Q. now rewrite X, Y.
    + reflexivity.
    + exfalso. apply (NT a b). now left.
  - intros a b I. apply (NT a b). now right.
  - intros x. apply (own_ref K [op] s); [|exact H]. intros a b [X|[]]. apply (NT a b). left. exact X.
  - intros q I. apply F. now right.
Qed.

(** An attribute reads back as the value last written, whatever is done meanwhile to other keys and other objects: *)
Theorem C262_add : forall K h1 o k v h2, no_transfer (h1 ++ h2) -> (forall op, In op h2 -> ~ touches o k op) ->
  aget K (h1 ++ AAdd o k v :: h2) o k = OVal v.
Proof.
  intros K h1 o k v h2 NT F. unfold aget. cbn [astep snd]. rewrite arun_app. cbn [arun fold_left]. fold (arun K (fst (astep K (arun K ainit h1) (AAdd o k v))) h2).
  assert (N1 : no_transfer h1) by (intros a b I; apply (NT a b), in_or_app; now left). assert (N2 : no_transfer h2) by (intros a b I; apply (NT a b), in_or_app; now right).
  assert (R1 : forall x, aref (arun K ainit h1) x = x) by (apply own_ref; [exact N1|reflexivity]).
  rewrite own_ref by (auto; intros x; cbn; apply R1). rewrite frame by (auto; intros x; cbn; apply R1). cbn. now rewrite R1, hupd_same.
Qed.
(** a key never written raises KeyError: *)
Theorem C262_absent : forall K h o k, no_transfer h -> (forall op, In op h -> ~ touches o k op) -> aget K h o k = OKeyError.
Proof.
  intros K h o k NT F. unfold aget. cbn [astep snd]. rewrite own_ref, frame by (auto; reflexivity). reflexivity.
Qed.
(** and a key removed from a node is gone (if it was not there, remove_attribute raised KeyError itself). *)
Theorem C262_node_remove : forall K h1 o k h2, K o = KNode -> no_transfer (h1 ++ h2) -> (forall op, In op h2 -> ~ touches o k op) ->
  aget K (h1 ++ ARemove o k :: h2) o k = OKeyError /\
  (snd (astep K (arun K ainit h1) (ARemove o k)) = ODone <-> exists v, aget K h1 o k = OVal v).
Proof.
  intros K h1 o k h2 KO NT F.
  assert (N1 : no_transfer h1) by (intros a b I; apply (NT a b), in_or_app; now left). assert (N2 : no_transfer h2) by (intros a b I; apply (NT a b), in_or_app; now right).
  assert (R1 : forall x, aref (arun K ainit h1) x = x) by (apply own_ref; [exact N1|reflexivity]). split.
  - unfold aget. cbn [astep snd]. rewrite arun_app. cbn [arun fold_left]. fold (arun K (fst (astep K (arun K ainit h1) (ARemove o k))) h2).
    assert (R2 : forall x, aref (fst (astep K (arun K ainit h1) (ARemove o k))) x = x) by (intros x; cbn; rewrite KO; destruct (heap _ _ _); cbn; apply R1).
    rewrite own_ref, frame by auto. cbn. rewrite KO, R1. destruct (heap (arun K ainit h1) o k) eqn:E; cbn; [now rewrite hupd_same | now rewrite E].
  - unfold aget. cbn. rewrite KO, R1. destruct (heap (arun K ainit h1) o k); cbn; split; try discriminate; eauto. now intros [v H].
Qed.

(** On a graph, remove_attribute raises TypeError after every history, and removes nothing. *)
Theorem C262_graph_remove_refuted : forall K h o k, K o <> KNode ->
  snd (astep K (arun K ainit h) (ARemove o k)) = OTypeError /\ (forall o' k', aget K (h ++ [ARemove o k]) o' k' = aget K h o' k').
Proof.
  intros K h o k KO. split; [cbn; destruct (K o) eqn:EK; [congruence|reflexivity|reflexivity]|]. intros o' k'. unfold aget. rewrite arun_app. cbn [arun fold_left].
  assert (fst (astep K (arun K ainit h) (ARemove o k)) = arun K ainit h) as -> by (cbn; destruct (K o) eqn:EK; [congruence|reflexivity|reflexivity]). reflexivity.
Qed.

(** transfer_attributes gives the argument the receiver's own dictionary, not a copy: until one of the two is the argument of another
    transfer, every later write through either is read through both. *)
Definition retargets (o : nat) (op : aop) : Prop := match op with ATransfer _ o' => o' = o | _ => False end.
Lemma shared K h s a b : aref s a = aref s b -> (forall op, In op h -> ~ retargets a op /\ ~ retargets b op) -> aref (arun K s h) a = aref (arun K s h) b.
Proof.
  revert s. induction h as [|op h IH]; intros s E F; [exact E|]. cbn. apply IH; [|intros q I; apply F; now right].
  pose proof (F op (or_introl eq_refl)) as [Fa Fb]. destruct op as [o k v|o k|o k|o o']; cbn in *; try exact E.
  - destruct (K o); [destruct (heap s (aref s o) k)|..]; exact E.
  - destruct (K o); cbn; try exact E; destruct (Nat.eqb_spec a o'), (Nat.eqb_spec b o'); congruence.
Qed.
Theorem C262_transfer_shares : forall K h1 g g' h2, K g <> KNode -> (forall op, In op h2 -> ~ retargets g op /\ ~ retargets g' op) ->
  forall k, aget K (h1 ++ ATransfer g g' :: h2) g' k = aget K (h1 ++ ATransfer g g' :: h2) g k.
Proof.
  intros K h1 g g' h2 KG F k. unfold aget. cbn [astep snd]. rewrite arun_app. cbn [arun fold_left].
  fold (arun K (fst (astep K (arun K ainit h1) (ATransfer g g'))) h2).
  rewrite (shared K h2 _ g g'); [reflexivity| |exact F]. cbn. destruct (K g) eqn:EK; [congruence|..]; cbn; rewrite Nat.eqb_refl; destruct (Nat.eqb g g'); reflexivity.
Qed.

Definition kinds (o : nat) : kind := match o with 0%nat => KNode | 1%nat => KGeneral | _ => KDag end.
(** A node, two graphs: hypotheses met, and a write to the argument after a transfer changes the receiver. *)
Example C262_case :
  aget kinds [AAdd 0 5 10; AAdd 1 5 11; ARemove 0 6; AAdd 0 6 12] 0 5 = OVal 10 /\
  aget kinds [AAdd 0 5 10; AAdd 1 5 11; ARemove 0 5] 0 5 = OKeyError /\
  aget kinds [AAdd 1 5 11; ARemove 1 5] 1 5 = OVal 11 /\
  aget kinds [AAdd 1 5 11; ATransfer 1 2; AAdd 2 5 77] 1 5 = OVal 77 /\
  no_transfer [AAdd 0 5 10; AAdd 1 5 11; ARemove 0 6; AAdd 0 6 12].
Proof. repeat split. intros a b [H|[H|[H|[H|[]]]]]; discriminate. Qed.
