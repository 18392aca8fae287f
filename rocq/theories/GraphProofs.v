(** Lemmas about the GeneralGraph model. *)
From Verif Require Import Base EdgeModel EdgeProofs GraphModel GraphSpec.
Local Open Scope Z_scope.

(* ---------- reachability ---------- *)

Lemma reach_trans {A} (R : A -> A -> Prop) a b c : reach R a b -> reach R b c -> reach R a c.
Proof. induction 1; auto. intros. eapply reach_step; eauto. Qed.

Lemma reach_one {A} (R : A -> A -> Prop) a b : R a b -> reach R a b.
Proof. intros H. eapply reach_step; [exact H|constructor]. Qed.

Lemma reach_mono {A} (R R' : A -> A -> Prop) : (forall x y, R x y -> R' x y) ->
  forall a b, reach R a b -> reach R' a b.
Proof. intros H a b Hr. induction Hr; [constructor|eapply reach_step; eauto]. Qed.

Lemma reach1_reach {A} (R : A -> A -> Prop) a b : reach1 R a b -> reach R a b.
Proof. intros (x & H & Hr). eapply reach_step; eauto. Qed.

Lemma reach_split {A} (R : A -> A -> Prop) a b : reach R a b -> a = b \/ reach1 R a b.
Proof. intros H. destruct H as [|a b c H Hr]; [auto|right; exists b; auto]. Qed.

(** Paths using one extra edge (i,j). *)
Lemma reach_extra {A} (R R' : A -> A -> Prop) i j :
  (forall x y, R' x y -> R x y \/ (x = i /\ y = j)) ->
  forall a b, reach R' a b -> reach R a b \/ (reach R a i /\ reach R j b).
Proof.
  intros H a b Hr. induction Hr as [a|a b c Hab Hbc IH].
  - left; constructor.
  - destruct (H _ _ Hab) as [HR|[-> ->]].
    + destruct IH as [IH|[IH1 IH2]].
      * left. eapply reach_step; eauto.
      * right. split; [eapply reach_step; eauto|exact IH2].
    + right. split; [constructor|]. destruct IH as [IH|[_ IH]]; exact IH.
Qed.

(* ---------- pair updates ---------- *)

Lemma upd2_legal g i j x y :
  wf g -> i <> j -> (i < gn g)%nat -> (j < gn g)%nat -> legal_pair y x -> legal_pair x y ->
  wf (set_gm g (upd2 (gm g) i j x y)).
Proof.
  intros [Hd Hl] Hij Hi Hj Hyx Hxy. split; cbn.
  - intros k Hk. rewrite upd2_other by lia. auto.
  - intros a b Ha Hb.
    destruct (Nat.eq_dec a i) as [->|Hai].
    { destruct (Nat.eq_dec b j) as [->|Hbj].
      - rewrite upd2_ij, upd2_ji by lia. exact Hyx.
      - destruct (Nat.eq_dec b i) as [->|]; rewrite !upd2_other by lia; auto. }
    destruct (Nat.eq_dec a j) as [->|Haj].
    { destruct (Nat.eq_dec b i) as [->|Hbi].
      - rewrite upd2_ij, upd2_ji by lia. exact Hxy.
      - rewrite !upd2_other by lia; auto. }
    rewrite !upd2_other by lia. auto.
Qed.

Lemma wf_gd g d : wf g -> wf (set_gd g d).
Proof. intros H; exact H. Qed.

Lemma wf_mk g n m d : n = gn g -> wf (set_gm g m) -> wf (mkG n m d).
Proof. intros ->. exact (fun H => H). Qed.

Ltac legal := first [ now (cbn; tauto) | unfold legal_pair, legal_pairs; cbn; tauto ].

(** Split a legal pair into its thirteen cases. *)
Ltac pair_cases H :=
  unfold legal_pair, legal_pairs in H; cbn [In] in H;
  repeat (destruct H as [H|H]); [..|contradiction];
  injection H; clear H; intros.

(** The shape of the matrix after add_edge. *)
Lemma add_edge_gn g e : gn (add_edge g e) = gn g.
Proof.
  unfold add_edge, add_edge_full. destruct (e_end1 e), (e_end2 e); cbn;
  repeat match goal with |- context [if ?b then _ else _] => destruct b end; reflexivity.
Qed.

Lemma add_edge_frame g e a b :
  ~ (a = e_node1 e /\ b = e_node2 e) -> ~ (a = e_node2 e /\ b = e_node1 e) ->
  gm (add_edge g e) a b = gm g a b.
Proof.
  intros H1 H2. unfold add_edge, add_edge_full. cbn zeta.
  destruct (e_end1 e), (e_end2 e);
  repeat match goal with |- context [if ?b then _ else _] => destruct b end; cbn [fst gm set_gm];
  try reflexivity; try (rewrite upd2_other by assumption; reflexivity);
  unfold upd; 
  destruct (Nat.eqb_spec a (e_node1 e)), (Nat.eqb_spec b (e_node2 e)),
           (Nat.eqb_spec a (e_node2 e)), (Nat.eqb_spec b (e_node1 e)); cbn; tauto.
Qed.

(** add_edge acts on the code pair through this finite function; result (at i, at j). *)
Definition add_pair (a b : endpoint) (x y : Z) : Z * Z :=
  let bidirected := (y =? 1) && (x =? 1) in
  let existing := negb bidirected && (negb (y =? 0) || negb (x =? 0)) in
  match a, b with
  | TAIL, TAIL => if existing then (x, y) else if bidirected then (4, 4) else (-1, -1)
  | TAIL, ARROW => if existing then (x, y) else if bidirected then (4, 5) else (-1, 1)
  | TAIL, CIRCLE => if existing then (x, y) else if bidirected then (x, y) else (-1, 2)
  | ARROW, ARROW =>
      if existing then
        if (x =? 2) || (y =? 2) then (x, y)
        else ((if x =? 1 then 5 else 4), (if y =? 1 then 5 else 4))
      else (1, 1)
  | CIRCLE, ARROW => if existing then (x, y) else if bidirected then (x, y) else (2, 1)
  | CIRCLE, CIRCLE => if existing then (x, y) else if bidirected then (x, y) else (2, 2)
  | _, _ => (x, y)
  end.

Lemma add_edge_pair g e : e_node1 e <> e_node2 e ->
  (gm (add_edge g e) (e_node1 e) (e_node2 e), gm (add_edge g e) (e_node2 e) (e_node1 e)) =
  add_pair (e_end1 e) (e_end2 e) (gm g (e_node1 e) (e_node2 e)) (gm g (e_node2 e) (e_node1 e)).
Proof.
  intros Hne. unfold add_edge, add_edge_full, add_pair. cbn zeta.
  destruct (e_end1 e), (e_end2 e);
  repeat match goal with |- context [if negb ?b && ?c then _ else _] => destruct (negb b && c) end;
  try reflexivity;
  try (match goal with |- context [if (gm g ?a ?b =? 1) && ?d then _ else _] => destruct ((gm g a b =? 1) && d) end);
  cbn [fst snd gm set_gm]; try reflexivity;
  try (rewrite upd2_ij, upd2_ji by exact Hne; reflexivity).
  - destruct ((gm g (e_node1 e) (e_node2 e) =? 2) || (gm g (e_node2 e) (e_node1 e) =? 2)); cbn; [reflexivity|].
    rewrite upd_same. rewrite (upd_other _ (i:=e_node2 e) (j:=e_node1 e) _ (a:=e_node1 e) (b:=e_node2 e)) by lia.
    rewrite upd_other by lia. rewrite upd_same. reflexivity.
Qed.

Lemma add_pair_legal a b x y : legal_pair x y -> legal_pair (fst (add_pair a b x y)) (snd (add_pair a b x y)).
Proof.
  intros H. pair_cases H; subst; destruct a, b; cbn; unfold legal_pair, legal_pairs; cbn; tauto.
Qed.

Lemma legal_sym x y : legal_pair x y -> legal_pair y x.
Proof. intros H. pair_cases H; subst; unfold legal_pair, legal_pairs; cbn; tauto. Qed.

(** Generic: a mutator that rewrites one pair with legal codes preserves wf. *)
Lemma wf_pair_update g g' i j :
  wf g -> gn g' = gn g -> i <> j -> (i < gn g)%nat -> (j < gn g)%nat ->
  (forall a b, ~ (a = i /\ b = j) -> ~ (a = j /\ b = i) -> gm g' a b = gm g a b) ->
  legal_pair (gm g' i j) (gm g' j i) -> wf g'.
Proof.
  intros [Hd Hl] Hn Hij Hi Hj Hf Hp. split; rewrite Hn.
  - intros k Hk. rewrite Hf by lia. auto.
  - intros a b Ha Hb.
    destruct (Nat.eq_dec a i) as [->|Hai]; [destruct (Nat.eq_dec b j) as [->|Hbj]|].
    + exact Hp.
    + rewrite !Hf by lia. auto.
    + destruct (Nat.eq_dec a j) as [->|Haj]; [destruct (Nat.eq_dec b i) as [->|Hbi]|].
      * apply legal_sym, Hp.
      * rewrite !Hf by lia. auto.
      * rewrite !Hf by lia. auto.
Qed.

Lemma add_edge_wf g e : wf g -> op_on (gn g) (AddEdge e) -> wf (add_edge g e).
Proof.
  intros Hw (Hi & Hj & Hij). cbn in Hi, Hj, Hij.
  apply wf_pair_update with (g := g) (i := e_node1 e) (j := e_node2 e); auto.
  - apply add_edge_gn.
  - intros a b H1 H2. apply add_edge_frame; auto.
  - pose proof (add_edge_pair g e Hij) as HP.
    destruct Hw as [_ Hl]. specialize (Hl _ _ Hi Hj).
    apply (add_pair_legal (e_end1 e) (e_end2 e)) in Hl. rewrite <- HP in Hl. exact Hl.
Qed.

Lemma add_directed_wf g i j : wf g -> op_on (gn g) (AddDirected i j) -> wf (add_directed_edge g i j).
Proof.
  intros Hw (Hi & Hj & Hij). cbn in Hi, Hj, Hij.
  apply wf_pair_update with (g := g) (i := i) (j := j); auto; cbn.
  - intros a b H1 H2. now rewrite upd2_other.
  - rewrite upd2_ij, upd2_ji by auto. unfold legal_pair, legal_pairs; cbn; tauto.
Qed.

Lemma remove_conn_wf g i j : wf g -> op_on (gn g) (RemoveConn i j) -> wf (remove_connecting_edge g i j).
Proof.
  intros Hw (Hi & Hj & Hij). cbn in Hi, Hj, Hij.
  apply wf_pair_update with (g := g) (i := i) (j := j); auto; cbn.
  - intros a b H1 H2. now rewrite upd2_other.
  - rewrite upd2_ij, upd2_ji by auto. unfold legal_pair, legal_pairs; cbn; tauto.
Qed.

(** remove_edge on the matrix. *)
Definition remove_mat (g : ggraph) (e : edge) : mat :=
  let i := e_node1 e in let j := e_node2 e in
  let m := gm g in
  let out_of := m j i in let in_to := m i j in
  let end1 := e_num1 e in let end2 := e_num2 e in
    if (out_of =? 4) && (in_to =? 4) then
      if end1 =? 1 then upd2 m i j (-1) (-1)
      else if end1 =? -1 then upd2 m j i 1 1 else m
    else if (out_of =? 5) && (in_to =? 4) then
      if end1 =? 1 then upd2 m i j 1 (-1)
      else if end1 =? -1 then upd2 m i j 1 1 else m
    else if (out_of =? 4) && (in_to =? 5) then
      if end1 =? 1 then upd2 m i j (-1) 1
      else if end1 =? -1 then upd2 m i j 1 1 else m
    else if (end1 =? in_to) && (end2 =? out_of) then upd2 m i j 0 0
    else m.

Lemma remove_edge_gm g e : gm (remove_edge g e) = remove_mat g e.
Proof. unfold remove_edge, remove_mat. cbn zeta. destruct (is_parent_of g _ _ || _); reflexivity. Qed.

Lemma remove_edge_gn g e : gn (remove_edge g e) = gn g.
Proof. unfold remove_edge. cbn zeta. destruct (is_parent_of g _ _ || _); reflexivity. Qed.

Definition remove_pair (u v x y : Z) : Z * Z :=
  if (y =? 4) && (x =? 4) then
    if u =? 1 then (-1, -1) else if u =? -1 then (1, 1) else (x, y)
  else if (y =? 5) && (x =? 4) then
    if u =? 1 then (-1, 1) else if u =? -1 then (1, 1) else (x, y)
  else if (y =? 4) && (x =? 5) then
    if u =? 1 then (1, -1) else if u =? -1 then (1, 1) else (x, y)
  else if (u =? x) && (v =? y) then (0, 0) else (x, y).

Lemma remove_edge_pair g e : e_node1 e <> e_node2 e ->
  (gm (remove_edge g e) (e_node1 e) (e_node2 e), gm (remove_edge g e) (e_node2 e) (e_node1 e)) =
  remove_pair (e_num1 e) (e_num2 e) (gm g (e_node1 e) (e_node2 e)) (gm g (e_node2 e) (e_node1 e)).
Proof.
  intros H. rewrite remove_edge_gm. unfold remove_mat, remove_pair. cbn zeta.
  repeat match goal with |- context [if ?b then _ else _] => destruct b end;
  rewrite ?upd2_ij, ?upd2_ji by lia; reflexivity.
Qed.

Lemma remove_edge_frame g e a b :
  ~ (a = e_node1 e /\ b = e_node2 e) -> ~ (a = e_node2 e /\ b = e_node1 e) ->
  gm (remove_edge g e) a b = gm g a b.
Proof.
  intros H1 H2. rewrite remove_edge_gm. unfold remove_mat. cbn zeta.
  repeat match goal with |- context [if ?b then _ else _] => destruct b end;
  try reflexivity; rewrite upd2_other by tauto; reflexivity.
Qed.

Lemma remove_pair_legal u v x y : legal_pair x y -> legal_pair (fst (remove_pair u v x y)) (snd (remove_pair u v x y)).
Proof.
  intros H. unfold remove_pair.
  repeat match goal with |- context [if ?b then _ else _] => destruct b end; cbn [fst snd];
  try exact H; unfold legal_pair, legal_pairs; cbn; tauto.
Qed.

Lemma remove_edge_wf g e : wf g -> op_on (gn g) (RemoveEdge e) -> wf (remove_edge g e).
Proof.
  intros Hw (Hi & Hj & Hij). cbn in Hi, Hj, Hij.
  apply wf_pair_update with (g := g) (i := e_node1 e) (j := e_node2 e); auto.
  - apply remove_edge_gn.
  - intros a b H1 H2. apply remove_edge_frame; auto.
  - pose proof (remove_edge_pair g e Hij) as HP.
    destruct Hw as [_ Hl]. specialize (Hl _ _ Hi Hj).
    apply (remove_pair_legal (e_num1 e) (e_num2 e)) in Hl. rewrite <- HP in Hl. exact Hl.
Qed.

Lemma empty_wf n : wf (empty_graph n).
Proof.
  split; cbn; [reflexivity|]. intros. unfold legal_pair, legal_pairs; cbn; tauto.
Qed.

Lemma gapply_gn g o : gn (gapply g o) = gn g.
Proof. destruct o; cbn [gapply]; [apply add_edge_gn|reflexivity|apply remove_edge_gn|reflexivity]. Qed.

Lemma gapply_wf g o : wf g -> op_on (gn g) o -> wf (gapply g o).
Proof.
  destruct o; cbn [gapply]; intros.
  - now apply add_edge_wf.
  - now apply add_directed_wf.
  - now apply remove_edge_wf.
  - now apply remove_conn_wf.
Qed.

Lemma run_gn ops g : gn (fold_left gapply ops g) = gn g.
Proof. revert g; induction ops as [|o ops IH]; cbn; intros; [reflexivity|]. rewrite IH. apply gapply_gn. Qed.

Lemma run_wf ops n : Forall (op_on n) ops -> wf (fold_left gapply ops (empty_graph n)).
Proof.
  intros H. assert (G : forall ops g, gn g = n -> wf g -> Forall (op_on n) ops -> wf (fold_left gapply ops g)).
  { clear ops H. induction ops as [|o ops IH]; cbn; intros g Hn Hw Hf; [exact Hw|].
    inversion Hf; subst. apply IH; [apply gapply_gn| |assumption].
    apply gapply_wf; assumption. }
  apply G; [reflexivity|apply empty_wf|exact H].
Qed.

Lemma wf_adj_sym g i j : wf g -> (i < gn g)%nat -> (j < gn g)%nat ->
  is_adjacent_to g i j = is_adjacent_to g j i.
Proof.
  intros [_ Hl] Hi Hj. specialize (Hl _ _ Hi Hj). unfold is_adjacent_to.
  pair_cases Hl; repeat match goal with H : _ = gm _ _ _ |- _ => rewrite <- H end; reflexivity.
Qed.

Lemma wf_adj_irrefl g i : wf g -> (i < gn g)%nat -> is_adjacent_to g i i = false.
Proof. intros [Hd _] Hi. unfold is_adjacent_to. now rewrite Hd. Qed.

Lemma wf_get_edge g i j : wf g -> (i < gn g)%nat -> (j < gn g)%nat ->
  exists o, get_edge g i j = Ok o /\ (o = None <-> is_adjacent_to g i j = false).
Proof.
  intros [_ Hl] Hi Hj. specialize (Hl _ _ Hi Hj). unfold is_adjacent_to, get_edge.
  pair_cases Hl; repeat match goal with H : _ = gm _ _ _ |- _ => rewrite <- H end; cbn;
  eexists; (split; [reflexivity|]); split; intros; congruence.
Qed.

(* ---------- C02/C03/C05 ---------- *)

Lemma get_edge_codes g i j a b :
  gm g i j = ev a -> gm g j i = ev b -> a <> NULL -> get_edge g i j = Ok (Some (Edge i j a b)).
Proof.
  intros H1 H2 Ha. unfold get_edge. rewrite H1, H2.
  destruct (Z.eqb_spec (ev a) 0) as [E|_]; [destruct a; cbn in E; congruence|].
  rewrite !endpoint_of_ev. reflexivity.
Qed.

(** The edge kinds add_edge can store (all marks except circle-tail read from the circle side). *)
Definition storable (a b : endpoint) : Prop :=
  is_mark a /\ is_mark b /\ ~ (a = CIRCLE /\ b = TAIL).

Lemma add_edge_new g i j a b :
  i <> j -> gm g i j = 0 -> gm g j i = 0 -> storable a b ->
  let g' := add_edge g (Edge i j a b) in
  gm g' i j = ev a /\ gm g' j i = ev b.
Proof.
  intros Hij H1 H2 (Ha & Hb & Hn) g'.
  assert (HE : e_node1 (Edge i j a b) <> e_node2 (Edge i j a b))
    by (unfold Edge; destruct (pointing_left a b); cbn; congruence).
  pose proof (add_edge_pair g _ HE) as HP. fold g' in HP.
  unfold Edge in HP, HE. destruct Ha as [-> | [-> | ->]], Hb as [-> | [-> | ->]]; cbn in HP;
  try (exfalso; tauto);
  rewrite ?H1, ?H2 in HP; cbn in HP; injection HP; intros; split; assumption.
Qed.
