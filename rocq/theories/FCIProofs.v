(** FCI: marks, edge replacement, and what one rule does to a graph. *)
From Verif Require Import Base EdgeModel EdgeProofs GraphModel GraphSpec GraphProofs DpathProofs QueryProps UtilsModel UtilsProofs
  SkelModel PCModel FCIModel FCISpec DsepProofs MeekModel MeekProofs.
Local Open Scope Z_scope.

(** ** Loops *)
Lemma foldO_inv {A S} (f : S -> A -> outcome S) (P : S -> Prop) l s :
  P s -> (forall s a, In a l -> P s -> exists s', f s a = Ret s' /\ P s') -> exists s', foldO f l s = Ret s' /\ P s'.
Proof.
  revert s. induction l as [|a l IH]; intros s Hs H; cbn; [eauto|].
  destruct (H s a (or_introl eq_refl) Hs) as (s1 & E1 & H1). rewrite E1. cbn. apply IH; [exact H1|]. intros; apply H; [right|]; assumption.
Qed.
Lemma foldO_app {A S} (f : S -> A -> outcome S) l1 l2 s : foldO f (l1 ++ l2) s = obind (foldO f l1 s) (foldO f l2).
Proof. revert s. induction l1 as [|a l IH]; intros s; cbn; [reflexivity|]. destruct (f s a); cbn; auto. Qed.
Lemma foldO_keep {A S} (f : S -> A -> outcome S) (P : S -> Prop) l s s' :
  P s -> (forall s a s1, In a l -> P s -> f s a = Ret s1 -> P s1) -> foldO f l s = Ret s' -> P s'.
Proof.
  revert s. induction l as [|a l IH]; intros s Hs H E; cbn in E; [injection E as <-; exact Hs|].
  destruct (f s a) as [s1| |] eqn:E1; try discriminate. cbn in E. apply (IH s1); [|intros; eapply H; eauto; now right|exact E].
  eapply H; eauto. now left.
Qed.

(** ** Reading marks *)
Section Marks.
Variables (n : nat) (g : ggraph).
Hypothesis HM : mixed n g.

Lemma mx_n : gn g = n. Proof. apply HM. Qed.
Lemma mx_zero x y : (x < n)%nat -> (y < n)%nat -> gm g x y = 0 -> gm g y x = 0.
Proof.
  destruct HM as (Hn & [_ Hl] & _). intros Hx Hy E. rewrite <- Hn in *. specialize (Hl x y Hx Hy). rewrite E in Hl. pair_cases Hl; congruence.
Qed.
Lemma mx_diag x : (x < n)%nat -> gm g x x = 0.
Proof. destruct HM as (Hn & [Hd _] & _). intros. apply Hd. lia. Qed.
Lemma mx_neq x y : (x < n)%nat -> gm g x y <> 0 -> x <> y.
Proof. intros Hx H ->. apply H. now apply mx_diag. Qed.
Lemma mx_codes x y : (x < n)%nat -> (y < n)%nat -> gm g x y = -1 \/ gm g x y = 0 \/ gm g x y = 1 \/ gm g x y = 2.
Proof. destruct HM as (Hn & _ & Hs). intros. apply Hs; lia. Qed.
Lemma mx_edge x y : (x < n)%nat -> (y < n)%nat -> gm g x y <> 0 ->
  exists a b, is_mark a /\ is_mark b /\ gm g x y = ev a /\ gm g y x = ev b /\ get_edge g x y = Ok (Some (Edge x y a b)).
Proof.
  destruct HM as (Hn & Hw & Hs). intros Hx Hy N. rewrite <- Hn in Hx, Hy. destruct (wf_marks g x y Hw Hs Hx Hy N) as (a & b & Ma & Mb & E1 & E2).
  exists a, b. repeat split; auto. apply get_edge_codes; auto. destruct Ma as [-> | [-> | ->]]; discriminate.
Qed.
Lemma epis_iff x y p : is_mark p -> (x < n)%nat -> (y < n)%nat -> epis g x y p = true <-> gm g y x = ev p.
Proof.
  intros Mp Hx Hy. assert (N0 : ev p <> 0) by (destruct Mp as [-> | [-> | ->]]; cbn; lia).
  unfold epis, get_endpoint. destruct (Z.eq_dec (gm g x y) 0) as [E|N].
  - pose proof (mx_zero x y Hx Hy E) as E'. unfold get_edge. rewrite E. cbn. split; [discriminate|]. congruence.
  - destruct (mx_edge x y Hx Hy N) as (a & b & Ma & Mb & E1 & E2 & ->). cbn [res_bind].
    destruct (Edge_proximal x y a b (mx_neq x y Hx N)) as (_ & -> & _). cbn [oep_eqb]. rewrite E2. unfold ep_eqb. apply Z.eqb_eq.
Qed.
Lemma epis_no x y p : is_mark p -> (x < n)%nat -> (y < n)%nat -> epis g x y p = false <-> gm g y x <> ev p.
Proof. intros. rewrite <- not_true_iff_false, epis_iff; tauto. Qed.
Lemma adj_iff x y : is_adjacent_to g x y = true <-> gm g y x <> 0.
Proof. unfold is_adjacent_to. rewrite negb_true_iff, Z.eqb_neq. reflexivity. Qed.
Lemma adj_no x y : is_adjacent_to g x y = false <-> gm g y x = 0.
Proof. unfold is_adjacent_to. rewrite negb_false_iff, Z.eqb_eq. reflexivity. Qed.
Lemma in_adjn v u : (v < n)%nat -> In u (get_adjacent_nodes g v) <-> (u < n)%nat /\ gm g v u <> 0.
Proof.
  intros Hv. unfold get_adjacent_nodes. rewrite filter_In, in_seq0, andb_true_iff, !negb_true_iff, !Z.eqb_neq, mx_n. split; [tauto|].
  intros [Hu N]. repeat split; auto. intros E. apply N. now apply mx_zero.
Qed.
Lemma in_into v u p : is_mark p -> (v < n)%nat -> In u (get_nodes_into g v p) <-> (u < n)%nat /\ gm g v u = ev p.
Proof.
  intros Mp Hv. unfold get_nodes_into. rewrite filter_In, in_seq0, mx_n. split; intros [Hu E]; (split; [exact Hu|]);
  pose proof (mx_codes v u Hv Hu) as C; destruct Mp as [-> | [-> | ->]]; cbn [into_code ev] in *; rewrite ?orb_true_iff, ?Z.eqb_eq in *; lia.
Qed.
Lemma in_out v u p : is_mark p -> (v < n)%nat -> In u (get_nodes_out_of g v p) <-> (u < n)%nat /\ gm g u v = ev p.
Proof.
  intros Mp Hv. unfold get_nodes_out_of. rewrite filter_In, in_seq0, mx_n. split; intros [Hu E]; (split; [exact Hu|]);
  pose proof (mx_codes u v Hu Hv) as C; destruct Mp as [-> | [-> | ->]]; cbn [into_code ev] in *; rewrite ?orb_true_iff, ?Z.eqb_eq in *; lia.
Qed.
Lemma coll_iff a b c : (a < n)%nat -> (b < n)%nat -> (c < n)%nat -> def_coll g a b c = true <-> gm g b a = 1 /\ gm g b c = 1.
Proof.
  intros Ha Hb Hc. destruct HM as (Hn & Hw & Hs). unfold def_coll.
  pose proof (mx_diag b Hb) as D0. assert (E0 : get_edge g b b = Ok None) by (unfold get_edge; now rewrite D0).
  destruct (Nat.eq_dec a b) as [->|N1].
  { unfold is_def_collider. rewrite E0. cbn. destruct (get_edge g b c) as [[e|]|]; cbn; (split; [discriminate|lia]). }
  destruct (Nat.eq_dec c b) as [->|N2].
  { unfold is_def_collider. rewrite E0. destruct (get_edge g a b) as [[e|]|]; cbn; (split; [discriminate|lia]). }
  rewrite <- Hn in Ha, Hb, Hc. destruct (C66_def_collider g a b c Hw Hs Ha Hb Hc N1 N2) as (r & -> & H). exact H.
Qed.
Lemma allowed_iff forb x y : (x < n)%nat -> (y < n)%nat ->
  allowed forb g x y = true <-> gm g y x = 1 \/ (gm g y x = 2 /\ ~ (forb x y = true /\ gm g x y <> 2)).
Proof.
  intros Hx Hy. unfold allowed.
  assert (M1 : is_mark ARROW) by (unfold is_mark; auto). assert (M2 : is_mark TAIL) by (unfold is_mark; auto). assert (M3 : is_mark CIRCLE) by (unfold is_mark; auto).
  pose proof (epis_iff x y ARROW M1 Hx Hy) as A1. pose proof (epis_iff x y TAIL M2 Hx Hy) as A2. pose proof (epis_iff x y CIRCLE M3 Hx Hy) as A3.
  pose proof (epis_iff y x ARROW M1 Hy Hx) as B1. pose proof (epis_iff y x TAIL M2 Hy Hx) as B2. cbn [ev] in *.
  pose proof (mx_codes x y Hx Hy) as C. pose proof (mx_zero x y Hx Hy) as Z0.
  destruct (epis g x y ARROW); [split; intros; [left; tauto|tauto]|].
  assert (D1 : gm g y x <> 1) by (intros E; apply A1 in E; discriminate).
  destruct (epis g x y TAIL). { split; [discriminate|]. destruct A2 as [A2 _]. specialize (A2 eq_refl). intros [|[]]; lia. }
  destruct (epis g x y CIRCLE).
  - assert (E2 : gm g y x = 2) by tauto. destruct (forb x y).
    + rewrite !andb_true_r. destruct C as [C|[C|[C|C]]].
      * assert (T : epis g y x TAIL = true) by tauto. rewrite T. destruct (epis g y x ARROW); (split; [discriminate|]; intros [|[_ H]]; [lia|exfalso; apply H; split; [reflexivity|lia]]).
      * specialize (Z0 C). lia.
      * assert (T : epis g y x ARROW = true) by tauto. rewrite T. split; [discriminate|]. intros [|[_ H]]; [lia|exfalso; apply H; split; [reflexivity|lia]].
      * destruct (epis g y x ARROW); [exfalso; assert (gm g x y = 1) by tauto; lia|]. destruct (epis g y x TAIL); [exfalso; assert (gm g x y = -1) by tauto; lia|].
        split; [|auto]. intros _. right. split; [exact E2|]. intros [_ H]. now apply H.
    + rewrite !andb_false_r. split; [|auto]. intros _. right. split; [exact E2|]. intros []. discriminate.
  - assert (E2 : gm g y x <> 2) by (intros E; apply A3 in E; discriminate). split; [|intros [|[]]; lia].
    destruct (epis g y x ARROW && forb x y); [discriminate|]. destruct (epis g y x TAIL && forb x y); discriminate.
Qed.

(** ** Replacing an edge *)
Definition marked (g' : ggraph) (x y : nat) (u v : Z) : Prop :=
  gm g' x y = u /\ gm g' y x = v /\ forall i j, ~ (i = x /\ j = y) -> ~ (i = y /\ j = x) -> gm g' i j = gm g i j.
Lemma reedge_marks x y p q a b : (x < n)%nat -> (y < n)%nat -> gm g x y <> 0 ->
  (forall e, get_edge g x y = Ok (Some e) -> p e = Some a /\ q e = Some b) -> storable a b ->
  exists g', reedge g x y p q = Ret g' /\ mixed n g' /\ marked g' x y (ev a) (ev b).
Proof.
  intros Hx Hy N HP HS. destruct (mx_edge x y Hx Hy N) as (a0 & b0 & Ma & Mb & E1 & E2 & EE). unfold reedge. rewrite EE.
  destruct (HP _ EE) as [-> ->]. eexists. split; [reflexivity|]. clear HP EE p q. pose proof (mx_neq x y Hx N) as Nxy.
  set (e := Edge x y a0 b0). set (g1 := remove_edge g e).
  assert (Ne : e_node1 e <> e_node2 e) by (unfold e; destruct (Edge_nodes x y a0 b0) as [[-> ->]|[-> ->]]; auto).
  assert (Z1 : gm g1 x y = 0 /\ gm g1 y x = 0).
  { pose proof (remove_edge_pair g e Ne) as HP. fold g1 in HP. unfold e, Edge, remove_pair in HP.
    destruct Ma as [-> | [-> | ->]], Mb as [-> | [-> | ->]]; cbn in HP, E1, E2; rewrite E1, E2 in HP; cbn in HP; injection HP; auto. }
  assert (F1 : forall i j, ~ (i = x /\ j = y) -> ~ (i = y /\ j = x) -> gm g1 i j = gm g i j).
  { intros i j H1 H2. unfold g1. apply remove_edge_frame; unfold e; destruct (Edge_nodes x y a0 b0) as [[-> ->]|[-> ->]]; tauto. }
  destruct (add_edge_new g1 x y a b Nxy (proj1 Z1) (proj2 Z1) HS) as [K1 K2].
  assert (F2 : forall i j, ~ (i = x /\ j = y) -> ~ (i = y /\ j = x) -> gm (add_edge g1 (Edge x y a b)) i j = gm g i j).
  { intros i j H1 H2. rewrite <- F1 by assumption. apply add_edge_frame; destruct (Edge_nodes x y a b) as [[-> ->]|[-> ->]]; tauto. }
  split; [|split; [exact K1|split; [exact K2|exact F2]]].
  destruct HM as (Hn & Hw & Hs).
  assert (O1 : op_on (gn g) (RemoveEdge e)). { unfold op_on, e. cbn. destruct (Edge_nodes x y a0 b0) as [[-> ->]|[-> ->]]; lia. }
  assert (O2 : op_on (gn g1) (AddEdge (Edge x y a b))). { unfold op_on, g1. cbn. rewrite remove_edge_gn. destruct (Edge_nodes x y a b) as [[-> ->]|[-> ->]]; lia. }
  split; [rewrite add_edge_gn; unfold g1; rewrite remove_edge_gn; exact Hn|]. split.
  - apply add_edge_wf; [|exact O2]. apply remove_edge_wf; assumption.
  - intros i j Hi Hj. rewrite add_edge_gn in Hi, Hj. unfold g1 in Hi, Hj. rewrite remove_edge_gn in Hi, Hj.
    destruct HS as (Sa & Sb & _).
    assert (D : (i = x /\ j = y) \/ (i = y /\ j = x) \/ (~ (i = x /\ j = y) /\ ~ (i = y /\ j = x))) by lia.
    destruct D as [[-> ->] | [[-> ->] | [D1 D2]]].
    + rewrite K1. destruct Sa as [-> | [-> | ->]]; cbn; auto.
    + rewrite K2. destruct Sb as [-> | [-> | ->]]; cbn; auto.
    + rewrite F2 by assumption. apply Hs; assumption.
Qed.
Lemma kept_l x y e : (x < n)%nat -> (y < n)%nat -> gm g x y <> 0 -> get_edge g x y = Ok (Some e) ->
  exists a, is_mark a /\ ev a = gm g x y /\ kept x e = Some a.
Proof.
  intros Hx Hy N E. destruct (mx_edge x y Hx Hy N) as (a & b & Ma & Mb & E1 & E2 & EE). rewrite EE in E. injection E as <-.
  exists a. repeat split; auto. unfold kept. apply (Edge_proximal x y a b). eapply mx_neq; eauto.
Qed.
Lemma kept_r x y e : (x < n)%nat -> (y < n)%nat -> gm g x y <> 0 -> get_edge g x y = Ok (Some e) ->
  exists b, is_mark b /\ ev b = gm g y x /\ kept y e = Some b.
Proof.
  intros Hx Hy N E. destruct (mx_edge x y Hx Hy N) as (a & b & Ma & Mb & E1 & E2 & EE). rewrite EE in E. injection E as <-.
  exists b. repeat split; auto. unfold kept. apply (Edge_proximal x y a b). eapply mx_neq; eauto.
Qed.
(** The three forms met in the rules. *)
Lemma reedge_const x y a b : (x < n)%nat -> (y < n)%nat -> gm g x y <> 0 -> storable a b ->
  exists g', reedge g x y (mk a) (mk b) = Ret g' /\ mixed n g' /\ marked g' x y (ev a) (ev b).
Proof. intros. apply reedge_marks; auto. Qed.
Lemma reedge_left x y b : (x < n)%nat -> (y < n)%nat -> gm g x y <> 0 -> is_mark b -> ~ (gm g x y = 2 /\ b = TAIL) ->
  exists g', reedge g x y (kept x) (mk b) = Ret g' /\ mixed n g' /\ marked g' x y (gm g x y) (ev b).
Proof.
  intros Hx Hy N Mb NT. destruct (mx_edge x y Hx Hy N) as (a0 & b0 & Ma & Mb0 & E1 & E2 & EE).
  destruct (kept_l x y _ Hx Hy N EE) as (a & Sa & Ea & Ka). rewrite <- Ea. apply reedge_marks; auto.
  - intros e He. rewrite EE in He. injection He as <-. auto.
  - split; [exact Sa|]. split; [exact Mb|]. intros [-> ->]. apply NT. cbn in Ea. auto.
Qed.
Lemma reedge_right x y : (x < n)%nat -> (y < n)%nat -> gm g x y <> 0 ->
  exists g', reedge g x y (mk TAIL) (kept y) = Ret g' /\ mixed n g' /\ marked g' x y (-1) (gm g y x).
Proof.
  intros Hx Hy N. destruct (mx_edge x y Hx Hy N) as (a0 & b0 & Ma & Mb0 & E1 & E2 & EE).
  destruct (kept_r x y _ Hx Hy N EE) as (b & Sb & Eb & Kb). rewrite <- Eb. apply (reedge_marks x y (mk TAIL) (kept y) TAIL b); auto.
  - intros e He. rewrite EE in He. injection He as <-. auto.
  - split; [unfold is_mark; auto|]. split; [exact Sb|]. intros [H _]. discriminate.
Qed.
End Marks.
