(** Correctness of is_ancestor and is_dconnected_to on DAGs. *)
From Verif Require Import Base EdgeModel EdgeProofs GraphModel GraphSpec GraphProofs DpathProofs QueryProofs RankLib UtilsModel UtilsProofs DsepSpec.
Local Open Scope nat_scope.

(* ---------- active lists ---------- *)
Section Active.
Variable g : ggraph.
Variable Z : list nat.

Lemma active_cons2 a b p : active g Z (a :: b :: p) <->
  adjacent g a b /\ active g Z (b :: p) /\ (forall c r, p = c :: r -> opens g Z a b c).
Proof.
  unfold active. split.
  - intros [H1 H2]. split; [apply (H1 [] a b p); reflexivity|]. split; [split|].
    + intros l x y r E. apply (H1 (a :: l) x y r). cbn. now rewrite E.
    + intros l x y z r E. apply (H2 (a :: l) x y z r). cbn. now rewrite E.
    + intros c r ->. apply (H2 [] a b c r). reflexivity.
  - intros (H1 & [H2 H3] & H4). split.
    + intros [|u l] x y r E; cbn in E; [injection E as <- <- <-; exact H1|injection E as <- E; eapply H2; eauto].
    + intros [|u l] x y z r E; cbn in E; [injection E as <- <- ->; eapply H4; eauto|injection E as <- E; eapply H3; eauto].
Qed.

Lemma active_one a : active g Z [a].
Proof.
  split.
  - intros [|? [|? ?]]; cbn; intros; discriminate.
  - intros [|? [|? ?]]; cbn; intros; discriminate.
Qed.

Lemma active_suffix p q : active g Z (p ++ q) -> active g Z q.
Proof.
  intros [H1 H2]. split.
  - intros l a b r ->. apply (H1 (p ++ l) a b r). now rewrite app_assoc.
  - intros l a b c r ->. apply (H2 (p ++ l) a b c r). now rewrite app_assoc.
Qed.

Lemma active_prefix p q : active g Z (p ++ q) -> active g Z p.
Proof.
  intros [H1 H2]. split.
  - intros l a b r ->. apply (H1 l a b (r ++ q)). rewrite <- app_assoc. reflexivity.
  - intros l a b c r ->. apply (H2 l a b c (r ++ q)). rewrite <- app_assoc. reflexivity.
Qed.

Lemma active_join l v r : active g Z (l ++ [v]) -> active g Z (v :: r) ->
  (forall l' a c r', l = l' ++ [a] -> r = c :: r' -> opens g Z a v c) -> active g Z (l ++ v :: r).
Proof.
  induction l as [|a l IH]; intros H1 H2 H3; [exact H2|].
  destruct l as [|b l].
  - cbn in *. apply active_cons2 in H1. apply active_cons2. split; [apply H1|]. split; [exact H2|].
    intros c r' ->. apply (H3 [] a c r'); reflexivity.
  - cbn [app] in *. apply active_cons2 in H1. destruct H1 as (A1 & A2 & A3).
    apply active_cons2. split; [exact A1|]. split.
    + apply IH; auto. intros l' a' c r' E Er. apply (H3 (a :: l') a' c r'); auto. cbn. now rewrite E.
    + intros c r' E. destruct l as [|d l]; cbn in E; injection E as <- E; eapply A3; reflexivity.
Qed.

(** A walk that starts downwards and comes back up its last step passes an open collider below its start. *)
Lemma down_then_up p : (forall a b, dedge g a b -> ~ dedge g b a) ->
  forall a b, active g Z (a :: b :: p) -> dedge g a b ->
  (exists l c d, a :: b :: p = l ++ [c; d] /\ dedge g d c) ->
  exists z, In z Z /\ reach (dedge g) a z.
Proof.
  intros Hasym. induction p as [|c p IH]; intros a b Ha Hab (l & u & w & E & Hwu).
  - destruct l as [|x [|y l]]; cbn in E.
    + injection E as -> ->. exfalso. eapply Hasym; eauto.
    + discriminate E.
    + injection E as _ _ E. destruct l; discriminate E.
  - apply active_cons2 in Ha. destruct Ha as (_ & Ha & Ho). specialize (Ho c p eq_refl).
    destruct Ho as [(_ & _ & z & Hz & Hr)|[Hn _]].
    + exists z. split; [exact Hz|]. eapply reach_step; eauto.
    + pose proof Ha as Ha'. apply active_cons2 in Ha'. destruct Ha' as ([Hbc|Hcb] & _); [|tauto].
      destruct (IH b c Ha Hbc) as (z & Hz & Hr).
      * destruct l as [|x l]; cbn in E; [discriminate E|]. injection E as <- E. exists l, u, w. auto.
      * exists z. split; [exact Hz|]. eapply reach_step; eauto.
Qed.

Lemma reach_open_up a b : reach (dedge g) a b -> (exists z, In z Z /\ reach (dedge g) b z) ->
  exists z, In z Z /\ reach (dedge g) a z.
Proof. intros H (z & Hz & Hr). exists z. split; [exact Hz|]. eapply reach_trans; eauto. Qed.

Lemma nodup_dec (p : list nat) : {NoDup p} + {~ NoDup p}.
Proof.
  induction p as [|a p [IH|IH]]; [left; constructor| |right; intros H; inversion H; auto].
  destruct (in_dec Nat.eq_dec a p); [right; intros H; inversion H; auto|left; now constructor].
Qed.

Lemma not_nodup_split (p : list nat) : ~ NoDup p -> exists l1 v l2 l3, p = l1 ++ v :: l2 ++ v :: l3.
Proof.
  induction p as [|a p IH]; intros H; [exfalso; apply H; constructor|].
  destruct (in_dec Nat.eq_dec a p) as [Hin|Hin].
  - apply in_split in Hin. destruct Hin as (l2 & l3 & ->). exists [], a, l2, l3. reflexivity.
  - destruct IH as (l1 & v & l2 & l3 & ->).
    + intros Hd. apply H. now constructor.
    + exists (a :: l1), v, l2, l3. reflexivity.
Qed.

Definition dedge_dec : forall a b, {dedge g a b} + {~ dedge g a b}.
Proof.
  intros a b. unfold dedge.
  destruct (lt_dec a (gn g)), (lt_dec b (gn g)), (Z.eq_dec (gm g a b) (-1)), (Z.eq_dec (gm g b a) 1),
    (Z.eq_dec (gm g a b) 4), (Z.eq_dec (gm g b a) 5); first [left; tauto | right; tauto].
Defined.

Hypothesis Hasym : forall a b, dedge g a b -> ~ dedge g b a.

(** Cutting out a loop keeps a walk active. *)
Lemma splice l1 v l2 l3 : active g Z (l1 ++ v :: l2 ++ v :: l3) -> active g Z (l1 ++ v :: l3).
Proof.
  intros H.
  assert (HP : active g Z (l1 ++ [v])).
  { apply (active_prefix (l1 ++ [v]) (l2 ++ v :: l3)). rewrite <- app_assoc. exact H. }
  assert (HS : active g Z (v :: l3)).
  { apply (active_suffix (l1 ++ v :: l2)). rewrite <- app_assoc. exact H. }
  apply active_join; auto. intros l' a d r' -> ->.
  (* first and second occurrences *)
  assert (HM : active g Z (v :: l2 ++ [v])).
  { apply (active_prefix (v :: l2 ++ [v]) (d :: r')). cbn. rewrite <- app_assoc. cbn.
    eapply active_suffix; exact H. }
  assert (Hfirst : exists b p, l2 ++ [v] = b :: p /\ opens g Z a v b).
  { destruct (l2 ++ [v]) as [|b p] eqn:E; [destruct l2; discriminate E|]. exists b, p. split; [reflexivity|].
    destruct H as [_ H]. destruct l2 as [|b' l2]; cbn in E; injection E as <- E.
    - apply (H l' a v v (d :: r')). cbn. now rewrite <- app_assoc.
    - apply (H l' a v b' (l2 ++ v :: d :: r')). cbn. now rewrite <- app_assoc. }
  assert (Hlast : exists q c, v :: l2 = q ++ [c] /\ opens g Z c v d).
  { destruct (@exists_last _ (v :: l2)) as (q & c & E); [discriminate|]. exists q, c. split; [exact E|].
    destruct H as [_ H]. apply (H ((l' ++ [a]) ++ q) c v d r').
    rewrite <- (app_assoc (l' ++ [a])). f_equal.
    change (v :: l2 ++ v :: d :: r') with ((v :: l2) ++ v :: d :: r'). rewrite E, <- app_assoc. reflexivity. }
  destruct Hfirst as (b & p & Ep & Hab). destruct Hlast as (q & c & Eq & Hcd).
  unfold opens in Hab, Hcd |- *.
  destruct (dedge_dec a v) as [Hav|Hav]; [destruct (dedge_dec d v) as [Hdv|Hdv]|].
  - left. split; [exact Hav|]. split; [exact Hdv|].
    destruct Hab as [(_ & _ & Hz)|[Hn1 _]]; [exact Hz|].
    destruct Hcd as [(_ & _ & Hz)|[Hn2 _]]; [exact Hz|].
    rewrite Ep in HM. assert (Hvb : dedge g v b).
    { apply active_cons2 in HM. destruct HM as ([H0|H0] & _); [exact H0|]. exfalso. apply Hn1. auto. }
    apply (down_then_up p Hasym v b); auto.
    exists q, c, v. split.
    + rewrite <- Ep. change (v :: l2 ++ [v]) with ((v :: l2) ++ [v]). rewrite Eq, <- app_assoc. reflexivity.
    + assert (HA : adjacent g c v).
      { destruct HM as [HM _]. apply (HM q c v []). rewrite <- Ep.
        change (v :: l2 ++ [v]) with ((v :: l2) ++ [v]). rewrite Eq, <- app_assoc. reflexivity. }
      destruct HA as [HA|HA]; [|exact HA]. exfalso. apply Hn2. auto.
  - right. split; [tauto|]. destruct Hcd as [(_ & Hdv' & _)|[_ Hn]]; tauto.
  - right. split; [tauto|]. destruct Hab as [(Hav' & _)|[_ Hn]]; tauto.
Qed.

Lemma walk_to_path : forall k m x y, length m <= k -> x <> y -> active g Z (x :: m ++ [y]) ->
  exists m', NoDup (x :: m' ++ [y]) /\ active g Z (x :: m' ++ [y]).
Proof.
  induction k as [|k IH]; intros m x y Hl Hxy Ha.
  - destruct m; [|cbn in Hl; lia]. exists []. split; [|exact Ha].
    cbn. constructor; [|constructor; [intros []|constructor]]. intros [->|[]]. now apply Hxy.
  - destruct (nodup_dec (x :: m ++ [y])) as [Hd|Hd].
    + exists m. auto.
    + destruct (not_nodup_split _ Hd) as (l1 & v & l2 & l3 & E).
      rewrite E in Ha. apply splice in Ha.
      assert (Hlen : length (l1 ++ v :: l3) < length (x :: m ++ [y])).
      { rewrite E. rewrite !app_length. cbn. rewrite app_length. cbn. lia. }
      (* the shortened list still goes from x to y *)
      assert (Hend : exists m', l1 ++ v :: l3 = x :: m' ++ [y]).
      { assert (Hx : exists t, l1 ++ v :: l3 = x :: t).
        { destruct l1 as [|u l1]; cbn in E; injection E as <- E; eexists; reflexivity. }
        destruct (@exists_last _ (v :: l3)) as (s & w & Es); [discriminate|].
        assert (w = y).
        { change (x :: m ++ [y]) with ((x :: m) ++ [y]) in E.
          assert (E' : l1 ++ v :: l2 ++ v :: l3 = (l1 ++ v :: l2 ++ s) ++ [w]).
          { rewrite Es. rewrite <- app_assoc. cbn. now rewrite <- app_assoc. }
          rewrite E' in E. apply app_inj_tail in E. symmetry. apply E. }
        subst w. rewrite Es in *. rewrite app_assoc in *. destruct Hx as (t & Et).
        destruct (l1 ++ s) as [|u rs].
        - cbn in Et. injection Et as E1 _. congruence.
        - cbn in Et. injection Et as -> Et. exists rs. reflexivity. }
      destruct Hend as (m' & Em). rewrite Em in *. apply (IH m'); auto.
      cbn in Hlen. rewrite !app_length in Hlen. cbn in Hlen. lia.
Qed.
End Active.

(* ---------- facts about DAG graphs ---------- *)
Lemma dag_simple g : dag g -> simple g.
Proof.
  intros (_ & _ & H) i j Hi Hj. destruct (Z.eq_dec (gm g i j) 0) as [E|E]; [auto|].
  specialize (H i j Hi Hj E). lia.
Qed.

Lemma dag_asym g : dag g -> forall a b, dedge g a b -> ~ dedge g b a.
Proof. intros (_ & Hac & _) a b Hab Hba. apply (Hac a). exists b. split; [exact Hab|]. now apply reach_one. Qed.

Definition dmark (g : ggraph) (a b : nat) : edge := if Z.eqb (gm g a b) (-1) then Edge a b TAIL ARROW else Edge a b ARROW TAIL.

Section DagEdges.
Variable g : ggraph.
Hypothesis Hdag : dag g.
Notation n := (gn g).

Lemma dag_dedge a b : dedge g a b <-> a < n /\ b < n /\ gm g a b = (-1)%Z /\ gm g b a = 1%Z.
Proof. apply simple_dedge. apply dag_simple, Hdag. Qed.

Lemma dag_no_loop a : a < n -> gm g a a = 0%Z.
Proof. apply (proj1 (proj1 Hdag)). Qed.

Lemma adjacent_spec a b : adjacent g a b <-> a < n /\ b < n /\ gm g a b <> 0%Z.
Proof.
  unfold adjacent. rewrite !dag_dedge. split; [lia|].
  intros (Ha & Hb & H). destruct (proj2 (proj2 Hdag) a b Ha Hb H); tauto.
Qed.

Lemma dag_pair_edges a b : a < n -> b < n ->
  pair_edges g a b = if Z.eqb (gm g a b) 0 then [] else [dmark g a b].
Proof.
  intros Ha Hb. unfold pair_edges, dmark, get_edge.
  destruct (Z.eqb_spec (gm g a b) 0) as [E|E].
  - assert (gm g b a = 0%Z) as ->; [|reflexivity].
    destruct (Z.eq_dec (gm g b a) 0) as [E'|E']; [exact E'|].
    destruct (proj2 (proj2 Hdag) b a Hb Ha E'); lia.
  - destruct (proj2 (proj2 Hdag) a b Ha Hb E) as [[E1 E2]|[E1 E2]]; rewrite E1, E2; reflexivity.
Qed.

Lemma in_node_edges a e : a < n -> (In e (get_node_edges g a) <-> exists b, adjacent g a b /\ e = dmark g a b).
Proof.
  intros Ha. unfold get_node_edges. rewrite in_flat_map. split.
  - intros (b & Hb & He). apply in_seq0 in Hb. rewrite dag_pair_edges in He by auto.
    exists b. rewrite adjacent_spec. destruct (Z.eqb_spec (gm g a b) 0); [destruct He|].
    destruct He as [<-|[]]. auto.
  - intros (b & Hb & ->). apply adjacent_spec in Hb. destruct Hb as (_ & Hb & Hn). exists b.
    split; [now apply in_seq0|]. rewrite dag_pair_edges by auto. destruct (Z.eqb_spec (gm g a b) 0); [lia|now left].
Qed.

Lemma node_edges_length a : length (get_node_edges g a) <= n \/ n <= a.
Proof.
  destruct (le_lt_dec n a) as [H|H]; [now right|left]. unfold get_node_edges.
  rewrite <- (seq_length n 0) at 2. 
  assert (G : forall l, (forall x, In x l -> x < n) -> length (flat_map (fun j => pair_edges g a j) l) <= length l).
  { induction l as [|b l IH]; intros Hl; cbn; [lia|]. rewrite app_length.
    rewrite dag_pair_edges by (auto; apply Hl; now left).
    assert (length (flat_map (fun j => pair_edges g a j) l) <= length l) by (apply IH; intros; apply Hl; now right).
    destruct (Z.eqb (gm g a b) 0); cbn; lia. }
  apply G. intros x. apply in_seq0.
Qed.

Lemma adjacent_neq a b : adjacent g a b -> a <> b.
Proof. intros H ->. apply adjacent_spec in H. destruct H as (H & _ & E). apply E, dag_no_loop, H. Qed.

Lemma dmark_distal a b : a <> b -> get_distal_node (dmark g a b) a = Some b.
Proof.
  intros H. unfold dmark. assert (E : Nat.eqb b a = false) by (apply Nat.eqb_neq; lia).
  destruct (Z.eqb (gm g a b) (-1)); unfold get_distal_node, Edge; cbn; rewrite ?Nat.eqb_refl, ?E; reflexivity.
Qed.

Lemma dmark_prox_far a b : adjacent g a b ->
  oep_eqb (get_proximal_endpoint (dmark g a b) b) ARROW = if dedge_dec g a b then true else false.
Proof.
  intros HA. pose proof (adjacent_neq _ _ HA) as Hne. apply adjacent_spec in HA. destruct HA as (Ha & Hb & H).
  assert (E : Nat.eqb a b = false) by (apply Nat.eqb_neq; lia).
  unfold dmark. destruct (dedge_dec g a b) as [HD|HD]; rewrite dag_dedge in HD.
  - destruct HD as (_ & _ & -> & _). cbn. unfold get_proximal_endpoint, Edge; cbn. rewrite E, Nat.eqb_refl. reflexivity.
  - destruct (Z.eqb_spec (gm g a b) (-1)) as [E1|E1].
    + exfalso. apply HD. destruct (proj2 (proj2 Hdag) a b Ha Hb H); lia.
    + unfold get_proximal_endpoint, Edge; cbn. rewrite Nat.eqb_refl. reflexivity.
Qed.

Lemma dmark_prox_near a b : adjacent g a b ->
  oep_eqb (get_proximal_endpoint (dmark g a b) a) ARROW = if dedge_dec g b a then true else false.
Proof.
  intros HA. pose proof (adjacent_neq _ _ HA) as Hne. apply adjacent_spec in HA. destruct HA as (Ha & Hb & H).
  assert (E : Nat.eqb b a = false) by (apply Nat.eqb_neq; lia).
  unfold dmark. destruct (dedge_dec g b a) as [HD|HD]; rewrite dag_dedge in HD.
  - destruct HD as (_ & _ & _ & ->). cbn. unfold get_proximal_endpoint, Edge; cbn. rewrite E, Nat.eqb_refl. reflexivity.
  - destruct (Z.eqb_spec (gm g a b) (-1)) as [E1|E1].
    + unfold get_proximal_endpoint, Edge; cbn. rewrite Nat.eqb_refl. reflexivity.
    + exfalso. apply HD. destruct (proj2 (proj2 Hdag) a b Ha Hb H); lia.
Qed.
End DagEdges.

(* ---------- weights for termination ---------- *)
Section Weight.
Context {A : Type}.
Variable ex : A -> nat.
Variable B : nat.
Definition weight (l : list A) : nat := fold_right (fun x s => S B ^ ex x + s) 0 l.

Lemma weight_cons a l : weight (a :: l) = S B ^ ex a + weight l.
Proof. reflexivity. Qed.

Lemma weight_app l r : weight (l ++ r) = weight l + weight r.
Proof. induction l as [|a l IH]; [reflexivity|]. cbn [app]. rewrite !weight_cons, IH. lia. Qed.

Lemma weight_small l k : length l <= B -> (forall x, In x l -> ex x < k) -> weight l < S B ^ k.
Proof.
  intros Hl Hx. destruct k as [|k].
  - destruct l as [|a l]; [cbn; lia|]. specialize (Hx a (or_introl eq_refl)). lia.
  - assert (G : weight l <= length l * S B ^ k).
    { clear Hl. induction l as [|a l IH]; [cbn; lia|]; rewrite weight_cons; cbn [length].
      assert (S B ^ ex a <= S B ^ k).
      { apply Nat.pow_le_mono_r; [lia|]. specialize (Hx a (or_introl eq_refl)). lia. }
      assert (weight l <= length l * S B ^ k) by (apply IH; intros; apply Hx; now right). rewrite Nat.mul_succ_l. lia. }
    assert (1 <= S B ^ k) by (change 1 with (S B ^ 0); apply Nat.pow_le_mono_r; lia).
    cbn [Nat.pow]. nia.
Qed.

Lemma weight_bound l k : (forall x, In x l -> ex x <= k) -> weight l <= length l * S B ^ k.
Proof.
  induction l as [|a l IH]; intros Hx; [cbn; lia|]; rewrite weight_cons; cbn [length].
  assert (S B ^ ex a <= S B ^ k) by (apply Nat.pow_le_mono_r; [lia|apply Hx; now left]).
  assert (weight l <= length l * S B ^ k) by (apply IH; intros; apply Hx; now right). rewrite Nat.mul_succ_l. lia.
Qed.
End Weight.

(* ---------- is_ancestor ---------- *)
Section Ancestor.
Variable g : ggraph.
Hypothesis Hdag : dag g.
Notation n := (gn g).

(** pushing the parents *)
Lemma push_spec ps : forall Q, exists new,
  fold_left (fun Q c => if memb c Q then Q else c :: Q) ps Q = new ++ Q /\ incl new ps /\ length new <= length ps /\
  incl ps (new ++ Q).
Proof.
  induction ps as [|c ps IH]; intros Q; cbn [fold_left].
  - exists []. cbn. split; [reflexivity|]. split; [intros ? []|]. split; [lia|intros ? []].
  - destruct (memb c Q) eqn:E.
    + destruct (IH Q) as (new & E1 & E2 & E3 & E4). exists new. split; [exact E1|]. split; [intros x Hx; right; auto|].
      split; [cbn; lia|]. intros x [<-|Hx]; [apply memb_In in E; apply in_app_iff; now right|auto].
    + destruct (IH (c :: Q)) as (new & E1 & E2 & E3 & E4). exists (new ++ [c]). rewrite <- app_assoc. cbn.
      split; [exact E1|]. split; [|split].
      * intros x Hx. apply in_app_iff in Hx. destruct Hx as [Hx|[<-|[]]]; [right; auto|now left].
      * rewrite app_length. cbn. lia.
      * intros x [<-|Hx]; [apply in_app_iff; right; now left|auto].
Qed.

Lemma filter_len {A} (f : A -> bool) l : length (filter f l) <= length l.
Proof. induction l as [|a l IH]; cbn; [lia|]. destruct (f a); cbn; lia. Qed.

Lemma parents_length v : length (get_parents g v) <= n.
Proof. unfold get_parents. etransitivity; [apply filter_len|]. rewrite seq_length. lia. Qed.

Lemma anc_loop_spec node fuel : forall Q, (forall x, In x Q -> x < n) -> weight (rank g) n Q < fuel ->
  exists b, anc_loop fuel g node Q = Ret b /\ (b = true <-> exists q, In q Q /\ reach (dedge g) node q).
Proof.
  induction fuel as [|f IH]; intros Q HQ Hw; [lia|]. cbn [anc_loop].
  destruct Q as [|t Q].
  - exists false. split; [reflexivity|]. split; [discriminate|]. intros (q & [] & _).
  - destruct (Nat.eqb_spec t node) as [->|Hne].
    + exists true. split; [reflexivity|]. split; [|reflexivity]. intros _. exists node. split; [now left|constructor].
    + assert (Ht : t < n) by (apply HQ; now left).
      destruct (push_spec (get_parents g t) Q) as (new & -> & E2 & E3 & E4).
      assert (Hp : forall x, In x new -> dedge g x t).
      { intros x Hx. apply E2, in_parents in Hx; [exact Hx|exact Ht]. }
      destruct (IH (new ++ Q)) as (b & Eb & Hb).
      * intros x Hx. apply in_app_iff in Hx. destruct Hx as [Hx|Hx]; [apply (Hp x Hx)|apply HQ; now right].
      * rewrite weight_app. rewrite weight_cons in Hw.
        assert (weight (rank g) n new < S n ^ rank g t); [|lia].
        apply weight_small; [pose proof (parents_length t); lia|].
        intros x Hx. apply rank_lt; [apply Hdag|auto].
      * exists b. split; [exact Eb|]. rewrite Hb. split.
        -- intros (q & Hq & Hr). apply in_app_iff in Hq. destruct Hq as [Hq|Hq].
           ++ exists t. split; [now left|]. eapply reach_trans; [exact Hr|]. apply reach_one. auto.
           ++ exists q. split; [now right|exact Hr].
        -- intros (q & [<-|Hq] & Hr).
           ++ destruct (reach_split _ _ _ Hr) as [E|H1]; [congruence|].
              apply reach1_last in H1. destruct H1 as (p & Hr' & Hpt). exists p. split; [|exact Hr'].
              apply E4, in_parents; auto.
           ++ exists q. split; [apply in_app_iff; now right|exact Hr].
Qed.

Definition anc_fuel (z : list nat) : nat := S (length z * S n ^ n).

Lemma is_ancestor_correct fuel node z : (forall x, In x z -> x < n) -> anc_fuel z <= fuel ->
  exists b, is_ancestor fuel g node z = Ret b /\ (b = true <-> exists q, In q z /\ reach (dedge g) node q).
Proof.
  intros Hz Hf. unfold is_ancestor. destruct (memb node z) eqn:E.
  - exists true. split; [reflexivity|]. split; [|reflexivity]. intros _. exists node. split; [now apply memb_In|constructor].
  - destruct (anc_loop_spec node fuel (rev z)) as (b & Eb & Hb).
    + intros x Hx. apply Hz. now apply in_rev.
    + assert (weight (rank g) n (rev z) <= length (rev z) * S n ^ n).
      { apply weight_bound. intros x Hx. apply rank_le_n, Hz. now apply in_rev. }
      rewrite rev_length in H. unfold anc_fuel in Hf. lia.
    + exists b. split; [exact Eb|]. rewrite Hb. split; intros (q & Hq & Hr); exists q; (split; [|exact Hr]); [now apply in_rev|now apply in_rev in Hq].
Qed.
End Ancestor.

(* ---------- the d-connection loop ---------- *)
Section Dcon.
Variable g : ggraph.
Hypothesis Hdag : dag g.
Notation n := (gn g).
Variable x y : nat.
Variable Z : list nat.
Hypothesis HZ : forall v, In v Z -> v < n.
Hypothesis Hx : x < n.
Hypothesis Hxy : x <> y.
Variable afuel : nat.
Hypothesis Haf : anc_fuel g Z <= afuel.

Lemma reachable_spec a b c : adjacent g a b -> adjacent g b c ->
  exists r, reachable afuel g (dmark g a b) (dmark g b c) a Z = Ret r /\ (r = true <-> opens g Z a b c).
Proof.
  intros Hab Hbc. unfold reachable. rewrite (dmark_distal g a b) by (eapply adjacent_neq; eauto).
  rewrite (dmark_prox_far g Hdag a b Hab), (dmark_prox_near g Hdag b c Hbc).
  assert (Hmem : memb b Z = true <-> In b Z) by apply memb_In.
  destruct (is_ancestor_correct g Hdag afuel b Z HZ Haf) as (anc & -> & Hanc).
  unfold opens.
  destruct (dedge_dec g a b) as [H1|H1]; [destruct (dedge_dec g c b) as [H2|H2]|]; cbn.
  - exists anc. split; [reflexivity|]. rewrite Hanc. split; [intros H; left; auto|]. intros [H|H]; tauto.
  - destruct (memb b Z); cbn.
    + exists false. split; [reflexivity|]. split; [discriminate|]. intros [H|H]; tauto.
    + exists true. split; [reflexivity|]. split; [|reflexivity]. intros _. right. split; [tauto|].
      intros H. apply Hmem in H. discriminate H.
  - destruct (memb b Z); cbn.
    + exists false. split; [reflexivity|]. split; [discriminate|]. intros [H|H]; tauto.
    + exists true. split; [reflexivity|]. split; [|reflexivity]. intros _. right. split; [tauto|].
      intros H. apply Hmem in H. discriminate H.
Qed.

(** A state (e, a) stands for the directed step a - b. *)
Definition is_state (s : edge * nat) (a b : nat) : Prop := s = (dmark g a b, a) /\ adjacent g a b.

(** The continuation of a state reaches y: a walk a, b, ..., y with open triples and no immediate backtracking. *)
Definition leads (a b : nat) : Prop :=
  exists m, active g Z (a :: b :: m ++ [y]) /\ NoDup (a :: b :: m ++ [y]).

(** Walks the states stand for: they come from x. *)
Definition comes (a b : nat) : Prop := exists m, active g Z ((x :: m) ++ [b]) /\ exists l, x :: m = l ++ [a].

Definition good (Q : list (edge * nat)) : Prop :=
  forall s, In s Q -> exists a b, is_state s a b /\ comes a b /\ b <> y.

Lemma comes_step a b c : comes a b -> adjacent g b c -> opens g Z a b c -> comes b c.
Proof.
  intros (m & Hm & l & El) Hbc Ho. exists (m ++ [b]). split; [|exists (x :: m); reflexivity].
  change ((x :: m ++ [b]) ++ [c]) with (((x :: m) ++ [b]) ++ [c]). rewrite <- app_assoc. cbn [app].
  apply (active_join g Z (x :: m) b [c]); auto.
  - apply active_cons2. split; [exact Hbc|]. split; [apply active_one|]. intros ? ? E; discriminate E.
  - intros l' a' c' r' E1 E2. injection E2 as <- _. rewrite E1 in El. apply app_inj_tail in El.
    destruct El as [_ ->]. exact Ho.
Qed.

Lemma comes_dconnected a : comes a y -> dconnected g x y Z.
Proof.
  intros (m & Hm & _). apply (walk_to_path g Z (dag_asym g Hdag) (length m) m x y); auto.
Qed.

Lemma dcon_inner_spec a b : comes a b -> adjacent g a b -> forall es Q,
  (forall e, In e es -> exists c, adjacent g b c /\ e = dmark g b c) -> good Q ->
  (dcon_inner afuel g y Z (dmark g a b) a b es Q = DReturn /\ dconnected g x y Z) \/
  exists new, dcon_inner afuel g y Z (dmark g a b) a b es Q = DCont (new ++ Q) /\ good (new ++ Q) /\
    length new <= length es /\
    (forall s, In s new -> exists c, is_state s b c /\ c <> a /\ opens g Z a b c) /\
    (forall c, In (dmark g b c) es -> adjacent g b c -> c <> a -> opens g Z a b c -> c <> y /\ In (dmark g b c, b) new).
Proof.
  intros Hc Hab. induction es as [|e es IH]; intros Q Hes HQ; cbn [dcon_inner].
  - right. exists []. split; [reflexivity|]. split; [exact HQ|]. split; [cbn; lia|]. split; [intros s []|intros c []].
  - destruct (Hes e (or_introl eq_refl)) as (c & Hbc & ->).
    pose proof (adjacent_neq g Hdag _ _ Hbc) as Hbcn.
    assert (Hes' : forall e, In e es -> exists c, adjacent g b c /\ e = dmark g b c) by (intros; apply Hes; now right).
    rewrite dmark_distal by auto.
    assert (Hinj : forall c', adjacent g b c' -> dmark g b c' = dmark g b c -> c' = c).
    { intros c' Hc' E. assert (Hd : get_distal_node (dmark g b c') b = get_distal_node (dmark g b c) b) by now rewrite E.
      rewrite !dmark_distal in Hd; auto; [congruence|]. eapply adjacent_neq; eauto. }
    destruct (Nat.eqb_spec c a) as [->|Hca].
    + destruct (IH Q Hes' HQ) as [H|(new & E & Hg & Hl & Hn & Ha)]; [now left|]. right.
      exists new. split; [exact E|]. split; [exact Hg|]. split; [cbn; lia|]. split; [exact Hn|].
      intros c' [H|H] Hbc' Hne Ho; [|auto]. symmetry in H. apply Hinj in H; [contradiction|exact Hbc'].
    + destruct (reachable_spec a b c Hab Hbc) as ([|] & -> & Hr).
      * assert (Ho : opens g Z a b c) by (now apply Hr).
        destruct (Nat.eqb_spec c y) as [->|Hcy].
        -- left. split; [reflexivity|]. apply (comes_dconnected b). eapply comes_step; eauto.
        -- assert (HQ' : good ((dmark g b c, b) :: Q)).
           { intros s [<-|Hs]; [|auto]. exists b, c. split; [split; auto|]. split; [eapply comes_step; eauto|exact Hcy]. }
           destruct (IH _ Hes' HQ') as [H|(new & E & Hg & Hl & Hn & Ha)]; [now left|]. right.
           exists (new ++ [(dmark g b c, b)]). rewrite <- app_assoc. cbn [app].
           split; [exact E|]. split; [exact Hg|]. split; [rewrite app_length; cbn; lia|]. split.
           ++ intros s Hs. apply in_app_iff in Hs. destruct Hs as [Hs|[<-|[]]]; [auto|].
              exists c. split; [split; auto|]. auto.
           ++ intros c' [H|H] Hbc' Hne Ho'.
              ** symmetry in H. pose proof (Hinj _ Hbc' H). subst c'. split; [exact Hcy|]. apply in_app_iff. right. now left.
              ** destruct (Ha c' H Hbc' Hne Ho'). split; [auto|]. apply in_app_iff. now left.
      * assert (Ho : ~ opens g Z a b c) by (intros H; apply Hr in H; discriminate H).
        destruct (IH Q Hes' HQ) as [H|(new & E & Hg & Hl & Hn & Ha)]; [now left|]. right.
        exists new. split; [exact E|]. split; [exact Hg|]. split; [cbn; lia|]. split; [exact Hn|].
        intros c' [H|H] Hbc' Hne Ho'; [|auto]. symmetry in H. pose proof (Hinj _ Hbc' H). subst c'. contradiction.
Qed.

Lemma dcon_loop_spec fuel : forall Q, good Q ->
  dcon_loop fuel afuel g y Z Q = Running \/
  (dcon_loop fuel afuel g y Z Q = Ret true /\ dconnected g x y Z) \/
  (dcon_loop fuel afuel g y Z Q = Ret false /\ forall a b, adjacent g a b -> In (dmark g a b, a) Q -> ~ leads a b).
Proof.
  induction fuel as [|f IH]; intros Q HQ; cbn [dcon_loop]; [now left|].
  destruct Q as [|s Q].
  - right. right. split; [reflexivity|]. intros a b _ [].
  - destruct (HQ s (or_introl eq_refl)) as (a & b & [-> Hab] & Hc & Hby).
    rewrite dmark_distal by (eapply adjacent_neq; eauto).
    assert (HQ' : good Q) by (intros s Hs; apply HQ; now right).
    assert (Hb : b < n) by (apply (adjacent_spec g Hdag) in Hab; tauto).
    destruct (dcon_inner_spec a b Hc Hab (get_node_edges g b) Q) as [[-> H]|(new & -> & Hg & _ & _ & Hall)]; auto.
    + intros e He. apply (in_node_edges g Hdag) in He; auto.
    + destruct (IH _ Hg) as [H|[H|[E H]]]; [now left|right; now left|]. right. right. split; [exact E|].
      intros a' b' Hab' [H'|H'].
      * injection H' as H1 <-.
        assert (b' = b).
        { assert (Hd : get_distal_node (dmark g a b) a = get_distal_node (dmark g a b') a) by now rewrite H1.
          rewrite !dmark_distal in Hd; [congruence| |]; eapply adjacent_neq; eauto. }
        subst b'. intros (m & Ha & Hnd).
        destruct (m ++ [y]) as [|c r] eqn:Em; [destruct m; discriminate Em|].
        apply active_cons2 in Ha. destruct Ha as (_ & Ha & Ho). specialize (Ho c r eq_refl).
        assert (Hbc : adjacent g b c) by (apply active_cons2 in Ha; apply Ha).
        assert (Hca : c <> a).
        { intros ->. inversion Hnd as [|? ? Hn _]. apply Hn. right. now left. }
        destruct (Hall c) as [Hcy Hin]; auto.
        { apply (in_node_edges g Hdag); eauto. }
        apply (H b c Hbc); [apply in_app_iff; now left|].
        destruct m as [|c' m]; cbn in Em.
        -- injection Em as <- _. contradiction.
        -- injection Em as <- <-. exists m. split; [exact Ha|]. now inversion Hnd.
      * apply H; auto. apply in_app_iff. now right.
Qed.

Theorem dcon_partial fuel b : is_dconnected_to fuel afuel g x y Z = Ret b -> (b = true <-> dconnected g x y Z).
Proof.
  unfold is_dconnected_to. assert (E : Nat.eqb x y = false) by (now apply Nat.eqb_neq). rewrite E.
  destruct (existsb _ (get_node_edges g x)) eqn:Ex.
  - intros H. injection H as <-. split; [|reflexivity]. intros _.
    apply existsb_exists in Ex. destruct Ex as (e & He & Hd).
    apply (in_node_edges g Hdag) in He; auto. destruct He as (c & Hc & ->).
    rewrite dmark_distal in Hd by (eapply adjacent_neq; eauto). apply Nat.eqb_eq in Hd. subst c.
    exists []. split.
    + cbn. constructor; [|constructor; [intros []|constructor]]. intros [->|[]]. now apply Hxy.
    + cbn. apply active_cons2. split; [exact Hc|]. split; [apply active_one|]. intros ? ? H; discriminate H.
  - assert (Hstart : forall s, In s (rev (map (fun e => (e, x)) (get_node_edges g x))) <->
                     exists c, adjacent g x c /\ s = (dmark g x c, x)).
    { intros s. rewrite <- in_rev, in_map_iff. split.
      - intros (e & <- & He). apply (in_node_edges g Hdag) in He; auto. destruct He as (c & Hc & ->). eauto.
      - intros (c & Hc & ->). exists (dmark g x c). split; [reflexivity|]. apply (in_node_edges g Hdag); eauto. }
    assert (Hny : ~ adjacent g x y).
    { intros H. assert (existsb (fun e => match get_distal_node e x with Some b => Nat.eqb b y | None => false end) (get_node_edges g x) = true); [|congruence].
      apply existsb_exists. exists (dmark g x y). split; [apply (in_node_edges g Hdag); eauto|].
      rewrite dmark_distal by auto. apply Nat.eqb_refl. }
    intros H. destruct (dcon_loop_spec fuel (rev (map (fun e => (e, x)) (get_node_edges g x)))) as [H'|[[H' Hd]|[H' Hn]]].
    + intros s Hs. apply Hstart in Hs. destruct Hs as (c & Hc & ->). exists x, c. split; [split; auto|]. split.
      * exists []. split; [|exists []; reflexivity]. cbn. apply active_cons2. split; [exact Hc|].
        split; [apply active_one|]. intros ? ? E'; discriminate E'.
      * intros ->. contradiction.
    + congruence.
    + rewrite H' in H. injection H as <-. tauto.
    + rewrite H' in H. injection H as <-. split; [discriminate|]. intros (m & Hnd & Ha). exfalso.
      destruct m as [|c m].
      * cbn in Ha. apply active_cons2 in Ha. tauto.
      * cbn in Ha. assert (Hc : adjacent g x c) by (apply active_cons2 in Ha; apply Ha).
        apply (Hn x c Hc); [apply Hstart; eauto|]. exists m. auto.
Qed.
End Dcon.

(* ---------- termination with an empty conditioning set ---------- *)
Section DconEmpty.
Variable g : ggraph.
Hypothesis Hdag : dag g.
Notation n := (gn g).
Variable x y : nat.
Hypothesis Hx : x < n.
Hypothesis Hxy : x <> y.

(** Going down costs less and less; going up costs more than any descent. *)
Definition stex (s : edge * nat) : nat :=
  match get_distal_node (fst s) (snd s) with
  | Some b => if dedge_dec g (snd s) b then n - rank g b else S n + rank g b
  | None => 0
  end.

Lemma stex_next a b c : adjacent g a b -> adjacent g b c -> opens g [] a b c ->
  stex (dmark g b c, b) < stex (dmark g a b, a).
Proof.
  intros Hab Hbc Ho. unfold stex. cbn [fst snd].
  rewrite !dmark_distal by (eapply adjacent_neq; eauto).
  assert (Hac : acyclic (dedge g)) by apply Hdag.
  assert (Hcn : c < n) by (apply (adjacent_spec g Hdag) in Hbc; tauto).
  pose proof (rank_le_n g c Hcn) as Hcr.
  destruct (dedge_dec g b c) as [H1|H1], (dedge_dec g a b) as [H2|H2].
  - pose proof (rank_lt g b c Hac H1). lia.
  - lia.
  - destruct Ho as [(_ & _ & z & [] & _)|[Hn _]]. destruct Hbc as [Hbc|Hbc]; [contradiction|]. tauto.
  - destruct Hbc as [Hbc|Hbc]; [contradiction|]. pose proof (rank_lt g c b Hac Hbc). lia.
Qed.

Lemma dcon_loop_terminates afuel fuel : anc_fuel g [] <= afuel -> forall Q, good g x y [] Q -> weight stex n Q < fuel ->
  exists b, dcon_loop fuel afuel g y [] Q = Ret b.
Proof.
  intros Haf. induction fuel as [|f IH]; intros Q HQ Hw; [lia|]. cbn [dcon_loop].
  destruct Q as [|s Q]; [eauto|].
  destruct (HQ s (or_introl eq_refl)) as (a & b & [-> Hab] & Hc & Hby).
  rewrite dmark_distal by (eapply adjacent_neq; eauto).
  assert (HQ' : good g x y [] Q) by (intros s Hs; apply HQ; now right).
  assert (Hb : b < n) by (apply (adjacent_spec g Hdag) in Hab; tauto).
  destruct (dcon_inner_spec g Hdag x y [] (fun v (H : In v []) => match H with end) Hx Hxy afuel Haf a b Hc Hab
              (get_node_edges g b) Q) as [[-> H]|(new & -> & Hg & Hl & Hn & _)]; auto.
  - intros e He. apply (in_node_edges g Hdag) in He; auto.
  - eauto.
  - apply IH; [exact Hg|]. rewrite weight_app. rewrite weight_cons in Hw.
    assert (weight stex n new < S n ^ stex (dmark g a b, a)); [|lia].
    apply weight_small.
    + destruct (node_edges_length g Hdag b); lia.
    + intros s Hs. destruct (Hn s Hs) as (c & [-> Hbc] & _ & Ho). now apply stex_next.
Qed.
End DconEmpty.

Lemma dcon_empty_terminates g x y : dag g -> x < gn g -> exists N, forall fuel, N <= fuel ->
  exists b, is_dconnected_to fuel fuel g x y [] = Ret b.
Proof.
  intros Hdag Hx. destruct (Nat.eq_dec x y) as [->|Hxy].
  - exists 0. intros fuel _. exists true. unfold is_dconnected_to. now rewrite Nat.eqb_refl.
  - set (Q := rev (map (fun e => (e, x)) (get_node_edges g x))).
    exists (S (anc_fuel g [] + weight (stex g) (gn g) Q)). intros fuel Hf.
    unfold is_dconnected_to. assert (E : Nat.eqb x y = false) by (now apply Nat.eqb_neq). rewrite E.
    destruct (existsb _ (get_node_edges g x)) eqn:Ex; [eauto|]. fold Q.
    apply (dcon_loop_terminates g Hdag x y Hx Hxy); [lia| |lia].
    intros s Hs. unfold Q in Hs. rewrite <- in_rev, in_map_iff in Hs. destruct Hs as (e & <- & He).
    apply (in_node_edges g Hdag) in He; auto. destruct He as (c & Hc & ->).
    exists x, c. split; [split; auto|]. split.
    + exists []. split; [|exists []; reflexivity]. cbn. apply active_cons2. split; [exact Hc|].
      split; [apply active_one|]. intros ? ? E'; discriminate E'.
    + intros ->. assert (existsb (fun e => match get_distal_node e x with Some b => Nat.eqb b y | None => false end) (get_node_edges g x) = true); [|congruence].
      apply existsb_exists. exists (dmark g x y). split; [apply (in_node_edges g Hdag); eauto|].
      rewrite dmark_distal by auto. apply Nat.eqb_refl.
Qed.
