(** Lemmas about pdag2dag. *)
From Verif Require Import Base EdgeModel EdgeProofs GraphModel GraphSpec GraphProofs DpathProofs RankLib UtilsModel UtilsProofs
  DsepSpec DsepProofs MeekModel MeekSpec MeekProofs PdagModel.
Local Open Scope Z_scope.

(** Partially directed graph: every edge is directed or undirected. *)
Definition pdag (g : ggraph) : Prop :=
  wf g /\ forall a b, joined g a b -> directed g a b \/ directed g b a \/ undirected g a b.

Lemma legal_zero y : legal_pair 0 y -> y = 0.
Proof. unfold legal_pair, legal_pairs. cbn. intuition congruence. Qed.

Fixpoint idx (x : nat) (l : list nat) : nat :=
  match l with [] => 0%nat | y :: r => if Nat.eqb x y then 0%nat else S (idx x r) end.
Lemma idx_le x l : (idx x l <= length l)%nat.
Proof. induction l as [|y l IH]; cbn; [lia|]. destruct (Nat.eqb x y); lia. Qed.
Lemma idx_in x l : In x l <-> (idx x l < length l)%nat.
Proof.
  induction l as [|y l IH]; cbn; [split; [tauto|lia]|]. destruct (Nat.eqb_spec x y) as [->|N].
  - split; [lia|auto].
  - split; [intros [H|H]; [congruence|]; apply IH in H; lia | intros H; right; apply IH; lia].
Qed.
Lemma idx_app x l r : idx x (l ++ r) = if memb x l then idx x l else (length l + idx x r)%nat.
Proof.
  induction l as [|y l IH]; cbn; [reflexivity|]. destruct (Nat.eqb_spec x y) as [->|N]; [reflexivity|].
  cbn. rewrite IH. unfold memb. destruct (existsb (Nat.eqb x) l); reflexivity.
Qed.
Lemma idx_snoc_in x l i : In x l -> idx x (l ++ [i]) = idx x l.
Proof. intros H. rewrite idx_app. apply memb_In in H. now rewrite H. Qed.
Lemma idx_snoc_i l i : ~ In i l -> idx i (l ++ [i]) = length l.
Proof. intros H. rewrite idx_app. apply memb_not_In in H. rewrite H. cbn. rewrite Nat.eqb_refl. lia. Qed.
Lemma idx_snoc_out x l i : ~ In x l -> x <> i -> idx x (l ++ [i]) = S (length l).
Proof. intros H N. rewrite idx_app. apply memb_not_In in H. rewrite H. cbn. destruct (Nat.eqb_spec x i); [congruence|]. lia. Qed.
Lemma idx_inj x y l : In x l -> idx x l = idx y l -> x = y.
Proof.
  induction l as [|z l IH]; cbn; [tauto|]. destruct (Nat.eqb_spec x z), (Nat.eqb_spec y z); intros; subst; auto; try lia.
  apply IH; [destruct H; congruence|lia].
Qed.
Lemma alive_iff rem k : alive rem k = true <-> ~ In k rem.
Proof. unfold alive. rewrite negb_true_iff. apply memb_not_In. Qed.

(* ---------- strip ---------- *)
Section Strip.
Variable g : ggraph.
Hypothesis Hp : pdag g.
Let Hw : wf g := proj1 Hp.

Definition stripped (h : ggraph) : Prop :=
  gn h = gn g /\ forall a b, (a < gn g)%nat -> (b < gn g)%nat ->
    (gm h a b = gm g a b /\ gm h b a = gm g b a) \/ (undirected g a b /\ gm h a b = 0 /\ gm h b a = 0).

Lemma pair_cases_pdag i j : (i < gn g)%nat -> (j < gn g)%nat ->
  (gm g i j = 0 /\ gm g j i = 0) \/ directed g i j \/ directed g j i \/ undirected g i j.
Proof.
  intros Hi Hj. destruct (Z.eq_dec (gm g i j) 0) as [E|N].
  - left. split; [exact E|]. pose proof (proj2 Hw i j Hi Hj) as Hl. rewrite E in Hl. now apply legal_zero in Hl.
  - right. apply (proj2 Hp). split; auto.
Qed.

Lemma strip_step_spec h e i j : (i < j)%nat -> (j < gn g)%nat -> In e (pair_edges g i j) -> stripped h ->
  stripped (strip_step h e) /\
  (forall a b, (a < gn g)%nat -> (b < gn g)%nat -> undirected g a b -> gm h a b = 0 -> gm h b a = 0 -> gm (strip_step h e) a b = 0) /\
  (undirected g i j -> gm (strip_step h e) i j = 0 /\ gm (strip_step h e) j i = 0).
Proof.
  intros Hij Hj Hin [Hn Hs]. assert (Hi : (i < gn g)%nat) by lia.
  unfold pair_edges, get_edge in Hin.
  destruct (pair_cases_pdag i j Hi Hj) as [[E1 E2]|[(_ & _ & E1 & E2)|[(_ & _ & E1 & E2)|U]]];
    [| | |pose proof U as (_ & _ & E1 & E2)]; rewrite E1, E2 in Hin; cbn [Z.eqb orb andb Pos.eqb] in Hin.
  - contradiction.
  - cbn in Hin. destruct Hin as [<-|[]]. unfold strip_step. cbn. split; [split; auto|]. split; [auto|].
    intros (_ & _ & X1 & X2). lia.
  - cbn in Hin. destruct Hin as [<-|[]]. unfold strip_step. cbn. split; [split; auto|]. split; [auto|].
    intros (_ & _ & X1 & X2). lia.
  - cbn in Hin. destruct Hin as [<-|[]]. set (e := mkE i j TAIL TAIL (-1) (-1)).
    change (strip_step h e) with (remove_edge h e).
    assert (Hne : e_node1 e <> e_node2 e) by (cbn; lia).
    pose proof (remove_edge_pair h e Hne) as HP. pose proof (remove_edge_frame h e) as HF. cbn [e e_node1 e_node2 e_num1 e_num2] in HP, HF.
    assert (Z0 : gm (remove_edge h e) i j = 0 /\ gm (remove_edge h e) j i = 0).
    { destruct (Hs i j Hi Hj) as [[K1 K2]|[_ [K1 K2]]].
      - rewrite K1, K2, E1, E2 in HP. cbn in HP. injection HP. auto.
      - rewrite K1, K2 in HP. cbn in HP. injection HP. auto. }
    assert (HF' : forall a b, (a = i /\ b = j) \/ (a = j /\ b = i) \/ gm (remove_edge h e) a b = gm h a b).
    { intros a b. destruct (Nat.eq_dec a i), (Nat.eq_dec b j), (Nat.eq_dec a j), (Nat.eq_dec b i); auto;
      right; right; apply HF; lia. }
    split; [|split].
    + split; [now rewrite remove_edge_gn|]. intros a b Ha Hb.
      destruct (HF' a b) as [[-> ->]|[[-> ->]|F]]; [right; tauto|right; split; [now apply undirected_sym|tauto]|].
      destruct (HF' b a) as [[-> ->]|[[-> ->]|F2]]; [right; split; [now apply undirected_sym|tauto]|right; tauto|].
      rewrite F, F2. now apply Hs.
    + intros a b Ha Hb Hu Z1 Z2. destruct (HF' a b) as [[-> ->]|[[-> ->]|F]]; [tauto|tauto|congruence].
    + auto.
Qed.

Lemma strip_fold l : forall h, stripped h -> (forall e, In e l -> exists i j, (i < j)%nat /\ (j < gn g)%nat /\ In e (pair_edges g i j)) ->
  stripped (fold_left strip_step l h) /\
  forall a b, (a < b)%nat -> undirected g a b -> (gm h a b = 0 /\ gm h b a = 0) \/ In (Edge a b TAIL TAIL) l ->
    gm (fold_left strip_step l h) a b = 0 /\ gm (fold_left strip_step l h) b a = 0.
Proof.
  induction l as [|e l IH]; intros h Hs Hl; cbn.
  - split; [exact Hs|]. intros a b _ _ [H|[]]; exact H.
  - destruct (Hl e (or_introl eq_refl)) as (i & j & Hij & Hj & He).
    destruct (strip_step_spec h e i j Hij Hj He Hs) as (S1 & S2 & S3).
    destruct (IH _ S1) as [I1 I2]; [intros; apply Hl; now right|]. split; [exact I1|].
    intros a b Hab Hu [[Z1 Z2]|[E|Hin]].
    + apply I2; auto. left. pose proof Hu as (X1 & X2 & _ & _). split; apply S2; auto using undirected_sym.
    + apply I2; auto. left. rewrite E in He. pose proof (pair_edges_nodes _ _ _ _ He) as HN. cbn in HN.
      assert (i = a /\ j = b) by lia. destruct H as [-> ->]. now apply S3.
    + apply I2; auto.
Qed.
Lemma strip_spec : gn (strip g) = gn g /\ forall a b, (a < gn g)%nat -> (b < gn g)%nat ->
  (undirected g a b -> gm (strip g) a b = 0) /\ (~ undirected g a b -> gm (strip g) a b = gm g a b).
Proof.
  unfold strip. destruct (strip_fold (get_graph_edges g) g) as [[Hn S1] S2].
  - split; [reflexivity|]. auto.
  - intros e He. unfold get_graph_edges in He. apply in_flat_map in He. destruct He as (i & Hi & He).
    apply in_flat_map in He. destruct He as (j & Hj & He). apply in_seq in Hi, Hj. exists i, j. split; [lia|]. split; [lia|exact He].
  - split; [exact Hn|]. intros a b Ha Hb. split.
    + intros Hu. assert (Hin : forall x y, (x < y)%nat -> undirected g x y -> In (Edge x y TAIL TAIL) (get_graph_edges g)).
      { intros x y Hxy (X1 & X2 & E1 & E2). unfold get_graph_edges. apply in_flat_map. exists x. split; [apply in_seq; lia|].
        apply in_flat_map. exists y. split; [apply in_seq; lia|]. unfold pair_edges, get_edge. rewrite E1, E2. cbn. auto. }
      pose proof (undirected_neq _ _ _ Hw Hu).
      assert (Hlt : (a < b \/ b < a)%nat) by lia. destruct Hlt as [Hlt|Hlt].
      * apply (S2 a b Hlt Hu). auto.
      * apply (S2 b a Hlt (undirected_sym _ _ _ Hu)). right. apply Hin; auto using undirected_sym.
    + intros N. destruct (S1 a b Ha Hb) as [[K _]|[K _]]; [exact K|contradiction].
Qed.
End Strip.

(* ---------- adding the edges into one node ---------- *)
Lemma add_dir_existing d k i : (gm d k i = -1 /\ gm d i k = 1) \/ (gm d k i = 1 /\ gm d i k = -1) ->
  add_edge d (Edge k i TAIL ARROW) = d.
Proof.
  intros H. unfold add_edge, add_edge_full. cbn.
  destruct H as [[-> ->]|[-> ->]]; reflexivity.
Qed.

(** [x] was removed, or everything is decided, relative to the removal order [rem]. *)
Definition dstate (g d : ggraph) (rem : list nat) : Prop :=
  gn d = gn g /\ forall a b, (a < gn g)%nat -> (b < gn g)%nat ->
    (~ undirected g a b -> gm d a b = gm g a b) /\
    (undirected g a b -> (idx b rem < idx a rem)%nat -> gm d a b = -1) /\
    (undirected g a b -> (idx a rem < idx b rem)%nat -> gm d a b = 1) /\
    (undirected g a b -> ~ In a rem -> ~ In b rem -> gm d a b = 0).

Lemma into_fold g i rem ks : wf g -> (i < gn g)%nat -> ~ In i rem ->
  (forall k, In k ks -> undirected g k i) ->
  forall d, gn d = gn g ->
  (forall k, undirected g k i -> In k rem -> gm d k i = 1 /\ gm d i k = -1) ->
  (forall k, undirected g k i -> ~ In k rem -> (gm d k i = 0 /\ gm d i k = 0) \/ (gm d k i = -1 /\ gm d i k = 1)) ->
  let d' := fold_left (fun d k => add_edge d (Edge k i TAIL ARROW)) ks d in
  gn d' = gn g /\
  (forall a b, ~ ((a = i \/ b = i) /\ undirected g a b) -> gm d' a b = gm d a b) /\
  (forall k, undirected g k i -> In k rem -> gm d' k i = 1 /\ gm d' i k = -1) /\
  (forall k, undirected g k i -> ~ In k rem -> (gm d k i = -1 /\ gm d i k = 1) \/ In k ks -> gm d' k i = -1 /\ gm d' i k = 1).
Proof.
  intros Hw Hi Hir. induction ks as [|k ks IH]; intros Hks d Hn H1 H2; cbn.
  - split; [exact Hn|]. split; [auto|]. split; [exact H1|]. intros x _ _ [H|[]]; exact H.
  - assert (Uk : undirected g k i) by (apply Hks; now left).
    pose proof (undirected_neq _ _ _ Hw Uk) as Hki.
    set (d1 := add_edge d (Edge k i TAIL ARROW)).
    assert (A : (In k rem -> d1 = d) /\ (~ In k rem -> gm d1 k i = -1 /\ gm d1 i k = 1)).
    { split.
      - intros Hk. apply add_dir_existing. right. now apply H1.
      - intros Hk. destruct (H2 k Uk Hk) as [[Z1 Z2]|E].
        + pose proof (add_edge_new d k i TAIL ARROW Hki Z1 Z2) as HN. cbn zeta in HN. apply HN.
          unfold storable, is_mark. intuition congruence.
        + unfold d1. rewrite add_dir_existing by auto. exact E. }
    assert (F : forall a b, ~ (a = k /\ b = i) -> ~ (a = i /\ b = k) -> gm d1 a b = gm d a b).
    { intros a b N1 N2. apply add_edge_frame; cbn; lia. }
    destruct (IH (fun x Hx => Hks x (or_intror Hx)) d1) as (I1 & I2 & I3 & I4).
    + unfold d1. now rewrite add_edge_gn.
    + intros x Ux Hx. pose proof (undirected_neq _ _ _ Hw Ux). destruct (Nat.eq_dec x k) as [->|N].
      * destruct A as [A _]. rewrite A by exact Hx. now apply H1.
      * rewrite !F by lia. now apply H1.
    + intros x Ux Hx. pose proof (undirected_neq _ _ _ Hw Ux). destruct (Nat.eq_dec x k) as [->|N].
      * right. now apply A.
      * rewrite !F by lia. now apply H2.
    + split; [exact I1|]. split; [|split; [exact I3|]].
      * intros a b N. rewrite I2 by exact N. apply F.
        -- intros [-> ->]. apply N. auto.
        -- intros [-> ->]. apply N. split; [auto|now apply undirected_sym].
      * intros x Ux Hx Hc. pose proof (undirected_neq _ _ _ Hw Ux). apply I4; auto.
        destruct (Nat.eq_dec x k) as [->|N]; [left; now apply A|].
        destruct Hc as [Hc|[Hc|Hc]]; [left; now rewrite !F by lia|congruence|auto].
Qed.

(* ---------- the selection test ---------- *)
Lemma len0 {A} (l : list A) : Nat.eqb (length l) 0 = true <-> l = [].
Proof. rewrite Nat.eqb_eq. apply length_zero_iff_nil. Qed.
Lemma filter_nil {A} (f : A -> bool) l : filter f l = [] <-> forall x, In x l -> f x = false.
Proof.
  induction l as [|a l IH]; cbn; [tauto|]. destruct (f a) eqn:E; split; intros H.
  - discriminate.
  - specialize (H a (or_introl eq_refl)). congruence.
  - intros x [<-|Hx]; [exact E|]. now apply IH.
  - apply IH. auto.
Qed.

Lemma and_iff_lr A B C D : (A <-> C) -> (B <-> D) -> (A /\ B <-> C /\ D).
Proof. tauto. Qed.

(** What the selection test says. *)
Definition sel_ok (g : ggraph) (rem : list nat) (i : nat) : Prop :=
  (forall k, (k < gn g)%nat -> ~ In k rem -> gm g k i <> 1) /\
  (forall x y, undirected g x i -> ~ In x rem -> (y < gn g)%nat -> ~ In y rem -> x <> y ->
     gm g i y = 1 \/ gm g y i = 1 \/ undirected g y i -> gm g x y <> 0).
Lemma in_Nx g rem i x : (i < gn g)%nat -> In x (Nx g rem i) <-> undirected g x i /\ ~ In x rem.
Proof.
  intros Hi. unfold Nx. rewrite filter_In, in_seq0, !andb_true_iff, !Z.eqb_eq, alive_iff. unfold undirected. tauto.
Qed.
Lemma in_Ax g rem i y : (i < gn g)%nat -> In y (Ax g rem i) <->
  (y < gn g)%nat /\ ~ In y rem /\ (gm g i y = 1 \/ gm g y i = 1 \/ undirected g y i).
Proof.
  intros Hi. unfold Ax. rewrite filter_In, in_seq0, orb_true_iff, andb_true_iff, orb_true_iff, !Z.eqb_eq, alive_iff, memb_In, in_Nx by exact Hi.
  tauto.
Qed.
Lemma check2_iff g rem i : (i < gn g)%nat -> check2 g (Nx g rem i) (Ax g rem i) = true <->
  (forall x y, undirected g x i -> ~ In x rem -> (y < gn g)%nat -> ~ In y rem -> x <> y ->
     gm g i y = 1 \/ gm g y i = 1 \/ undirected g y i -> gm g x y <> 0).
Proof.
  intros Hi. unfold check2. rewrite forallb_forall. split.
  - intros H x y Ux Hx Hy Hyr Hne Hadj. assert (Hin : In x (Nx g rem i)) by now apply in_Nx.
    specialize (H x Hin). apply len0 in H. rewrite filter_nil in H. apply Z.eqb_neq, H.
    apply filter_In. rewrite in_Ax by exact Hi. split; [tauto|]. apply negb_true_iff, Nat.eqb_neq. auto.
  - intros H x Hx. apply in_Nx in Hx; [|exact Hi]. apply len0, filter_nil. intros y Hy. apply filter_In in Hy.
    rewrite in_Ax, negb_true_iff, Nat.eqb_neq in Hy by exact Hi. apply Z.eqb_neq. apply H; try tauto. intros ->. tauto.
Qed.
Lemma selectable_iff g rem i : (i < gn g)%nat -> selectable g rem i = true <-> sel_ok g rem i.
Proof.
  intros Hi. unfold selectable, sel_ok. rewrite andb_true_iff. apply and_iff_lr.
  - unfold no_outgoing. rewrite len0, filter_nil. split.
    + intros H k Hk Ha E. specialize (H k (proj2 (in_seq0 _ _) Hk)). rewrite E in H. cbn in H. apply alive_iff in Ha. congruence.
    + intros H k Hk. apply in_seq0 in Hk. destruct (gm g k i =? 1) eqn:E; [|reflexivity]. cbn. apply not_true_is_false. rewrite alive_iff.
      intros Ha. apply Z.eqb_eq in E. now apply (H k).
  - destruct (Nat.ltb_spec 0 (length (Nx g rem i))) as [L|L]; [now apply check2_iff|].
    split; [|auto]. intros _ x y Ux Hx. exfalso.
    assert (In x (Nx g rem i)) by now apply in_Nx. destruct (Nx g rem i); [contradiction|cbn in L; lia].
Qed.

(* ---------- the loop ---------- *)
Section Loop.
Variable g : ggraph.
Hypothesis Hp : pdag g.

(** Every removed node passed the test against the nodes not removed before it. *)
Definition sel_hist (rem : list nat) : Prop :=
  forall i, In i rem ->
  (forall k, (k < gn g)%nat -> (idx i rem < idx k rem)%nat -> gm g k i <> 1) /\
  (forall x y, undirected g x i -> (idx i rem < idx x rem)%nat -> (y < gn g)%nat -> (idx i rem < idx y rem)%nat -> x <> y ->
     gm g i y = 1 \/ gm g y i = 1 \/ undirected g y i -> gm g x y <> 0).

Definition pinv (s : ggraph * list nat) : Prop :=
  dstate g (fst s) (snd s) /\ sel_hist (snd s) /\ (forall x, In x (snd s) -> (x < gn g)%nat) /\ NoDup (snd s).

Lemma init_inv : pinv (strip g, []).
Proof.
  destruct (strip_spec g Hp) as [Hn Hs]. split; [|split; [|split]]; cbn.
  - split; [exact Hn|]. intros a b Ha Hb. destruct (Hs a b Ha Hb) as [S1 S2]. split; [exact S2|]. cbn.
    split; [lia|]. split; [lia|]. intros U _ _. now apply S1.
  - intros i [].
  - intros x [].
  - constructor.
Qed.

Lemma not_und_sym a b : ~ undirected g a b -> ~ undirected g b a.
Proof. intros H K. apply H. now apply undirected_sym. Qed.

Lemma und_dec a b : {undirected g a b} + {~ undirected g a b}.
Proof.
  destruct (lt_dec a (gn g)) as [Ha|Ha]; [|right; intros (X & _); lia].
  destruct (lt_dec b (gn g)) as [Hb|Hb]; [|right; intros (_ & X & _); lia].
  destruct (Z.eq_dec (gm g a b) (-1)) as [E1|E1]; [|right; intros (_ & _ & X & _); lia].
  destruct (Z.eq_dec (gm g b a) (-1)) as [E2|E2]; [|right; intros (_ & _ & _ & X); lia].
  left. split; auto.
Qed.

Lemma step_inv s i : (i < gn g)%nat -> pinv s ->
  pinv (pd_step g s i) /\ incl (snd s) (snd (pd_step g s i)).
Proof.
  intros Hi HI. unfold pd_step. destruct (memb i (snd s)) eqn:EM; [split; [exact HI|apply incl_refl]|].
  destruct (selectable g (snd s) i) eqn:ES; [|split; [exact HI|apply incl_refl]].
  apply memb_not_In in EM. apply selectable_iff in ES; [|exact Hi].
  destruct s as [d rem]. cbn [fst snd] in *. destruct HI as ([Hn Hd] & Hsel & Hb & Hnd). cbn [fst snd] in *.
  pose proof (proj1 Hp) as Hw.
  split; [|intros x Hx; apply in_or_app; auto].
  set (ks := filter (fun k => (gm g k i =? -1) && (gm g i k =? -1)) (seq 0 (gn g))).
  assert (Hks : forall k, In k ks <-> undirected g k i).
  { intros k. unfold ks. rewrite filter_In, in_seq0, andb_true_iff, !Z.eqb_eq. unfold undirected. tauto. }
  assert (Lt : forall k, In k rem -> (idx k rem < idx i rem)%nat).
  { intros k Hk. apply idx_in in Hk. assert (~ (idx i rem < length rem)%nat) by (now rewrite <- idx_in). pose proof (idx_le i rem). lia. }
  destruct (into_fold g i rem ks Hw Hi EM (fun k Hk => proj1 (Hks k) Hk) d Hn) as (F1 & F2 & F3 & F4).
  { intros k Uk Hk. pose proof Uk as (X1 & X2 & _ & _). split.
    - apply (Hd k i X1 X2); auto.
    - apply (Hd i k X2 X1); auto using undirected_sym. }
  { intros k Uk Hk. pose proof Uk as (X1 & X2 & _ & _). left. split.
    - apply (Hd k i X1 X2); auto.
    - apply (Hd i k X2 X1); auto using undirected_sym. }
  set (d' := fold_left (fun d k => add_edge d (Edge k i TAIL ARROW)) ks d) in *.
  assert (Ii : idx i (rem ++ [i]) = length rem) by now apply idx_snoc_i.
  assert (Mono : forall a b, (idx a (rem ++ [i]) < idx b (rem ++ [i]))%nat ->
     (a = i /\ ~ In b rem /\ b <> i) \/ (In a rem /\ (idx a rem < idx b rem)%nat)).
  { intros a b H. destruct (in_dec Nat.eq_dec a rem) as [Ha|Ha].
    - right. split; [exact Ha|]. rewrite (idx_snoc_in a) in H by exact Ha.
      destruct (in_dec Nat.eq_dec b rem) as [Hb'|Hb']; [now rewrite idx_snoc_in in H|].
      apply idx_in in Ha. assert (~ (idx b rem < length rem)%nat) by (now rewrite <- idx_in). lia.
    - left. destruct (Nat.eq_dec a i) as [->|N].
      + split; [reflexivity|]. rewrite Ii in H. split.
        * intros Hb'. rewrite idx_snoc_in in H by exact Hb'. apply idx_in in Hb'. lia.
        * intros ->. lia.
      + rewrite idx_snoc_out in H by auto.
        pose proof (idx_le b (rem ++ [i])). rewrite app_length in H0. cbn in H0. lia. }
  assert (Pair : forall k, undirected g k i -> (In k rem -> gm d' k i = 1 /\ gm d' i k = -1) /\ (~ In k rem -> gm d' k i = -1 /\ gm d' i k = 1)).
  { intros k Uk. split; [now apply F3|]. intros Hk. apply F4; auto. right. now apply Hks. }
  split; [|split; [|split]]; cbn [fst snd].
  - split; [exact F1|]. intros a b Ha Hb'. destruct (Hd a b Ha Hb') as (D1 & D2 & D3 & D4).
    split; [|split; [|split]].
    + intros N. rewrite F2 by tauto. now apply D1.
    + intros U L. apply Mono in L. destruct L as [(-> & L1 & L2)|[L1 L2]].
      * apply (Pair a U). exact L1.
      * destruct (Nat.eq_dec a i) as [->|N].
        -- destruct (Pair b (undirected_sym _ _ _ U)) as [P1 _]. apply P1. exact L1.
        -- rewrite F2; [now apply D2|]. intros [[->| ->] _]; [congruence|]. contradiction.
    + intros U L. apply Mono in L. destruct L as [(-> & L1 & L2)|[L1 L2]].
      * apply (Pair b (undirected_sym _ _ _ U)). exact L1.
      * destruct (Nat.eq_dec b i) as [->|N].
        -- apply (Pair a U). exact L1.
        -- rewrite F2; [now apply D3|]. intros [[->| ->] _]; [contradiction|congruence].
    + intros U N1 N2. rewrite F2; [apply D4; auto; intros H; [apply N1|apply N2]; apply in_or_app; auto|].
      intros [[->| ->] _]; [apply N1|apply N2]; apply in_or_app; cbn; auto.
  - intros j Hj. destruct (in_dec Nat.eq_dec j rem) as [Hjr|Hjr].
    + assert (Hji : j <> i) by congruence. destruct (Hsel j Hjr) as [S1 S2].
      assert (M : forall k, (idx j (rem ++ [i]) < idx k (rem ++ [i]))%nat -> (idx j rem < idx k rem)%nat).
      { intros k L. apply Mono in L. destruct L as [[? _]|[_ L]]; [contradiction|exact L]. }
      split.
      * intros k Hk L. apply S1; auto.
      * intros x y Ux Lx Hy Ly. apply S2; auto.
    + assert (j = i) by (apply in_app_or in Hj; destruct Hj as [|[|[]]]; [contradiction|congruence]). subst j.
      assert (M : forall k, (idx i (rem ++ [i]) < idx k (rem ++ [i]))%nat -> ~ In k rem).
      { intros k L. apply Mono in L. destruct L as [(_ & L & _)|[L _]]; [exact L|contradiction]. }
      destruct ES as [E1 E2]. split.
      * intros k Hk L. apply E1; auto.
      * intros x y Ux Lx Hy Ly. apply E2; auto.
  - intros x Hx. apply in_app_or in Hx. destruct Hx as [Hx|[<-|[]]]; auto.
  - apply NoDup_rev in Hnd. rewrite <- (rev_involutive (rem ++ [i])). apply NoDup_rev. rewrite rev_app_distr. cbn. constructor; [|exact Hnd].
    now rewrite <- in_rev.
Qed.

Lemma pass_inv l : forall s, (forall i, In i l -> (i < gn g)%nat) -> pinv s ->
  pinv (fold_left (pd_step g) l s) /\ incl (snd s) (snd (fold_left (pd_step g) l s)).
Proof.
  induction l as [|i l IH]; intros s Hl HI; cbn; [split; [exact HI|apply incl_refl]|].
  destruct (step_inv s i) as [I1 I2]; auto; [apply Hl; now left|].
  destruct (IH (pd_step g s i)) as [I3 I4]; auto; [intros; apply Hl; now right|].
  split; [exact I3|]. eapply incl_tran; eauto.
Qed.

(** When every node has been removed, the graph under construction is a consistent extension. *)
Lemma done_extension d rem : pinv (d, rem) -> (forall i, (i < gn g)%nat -> In i rem) -> extension g d.
Proof.
  intros ([Hn Hd] & Hsel & Hb & _) Hall. cbn [fst snd] in *. pose proof (proj1 Hp) as Hw.
  assert (Tot : forall a b, (a < gn g)%nat -> (b < gn g)%nat -> a <> b -> (idx a rem < idx b rem)%nat \/ (idx b rem < idx a rem)%nat).
  { intros a b Ha Hb' Hne. destruct (Nat.lt_trichotomy (idx a rem) (idx b rem)) as [H|[H|H]]; auto.
    exfalso. apply Hne. apply (idx_inj a b rem); auto. }
  (* every edge of the result points to the node removed earlier *)
  assert (Code : forall a b, (a < gn g)%nat -> (b < gn g)%nat ->
     (gm g a b = 0 /\ gm g b a = 0 /\ gm d a b = 0 /\ gm d b a = 0) \/
     (directed g a b /\ gm d a b = -1 /\ gm d b a = 1 /\ (idx b rem < idx a rem)%nat) \/
     (directed g b a /\ gm d a b = 1 /\ gm d b a = -1 /\ (idx a rem < idx b rem)%nat) \/
     (undirected g a b /\ gm d a b = -1 /\ gm d b a = 1 /\ (idx b rem < idx a rem)%nat) \/
     (undirected g a b /\ gm d a b = 1 /\ gm d b a = -1 /\ (idx a rem < idx b rem)%nat)).
  { intros a b Ha Hb'. destruct (Hd a b Ha Hb') as (D1 & D2 & D3 & _). destruct (Hd b a Hb' Ha) as (D1' & D2' & D3' & _).
    assert (Out : forall x y, directed g x y -> (idx y rem < idx x rem)%nat).
    { intros x y (X1 & X2 & E1 & E2). destruct (Nat.eq_dec x y) as [->|N].
      - destruct Hw as [Hdg _]. rewrite Hdg in E1 by exact X1. discriminate.
      - destruct (Tot x y X1 X2 N) as [L|L]; [|exact L]. exfalso. destruct (Hsel x (Hall x X1)) as [S1 _]. apply (S1 y X2 L E2). }
    destruct (pair_cases_pdag g Hp a b Ha Hb') as [[E1 E2]|[E|[E|E]]].
    - left. rewrite D1, D1' by (intros (_ & _ & X & Y); lia). auto.
    - right. left. pose proof E as (_ & _ & E1 & E2). rewrite D1, D1' by (intros (_ & _ & X & Y); lia). auto.
    - right. right. left. pose proof E as (_ & _ & E1 & E2). rewrite D1, D1' by (intros (_ & _ & X & Y); lia). auto.
    - pose proof (undirected_neq _ _ _ Hw E) as Hne. pose proof (undirected_sym _ _ _ E) as E'.
      destruct (Tot a b Ha Hb' Hne) as [L|L]; right; right; right; [right|left]; auto. }
  assert (Hwd : wf d).
  { split; rewrite Hn.
    - intros i Hi. destruct (Code i i Hi Hi) as [(_ & _ & E & _)|[(_ & _ & _ & L)|[(_ & _ & _ & L)|[(_ & _ & _ & L)|(_ & _ & _ & L)]]]]; [exact E|lia..].
    - intros i j Hi Hj. unfold legal_pair, legal_pairs.
      destruct (Code i j Hi Hj) as [(_ & _ & -> & ->)|[(_ & -> & -> & _)|[(_ & -> & -> & _)|[(_ & -> & -> & _)|(_ & -> & -> & _)]]]]; cbn; tauto. }
  split; [exact Hn|]. split; [|split; [|split]].
  - split; [exact Hwd|]. split.
    + apply (rank_acyclic (dedge d) (fun v => (length rem - idx v rem)%nat)).
      intros a b (Ha & Hb' & HE). rewrite Hn in Ha, Hb'. pose proof (idx_le a rem).
      destruct (Code a b Ha Hb') as [(_ & _ & E1 & E2)|[(_ & E1 & E2 & L)|[(_ & E1 & E2 & L)|[(_ & E1 & E2 & L)|(_ & E1 & E2 & L)]]]]; lia.
    + rewrite Hn. intros i j Hi Hj N.
      destruct (Code i j Hi Hj) as [(_ & _ & E1 & E2)|[(_ & E1 & E2 & L)|[(_ & E1 & E2 & L)|[(_ & E1 & E2 & L)|(_ & E1 & E2 & L)]]]]; lia.
  - intros a b. unfold joined. rewrite Hn. split; intros (Ha & Hb' & N); (split; [exact Ha|]; split; [exact Hb'|]);
    destruct (Code a b Ha Hb') as [(Z1 & Z2 & E1 & E2)|[((_ & _ & K & _) & E1 & E2 & L)|[((_ & _ & _ & K) & E1 & E2 & L)|[((_ & _ & K & _) & E1 & E2 & L)|((_ & _ & K & _) & E1 & E2 & L)]]]]; lia.
  - intros a b HD. pose proof HD as (Ha & Hb' & E1 & E2). unfold directed. rewrite Hn.
    destruct (Hd a b Ha Hb') as (D1 & _). destruct (Hd b a Hb' Ha) as (D1' & _).
    rewrite D1, D1' by (intros (_ & _ & X & Y); lia). auto.
  - intros a b c (Ha & Hb' & Hc & Hne & E1 & E2 & E3 & E4 & E5). rewrite Hn in *.
    assert (Zac : gm g a c = 0).
    { destruct (Code a c Ha Hc) as [(Z1 & _)|[(_ & K & _)|[(_ & K & _)|[(_ & K & _)|(_ & K & _)]]]]; lia. }
    assert (Zca : gm g c a = 0) by (pose proof (proj2 Hw a c Ha Hc) as Hl; rewrite Zac in Hl; now apply legal_zero).
    assert (Ka : (directed g a b \/ undirected g a b) /\ (idx b rem < idx a rem)%nat).
    { destruct (Code a b Ha Hb') as [(_ & _ & _ & K)|[(K0 & _ & K & L)|[(_ & _ & K & L)|[(K0 & _ & K & L)|(_ & _ & K & L)]]]]; try lia; auto. }
    assert (Kc : (directed g c b \/ undirected g c b) /\ (idx b rem < idx c rem)%nat).
    { destruct (Code c b Hc Hb') as [(_ & _ & _ & K)|[(K0 & _ & K & L)|[(_ & _ & K & L)|[(K0 & _ & K & L)|(_ & _ & K & L)]]]]; try lia; auto. }
    destruct Ka as [Ka La], Kc as [Kc Lc]. destruct (Hsel b (Hall b Hb')) as [_ S2].
    destruct Ka as [Ka|Ka].
    + destruct Kc as [Kc|Kc].
      * destruct Ka as (_ & _ & X1 & X2), Kc as (_ & _ & X3 & X4).
        unfold ucollider. repeat (split; [first [assumption|lia]|]). exact Zac.
      * exfalso. apply (S2 c a Kc Lc Ha La); auto. left. apply Ka.
    + exfalso. apply (S2 a c Ka La Hc Lc); auto. destruct Kc as [Kc|Kc]; [left; apply Kc|auto].
Qed.

Lemma loop_extension fuel : forall s d, pinv s -> pd_loop fuel g s = Some d -> extension g d.
Proof.
  induction fuel as [|f IH]; intros [d0 rem] d HI E; cbn in E.
  - destruct (forallb _ _) eqn:EF; [|discriminate]. injection E as <-. rewrite forallb_forall in EF.
    apply (done_extension d0 rem HI). intros i Hi. apply memb_In, EF, in_seq0, Hi.
  - destruct (forallb _ _) eqn:EF.
    + injection E as <-. rewrite forallb_forall in EF. apply (done_extension d0 rem HI). intros i Hi. apply memb_In, EF, in_seq0, Hi.
    + apply (IH (pd_pass g (d0, rem))); [|exact E]. apply pass_inv; [intros i Hi; now apply in_seq0|exact HI].
Qed.

(** A node with no successor in some consistent extension among the nodes still present passes the test. *)
Lemma sink_selectable D rem i : extension g D -> (i < gn g)%nat -> (forall k, ~ In k rem -> ~ directed D i k) ->
  selectable g rem i = true.
Proof.
  intros HX Hi Hsink. apply selectable_iff; [exact Hi|]. pose proof (proj1 Hp) as Hw.
  pose proof HX as (Hn & Hdag & Hj & Hdir & Hu).
  assert (Into : forall k, (k < gn g)%nat -> ~ In k rem -> gm g k i <> 0 -> directed D k i).
  { intros k Hk Ha N. destruct (ext_joined_dir g D k i Hw HX Hk Hi N) as [|K]; [assumption|]. exfalso. now apply (Hsink k Ha). }
  split.
  - intros k Hk Ha E. assert (Dik : directed g i k).
    { destruct (pair_cases_pdag g Hp k i Hk Hi) as [[X _]|[(_ & _ & X & _)|[X|(_ & _ & X & _)]]]; [lia|lia|exact X|lia]. }
    apply (Hsink k Ha). now apply Hdir.
  - intros x y Ux Hx Hy Hyr Hne Hadj Z0.
    assert (Dx : directed D x i) by (apply Into; auto; [apply Ux|destruct Ux as (_ & _ & X & _); lia]).
    assert (Dy : directed D y i).
    { apply Into; auto. destruct Hadj as [A|[A|A]].
      - pose proof (proj2 Hw i y Hi Hy) as Hl. rewrite A in Hl. intros Z1. rewrite Z1 in Hl.
        clear -Hl. unfold legal_pair, legal_pairs in Hl. cbn in Hl. intuition congruence.
      - lia.
      - destruct A as (_ & _ & A & _). lia. }
    assert (C : ucollider D x i y).
    { destruct Dx as (X1 & X2 & X3 & X4), Dy as (X5 & X6 & X7 & X8).
      unfold ucollider. repeat (split; [first [assumption|lia]|]).
      destruct (Z.eq_dec (gm D x y) 0) as [|N]; [assumption|]. exfalso.
      assert (JJ : joined D x y) by (split; auto). apply Hj in JJ. destruct JJ as (_ & _ & JJ). contradiction. }
    apply Hu in C. destruct C as (_ & _ & _ & _ & C & _). destruct Ux as (_ & _ & _ & X). lia.
Qed.

Lemma exists_sink D rem : extension g D -> (exists v, (v < gn g)%nat /\ ~ In v rem) ->
  exists i, (i < gn g)%nat /\ ~ In i rem /\ forall k, ~ In k rem -> ~ directed D i k.
Proof.
  intros (Hn & Hdag & _) (v & Hv & Hvr). pose proof Hdag as (_ & Hacy & _).
  destruct (exists_min_rank (fun x => (gn D - rank D x)%nat) (filter (alive rem) (seq 0 (gn g)))) as (m & Hm & Hmin).
  - intros E. assert (In v (filter (alive rem) (seq 0 (gn g)))) by (apply filter_In; rewrite in_seq0, alive_iff; auto).
    rewrite E in H. contradiction.
  - apply filter_In in Hm. rewrite in_seq0, alive_iff in Hm. destruct Hm as [Hm1 Hm2]. exists m. split; [exact Hm1|]. split; [exact Hm2|].
    intros k Hk Dk. pose proof Dk as (_ & Hk2 & _). rewrite Hn in Hk2.
    specialize (Hmin k). rewrite filter_In, in_seq0, alive_iff in Hmin. specialize (Hmin (conj Hk2 Hk)).
    rewrite <- dag_dedge in Dk by exact Hdag. pose proof (rank_lt D m k Hacy Dk).
    assert ((rank D k <= gn D)%nat) by (apply rank_le_n; lia). lia.
Qed.

Definition left_over (rem : list nat) : nat := length (filter (alive rem) (seq 0 (gn g))).
Lemma left_over_lt rem rem' i : incl rem rem' -> (i < gn g)%nat -> ~ In i rem -> In i rem' -> (left_over rem' < left_over rem)%nat.
Proof.
  intros Hincl Hi H1 H2. unfold left_over. apply filter_lt with (x := i).
  - intros x _. rewrite !alive_iff. intros H K. apply H. auto.
  - now apply in_seq0.
  - apply not_true_is_false. rewrite alive_iff. tauto.
  - now apply alive_iff.
Qed.

Lemma pass_progress D s : extension g D -> pinv s -> (exists v, (v < gn g)%nat /\ ~ In v (snd s)) ->
  (left_over (snd (pd_pass g s)) < left_over (snd s))%nat.
Proof.
  intros HX HI Hv. destruct (exists_sink D (snd s) HX Hv) as (i & Hi & Hir & Hsink).
  unfold pd_pass.
  assert (Hsplit : exists l r, seq 0 (gn g) = l ++ i :: r) by (apply in_split; now apply in_seq0).
  destruct Hsplit as (l & r & E). assert (Hall : forall k, In k (seq 0 (gn g)) -> (k < gn g)%nat) by (intros k Hk; now apply in_seq0).
  destruct (pass_inv (seq 0 (gn g)) s Hall HI) as [_ Hincl].
  apply left_over_lt with (i := i); auto.
  rewrite E in Hall |- *. rewrite fold_left_app. cbn.
  destruct (pass_inv l s) as [I1 I2]; auto. { intros k Hk. apply Hall. apply in_or_app. auto. }
  destruct (step_inv (fold_left (pd_step g) l s) i Hi I1) as [I3 I4].
  destruct (pass_inv r (pd_step g (fold_left (pd_step g) l s) i)) as [_ I6]; auto.
  { intros k Hk. apply Hall. apply in_or_app. right. now right. }
  apply I6. unfold pd_step at 1. destruct (memb i (snd (fold_left (pd_step g) l s))) eqn:EM; [now apply memb_In|].
  rewrite (sink_selectable D); auto.
  cbn. apply in_or_app. right. now left.
Qed.

Lemma loop_returns D fuel : extension g D -> forall s, pinv s -> (left_over (snd s) <= fuel)%nat -> exists d, pd_loop fuel g s = Some d.
Proof.
  intros HX. induction fuel as [|f IH]; intros s HI Hf; cbn.
  - destruct (forallb _ _) eqn:EF; [eauto|]. exfalso.
    apply not_true_iff_false in EF. apply EF. rewrite forallb_forall. intros i Hi. apply memb_In.
    destruct (in_dec Nat.eq_dec i (snd s)) as [|N]; [assumption|]. exfalso.
    assert (K : In i (filter (alive (snd s)) (seq 0 (gn g)))) by (apply filter_In; rewrite alive_iff; auto).
    unfold left_over in Hf. destruct (filter (alive (snd s)) (seq 0 (gn g))); [contradiction|cbn in Hf; lia].
  - destruct (forallb (fun i => memb i (snd s)) (seq 0 (gn g))) eqn:EF; [eauto|]. apply IH.
    + apply pass_inv; [intros i Hi; now apply in_seq0|exact HI].
    + assert (Hv : exists v, (v < gn g)%nat /\ ~ In v (snd s)).
      { apply not_true_iff_false in EF. rewrite forallb_forall in EF.
        destruct (existsb (alive (snd s)) (seq 0 (gn g))) eqn:EX.
        - apply existsb_exists in EX. destruct EX as (v & H1 & H2). rewrite in_seq0 in H1. rewrite alive_iff in H2. eauto.
        - exfalso. apply EF. intros x Hx. destruct (memb x (snd s)) eqn:M; [reflexivity|]. exfalso.
          assert (existsb (alive (snd s)) (seq 0 (gn g)) = true); [|congruence].
          apply existsb_exists. exists x. split; [exact Hx|]. unfold alive. now rewrite M. }
      pose proof (pass_progress D s HX HI Hv). lia.
Qed.
End Loop.
