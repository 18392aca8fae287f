(** The causal order of the clusters and the graph built from it. *)
From Coq Require Import Permutation.
From Verif Require Import Base EdgeModel GraphModel GraphSpec GraphProofs UtilsModel UtilsProofs NamedModel NamedProofs SkelModel SkelProofs GINModel GINSpec GINProofs.

Lemma forallb_exists_false' {A} (f : A -> bool) l : forallb f l = false -> exists x, In x l /\ f x = false.
Proof.
  induction l as [|a l IH]; cbn; [discriminate|]. destruct (f a) eqn:E; [intros K; destruct (IH K) as (x & K1 & K2); eauto|eauto].
Qed.
(** ** The order *)
Section Order.
Variables (indep : list nat -> list nat -> nat -> Z) (fisher : list Z -> Z) (alpha : Z).
Notation passes := (passes indep fisher alpha).
Lemma remove_first_perm c : forall l, In c l -> Permutation (c :: remove_first c l) l.
Proof.
  induction l as [|a l IH]; [easy|]. intros H. cbn [remove_first]. destruct (list_eq_dec Nat.eq_dec a c) as [->|N]; [apply Permutation_refl|].
  destruct H as [H|H]; [congruence|]. eapply perm_trans; [apply perm_swap|]. apply perm_skip. now apply IH.
Qed.
Lemma root_iff order cls i : NoDup cls -> i < length cls ->
  (is_root indep fisher alpha order cls i = true <-> forall c, In c cls -> c <> nth i cls [] -> passes order (nth i cls []) c = true).
Proof.
  intros ND Hi. unfold is_root. rewrite forallb_forall. split.
  - intros H c Hc N. destruct (In_nth cls c [] Hc) as (j & Hj & <-). specialize (H j (proj2 (in_seq0 _ j) Hj)). apply orb_true_iff in H. destruct H as [H|H]; [|exact H].
    apply Nat.eqb_eq in H. subst j. congruence.
  - intros H j Hj. apply in_seq0 in Hj. apply orb_true_iff. destruct (Nat.eqb_spec i j) as [|N]; [now left|right]. apply H; [now apply nth_In|].
    intros E. apply N. symmetry. apply (proj1 (NoDup_nth cls []) ND j i Hj Hi E).
Qed.
Lemma order_loop_spec fuel : forall order cls, NoDup cls -> length cls <= fuel ->
  exists o r, order_loop indep fisher alpha fuel order cls = Some (order ++ o, r) /\ Permutation (o ++ r) cls /\
    (forall k, k < length o -> forall c, In c (skipn (S k) o ++ r) -> passes (order ++ firstn k o) (nth k o []) c = true) /\
    (forall c, In c r -> exists c', In c' r /\ c' <> c /\ passes (order ++ o) c c' = false).
Proof.
  induction fuel as [|fuel IH]; intros order cls ND Hf; cbn [order_loop].
  - destruct cls; [|cbn in Hf; lia]. cbn. exists [], []. rewrite app_nil_r. split; [reflexivity|]. split; [constructor|]. split; [intros k Hk; cbn in Hk; lia|intros c []].
  - destruct (find (is_root indep fisher alpha order cls) (seq 0 (length cls))) as [i|] eqn:E.
    + apply find_some in E. destruct E as [Hi Hr]. apply in_seq0 in Hi. pose proof (proj1 (root_iff order cls i ND Hi) Hr) as Hr0. clear Hr. rename Hr0 into Hr. set (c0 := nth i cls []) in *.
      assert (Ic : In c0 cls) by (now apply nth_In). pose proof (remove_first_perm c0 cls Ic) as HP.
      assert (ND2 : NoDup (c0 :: remove_first c0 cls)) by (eapply Permutation_NoDup; [apply Permutation_sym; exact HP|exact ND]). inversion ND2 as [|? ? N1 N2]; subst.
      destruct (IH (order ++ [c0]) (remove_first c0 cls) N2) as (o & r & -> & P1 & P2 & P3).
      { apply Permutation_length in HP. cbn in HP. lia. }
      exists (c0 :: o), r. rewrite <- app_assoc. split; [reflexivity|]. split; [cbn; eapply perm_trans; [apply perm_skip; exact P1|exact HP]|]. split.
      * intros [|k] Hk c Hc; cbn [skipn firstn nth] in *.
        -- rewrite app_nil_r. apply Hr.
           ++ apply (Permutation_in c HP). right. apply (Permutation_in c P1). exact Hc.
           ++ intros ->. apply N1. apply (Permutation_in c0 P1). exact Hc.
        -- replace (order ++ c0 :: firstn k o) with ((order ++ [c0]) ++ firstn k o) by (rewrite <- app_assoc; reflexivity). apply P2; [cbn in Hk; lia|exact Hc].
      * intros c Hc. replace (order ++ c0 :: o) with ((order ++ [c0]) ++ o) by (rewrite <- app_assoc; reflexivity). now apply P3.
    + exists [], cls. rewrite app_nil_r. split; [reflexivity|]. split; [apply Permutation_refl|]. split; [intros k Hk; cbn in Hk; lia|].
      intros c Hc. destruct (In_nth cls c [] Hc) as (i & Hi & <-). pose proof (find_none _ _ E i (proj2 (in_seq0 _ i) Hi)) as K.
      unfold is_root in K. destruct (forallb_exists_false' _ _ K) as (j & Hj & K2). apply in_seq0 in Hj. apply orb_false_iff in K2. destruct K2 as [K2 K3]. apply Nat.eqb_neq in K2.
      exists (nth j cls []). split; [now apply nth_In|]. split; [|exact K3]. intros E2. apply K2. symmetry. apply (proj1 (NoDup_nth cls []) ND j i Hj Hi E2).
Qed.
End Order.

(** ** Running node and edge additions *)
Section Run.
Variable M : nat -> nat -> Z.
Definition touches (o : nop) (a b : nat) : Prop :=
  match o with NAddDirected x y | NAddEdge x y _ _ => (x = a /\ y = b) \/ (x = b /\ y = a) | _ => False end.
Definition touched (ops : list nop) (a b : nat) : Prop := exists o, In o ops /\ touches o a b.
Fixpoint run_ok (nds : list nat) (ops : list nop) : Prop :=
  match ops with
  | [] => True
  | NAdd v :: r => run_ok (if existsb (Nat.eqb v) nds then nds else nds ++ [v]) r
  | NAddDirected a b :: r => In a nds /\ In b nds /\ a <> b /\ M a b = (-1)%Z /\ M b a = 1%Z /\ run_ok nds r
  | NAddEdge a b TAIL TAIL :: r => In a nds /\ In b nds /\ a <> b /\ M a b = (-1)%Z /\ M b a = (-1)%Z /\ run_ok nds r
  | _ => False
  end.
Fixpoint final (nds : list nat) (ops : list nop) : list nat :=
  match ops with [] => nds | NAdd v :: r => final (if existsb (Nat.eqb v) nds then nds else nds ++ [v]) r | _ :: r => final nds r end.
Definition NI (G : ngraph) (done : list nop) : Prop :=
  consistent G /\ wf (ng G) /\ (forall a b, touched done a b -> In a (nodes G) /\ In b (nodes G)) /\
  forall a b, In a (nodes G) -> In b (nodes G) -> (touched done a b /\ cell G a b = M a b) \/ (~ touched done a b /\ cell G a b = 0%Z).
Lemma touched_snoc done o a b : touched (done ++ [o]) a b <-> touched done a b \/ touches o a b.
Proof.
  split.
  - intros (x & Hx & T). apply in_app_iff in Hx. destruct Hx as [Hx|[<-|[]]]; [left; exists x; auto|now right].
  - intros [(x & Hx & T)|T]; [exists x; split; [apply in_app_iff; auto|exact T]|exists o; split; [apply in_app_iff; right; now left|exact T]].
Qed.
Lemma touches_sym o a b : touches o a b -> touches o b a. Proof. destruct o; cbn; tauto. Qed.
Lemma cell_idx G a b i j : consistent G -> nth_error (nodes G) i = Some a -> nth_error (nodes G) j = Some b -> cell G a b = gm (ng G) i j.
Proof. intros HC Hi Hj. unfold cell, id_of. now rewrite (proj2 (consistent_get G a i HC) Hi), (proj2 (consistent_get G b j HC) Hj). Qed.
Lemma NI_add G done v : NI G done -> NI (fst (nadd_node G v)) (done ++ [NAdd v]) /\ nodes (fst (nadd_node G v)) = if existsb (Nat.eqb v) (nodes G) then nodes G else nodes G ++ [v].
Proof.
  intros (HC & HW & HT & HM).
  assert (T : forall a b, touched (done ++ [NAdd v]) a b <-> touched done a b) by (intros a b; rewrite touched_snoc; cbn [touches]; tauto).
  pose proof (add_consistent G v HC) as HC'. pose proof (add_wf G v HW) as HW'. revert HC' HW'. unfold nadd_node. destruct (existsb (Nat.eqb v) (nodes G)) eqn:E; cbn [fst]; intros HC' HW'.
  - split; [|reflexivity]. split; [exact HC|]. split; [exact HW|]. split; [intros a b K; apply T in K; auto|]. intros a b Ha Hb. rewrite T. auto.
  - assert (Nv : ~ In v (nodes G)) by (intros K; apply existsb_In in K; congruence). split; [|reflexivity]. split; [exact HC'|]. split; [exact HW'|]. split.
    + intros a b K. apply T, HT in K. cbn [nodes]. rewrite !in_app_iff. tauto.
    + intros a b Ha Hb. rewrite T. cbn [nodes] in Ha, Hb.
      destruct (In_nth_error _ _ Ha) as (i & Ei). destruct (In_nth_error _ _ Hb) as (j & Ej). rewrite (cell_idx _ a b i j HC' Ei Ej). cbn [ng gm]. destruct HC as (H1 & H2 & H3). rewrite H2.
      destruct (Nat.lt_ge_cases i (length (nodes G))) as [Li|Li]; [destruct (Nat.lt_ge_cases j (length (nodes G))) as [Lj|Lj]|].
      * rewrite pad_in by assumption. rewrite nth_error_app1 in Ei, Ej by assumption. rewrite <- (cell_idx G a b i j); [|split; auto|exact Ei|exact Ej]. apply HM; eapply nth_error_In; eauto.
      * rewrite pad_out by (now right). right. split; [|reflexivity]. intros K. apply HT in K. rewrite nth_error_app2 in Ej by assumption.
        destruct (j - length (nodes G)) as [|[|]]; cbn in Ej; [injection Ej as <-; tauto|discriminate|discriminate].
      * rewrite pad_out by (now left). right. split; [|reflexivity]. intros K. apply HT in K. rewrite nth_error_app2 in Ei by assumption.
        destruct (i - length (nodes G)) as [|[|]]; cbn in Ei; [injection Ei as <-; tauto|discriminate|discriminate].
Qed.
(** An edge operation whose effect on the matrix is to write the two cells of the target. *)
Lemma NI_edge G done o a b f : NI G done -> napply G o = on_nodes G a b f -> (forall x y, touches o x y <-> (a = x /\ b = y) \/ (a = y /\ b = x)) ->
  In a (nodes G) -> In b (nodes G) -> a <> b -> nop_ok o ->
  (forall i j, i <> j -> i < gn (ng G) -> j < gn (ng G) -> gm (ng G) i j = cell G a b -> gm (ng G) j i = cell G b a -> gn (f (ng G) i j) = gn (ng G) /\ gm (f (ng G) i j) i j = M a b /\ gm (f (ng G) i j) j i = M b a /\
     forall k l, ~ (k = i /\ l = j) -> ~ (k = j /\ l = i) -> gm (f (ng G) i j) k l = gm (ng G) k l) ->
  exists G', napply G o = Ok G' /\ NI G' (done ++ [o]) /\ nodes G' = nodes G.
Proof.
  intros HN Ho Ht Ha Hb N Hok Hf. pose proof HN as (HC & HW & HT & HM).
  destruct (consistent_in G a HC Ha) as (i & Ei & Li). destruct (consistent_in G b HC Hb) as (j & Ej & Lj).
  assert (Ii := proj1 (consistent_get G a i HC) Ei). assert (Ij := proj1 (consistent_get G b j HC) Ej).
  assert (Nij : i <> j) by congruence.
  destruct (Hf i j Nij Li Lj) as (F1 & F2 & F3 & F4); [symmetry; now apply cell_idx|symmetry; now apply cell_idx|].
  assert (EQ : napply G o = Ok (mkNG (nodes G) (node_map G) (f (ng G) i j))) by (rewrite Ho; unfold on_nodes; now rewrite Ei, Ej).
  destruct (napply_inv G o _ HC HW Hok EQ) as [HC' HW']. eexists. split; [exact EQ|]. split; [|reflexivity]. split; [exact HC'|]. split; [exact HW'|]. cbn [nodes]. split.
  - intros x y K. apply touched_snoc in K. destruct K as [K|K]; [now apply HT|]. apply Ht in K. destruct K as [[<- <-]|[<- <-]]; auto.
  - intros x y Hx Hy. destruct (In_nth_error _ _ Hx) as (k & Ek). destruct (In_nth_error _ _ Hy) as (l & El). rewrite (cell_idx _ x y k l HC' Ek El). cbn [ng]. rewrite touched_snoc, Ht.
    assert (Uk : forall z p q, nth_error (nodes G) p = Some z -> nth_error (nodes G) q = Some z -> p = q).
    { intros z p q Q1 Q2. destruct HC as (ND & _). apply (proj1 (NoDup_nth_error (nodes G)) ND); [|congruence]. apply nth_error_Some. congruence. }
    destruct (Nat.eq_dec x a) as [->|Nxa]; [destruct (Nat.eq_dec y b) as [->|Nyb]|].
    + left. split; [tauto|]. rewrite (Uk a k i Ek Ii), (Uk b l j El Ij). exact F2.
    + rewrite F4; [|intros [_ ->]; congruence|intros [-> _]; congruence]. rewrite <- (cell_idx G a y k l HC Ek El). destruct (HM a y Hx Hy) as [[K1 K2]|[K1 K2]]; [left|right]; split; auto.
      intros [K|[[_ K]|[K K3]]]; [auto|congruence|congruence].
    + destruct (Nat.eq_dec x b) as [->|Nxb]; [destruct (Nat.eq_dec y a) as [->|Nya]|].
      * left. split; [tauto|]. rewrite (Uk b k j Ek Ij), (Uk a l i El Ii). exact F3.
      * rewrite F4; [|intros [-> _]; congruence|intros [_ ->]; congruence]. rewrite <- (cell_idx G b y k l HC Ek El). destruct (HM b y Hx Hy) as [[K1 K2]|[K1 K2]]; [left|right]; split; auto.
        intros [K|[[K _]|[K K3]]]; [auto|congruence|congruence].
      * rewrite F4; [|intros [-> _]; congruence|intros [-> _]; congruence]. rewrite <- (cell_idx G x y k l HC Ek El). destruct (HM x y Hx Hy) as [[K1 K2]|[K1 K2]]; [left|right]; split; auto.
        intros [K|[[K _]|[_ K]]]; [auto|congruence|congruence].
Qed.
Lemma touched_app d1 d2 a b : touched (d1 ++ d2) a b <-> touched d1 a b \/ touched d2 a b.
Proof. unfold touched. split; [intros (o & H & T); apply in_app_iff in H; destruct H; [left|right]; eauto|intros [(o & H & T)|(o & H & T)]; exists o; rewrite in_app_iff; auto]. Qed.
Lemma run_spec ops : forall G done, NI G done -> run_ok (nodes G) ops -> exists G', nrun G ops = Ok G' /\ NI G' (done ++ ops) /\ nodes G' = final (nodes G) ops.
Proof.
  induction ops as [|o ops IH]; intros G done HN HR.
  - exists G. rewrite app_nil_r. auto.
  - assert (ST : exists G1, napply G o = Ok G1 /\ NI G1 (done ++ [o]) /\ run_ok (nodes G1) ops /\ final (nodes G) (o :: ops) = final (nodes G1) ops).
    { destruct o as [v|v|a b p q|a b|a b p q|a b]; cbn [run_ok] in HR; try contradiction.
      - destruct (NI_add G done v HN) as [K1 K2]. exists (fst (nadd_node G v)). split; [reflexivity|]. split; [exact K1|]. rewrite K2. split; [exact HR|reflexivity].
      - destruct p; try contradiction. destruct q; try contradiction. destruct HR as (Ha & Hb & N & M1 & M2 & HR).
        destruct (NI_edge G done (NAddEdge a b TAIL TAIL) a b _ HN eq_refl ltac:(intros x y; cbn; tauto) Ha Hb N N) as (G1 & K1 & K2 & K3).
        + intros i j Nij Li Lj E1 E2. pose proof HN as (_ & _ & _ & HM). unfold add_edge, add_edge_full. cbn. rewrite E1, E2.
          assert (C1 : cell G a b = (-1)%Z \/ cell G a b = 0%Z) by (destruct (HM a b Ha Hb) as [[_ K]|[_ K]]; rewrite K; auto).
          assert (C2 : cell G b a = (-1)%Z \/ cell G b a = 0%Z) by (destruct (HM b a Hb Ha) as [[_ K]|[_ K]]; rewrite K; auto).
          assert (C3 : cell G a b = cell G b a).
          { destruct (HM a b Ha Hb) as [[Q K]|[Q K]], (HM b a Hb Ha) as [[Q' K']|[Q' K']]; try congruence; exfalso; [apply Q'|apply Q].
            - destruct Q as (x & Q1 & Q2). exists x. split; [exact Q1|now apply touches_sym].
            - destruct Q' as (x & Q1 & Q2). exists x. split; [exact Q1|now apply touches_sym]. }
          rewrite M1, M2. destruct C1 as [C1|C1]; rewrite <- C3, C1; cbn.
          * split; [reflexivity|]. split; [congruence|]. split; [congruence|auto].
          * split; [reflexivity|]. split; [apply upd2_ij|]. split; [now apply upd2_ji|]. intros; now apply upd2_other.
        + exists G1. rewrite K3. auto.
      - destruct HR as (Ha & Hb & N & M1 & M2 & HR).
        destruct (NI_edge G done (NAddDirected a b) a b add_directed_edge HN eq_refl ltac:(intros x y; cbn; tauto) Ha Hb N N) as (G1 & K1 & K2 & K3).
        + intros i j Nij Li Lj _ _. rewrite M1, M2. cbn. split; [reflexivity|]. split; [apply upd2_ij|]. split; [now apply upd2_ji|]. intros; now apply upd2_other.
        + exists G1. rewrite K3. auto. }
    destruct ST as (G1 & E1 & H1 & R1 & F1). destruct (IH G1 (done ++ [o]) H1 R1) as (G' & E2 & H2 & F2). exists G'. rewrite <- app_assoc in H2. cbn in H2. split; [|split; [exact H2|congruence]].
    unfold nrun. cbn [fold_left res_bind]. rewrite E1. exact E2.
Qed.
Lemma run_new ops : run_ok [] ops -> (forall a b, M a b <> 0%Z -> touched ops a b) -> exists G, nrun (new_ngraph []) ops = Ok G /\ consistent G /\ nodes G = final [] ops /\
  forall a b, In a (nodes G) -> In b (nodes G) -> cell G a b = M a b.
Proof.
  intros HR HT. destruct (run_spec ops (new_ngraph []) []) as (G & E & (HC & _ & _ & HM) & F); [|exact HR|].
  - split; [apply new_consistent; constructor|]. split; [split; [intros i Hi; cbn in Hi; lia|intros i j Hi; cbn in Hi; lia]|]. split; [intros a b (o & [] & _)|intros a b []].
  - exists G. split; [exact E|]. split; [exact HC|]. split; [exact F|]. intros a b Ha Hb. destruct (HM a b Ha Hb) as [[_ K]|[K K2]]; [exact K|]. rewrite K2.
    destruct (Z.eq_dec (M a b) 0) as [Q|Q]; [now rewrite Q|]. exfalso. apply K. now apply HT.
Qed.
End Run.

(** ** The graph of GIN *)
Lemma final_app ops1 : forall nds ops2, final nds (ops1 ++ ops2) = final (final nds ops1) ops2.
Proof. induction ops1 as [|o r IH]; intros nds ops2; [reflexivity|]. cbn [app final]. destruct o; apply IH. Qed.
Lemma run_ok_app M ops1 : forall nds ops2, run_ok M nds ops1 -> run_ok M (final nds ops1) ops2 -> run_ok M nds (ops1 ++ ops2).
Proof.
  induction ops1 as [|o r IH]; intros nds ops2 H1 H2; [exact H2|]. cbn [app run_ok final] in *. destruct o as [v|v|a b p q|a b|a b p q|a b]; try contradiction; [now apply IH| |].
  - destruct p; try contradiction. destruct q; try contradiction. destruct H1 as (? & ? & ? & ? & ? & H1). do 5 (split; [assumption|]). now apply IH.
  - destruct H1 as (? & ? & ? & ? & ? & H1). do 5 (split; [assumption|]). now apply IH.
Qed.
Lemma final_in ops : forall nds v, In v (final nds ops) <-> In v nds \/ In (NAdd v) ops.
Proof.
  induction ops as [|o r IH]; intros nds v; [cbn; tauto|]. destruct o as [u| | | | |]; cbn [final]; rewrite IH; cbn [In]; try (split; [intuition|intros [?|[?|?]]; [auto|discriminate|auto]]).
  destruct (existsb (Nat.eqb u) nds) eqn:E.
  - apply existsb_In in E. split; [intuition|]. intros [?|[[= <-]|?]]; auto.
  - rewrite in_app_iff. cbn [In]. split; [|intros [?|[[= ->]|?]]; auto]. intros [[?|[->|[]]]|?]; auto.
Qed.
Lemma final_nodup ops : forall nds, NoDup nds -> NoDup (final nds ops).
Proof.
  induction ops as [|o r IH]; intros nds H; [exact H|]. destruct o as [u| | | | |]; cbn [final]; apply IH; try exact H.
  destruct (existsb (Nat.eqb u) nds) eqn:E; [exact H|]. apply nodup_app; [exact H|repeat constructor; easy|]. intros x Hx [<-|[]]. apply existsb_In in Hx. congruence.
Qed.

Section Marks.
Variables order cls : list (list nat).
Notation all := (order ++ cls).
Notation N := (length order).
Notation K := (length all).
(** The mark at [a] of the edge between the nodes named [a] and [b]. *)
Definition points (a b : nat) : bool :=
  Nat.odd a && Nat.leb 1 (Nat.div2 a) &&
  (if Nat.odd b then Nat.ltb (Nat.div2 a) (Nat.div2 b) && Nat.leb (Nat.div2 b) K && Nat.leb (Nat.div2 a) N
   else memb (Nat.div2 b) (nth (Nat.div2 a - 1) all [])).
Definition lines (a b : nat) : bool :=
  Nat.odd a && Nat.odd b && Nat.ltb N (Nat.div2 a) && Nat.ltb N (Nat.div2 b) && Nat.leb (Nat.div2 a) K && Nat.leb (Nat.div2 b) K && negb (Nat.eqb a b).
Definition marks (a b : nat) : Z := if points a b then (-1)%Z else if points b a then 1%Z else if lines a b then (-1)%Z else 0%Z.
Lemma odd_lat k : Nat.odd (lat k) = true. Proof. unfold lat. rewrite Nat.add_1_r, Nat.odd_succ, Nat.even_mul. reflexivity. Qed.
Lemma odd_obs k : Nat.odd (obs k) = false. Proof. unfold obs. rewrite Nat.odd_mul. reflexivity. Qed.
Lemma div_lat k : Nat.div2 (lat k) = k. Proof. unfold lat. rewrite Nat.add_1_r. apply Nat.div2_succ_double. Qed.
Lemma div_obs k : Nat.div2 (obs k) = k. Proof. unfold obs. apply Nat.div2_double. Qed.
Lemma name_cases a : (exists k, a = lat k) \/ (exists o, a = obs o).
Proof. unfold lat, obs. destruct (Nat.Even_or_Odd a) as [[k E]|[k E]]; [right|left]; exists k; exact E. Qed.
Lemma points_ll j k : points (lat j) (lat k) = Nat.leb 1 j && (Nat.ltb j k && Nat.leb k K && Nat.leb j N).
Proof. unfold points. now rewrite !odd_lat, !div_lat. Qed.
Lemma points_lo k o : points (lat k) (obs o) = Nat.leb 1 k && memb o (nth (k - 1) all []).
Proof. unfold points. now rewrite odd_lat, odd_obs, div_lat, div_obs. Qed.
Lemma points_o o b : points (obs o) b = false.
Proof. unfold points. now rewrite odd_obs. Qed.
Lemma lines_ll j k : lines (lat j) (lat k) = Nat.ltb N j && Nat.ltb N k && Nat.leb j K && Nat.leb k K && negb (Nat.eqb j k).
Proof. unfold lines. rewrite !odd_lat, !div_lat. do 2 f_equal. destruct (Nat.eqb_spec j k), (Nat.eqb_spec (lat j) (lat k)); auto; unfold lat in *; lia. Qed.
Lemma lines_o o b : lines (obs o) b = false /\ lines b (obs o) = false.
Proof. unfold lines. rewrite odd_obs. split; [reflexivity|]. now destruct (Nat.odd b). Qed.
Lemma marks_ordered j k : 1 <= j -> j < k -> k <= K -> j <= N -> marks (lat j) (lat k) = (-1)%Z /\ marks (lat k) (lat j) = 1%Z.
Proof.
  intros H1 H2 H3 H4. unfold marks. rewrite !points_ll.
  rewrite (proj2 (Nat.leb_le 1 j) H1), (proj2 (Nat.ltb_lt j k) H2), (proj2 (Nat.leb_le k K) H3), (proj2 (Nat.leb_le j N) H4). cbn [andb].
  rewrite (proj2 (Nat.ltb_ge k j)) by lia. cbn [andb]. rewrite !andb_false_r. auto.
Qed.
Lemma marks_rest j k : N < j -> N < k -> j <> k -> j <= K -> k <= K -> marks (lat j) (lat k) = (-1)%Z.
Proof.
  intros H1 H2 H3 H4 H5. unfold marks. rewrite !points_ll, lines_ll. rewrite (proj2 (Nat.leb_gt j N)), (proj2 (Nat.leb_gt k N)) by lia. rewrite !andb_false_r.
  rewrite (proj2 (Nat.ltb_lt N j) H1), (proj2 (Nat.ltb_lt N k) H2), (proj2 (Nat.leb_le j K) H4), (proj2 (Nat.leb_le k K) H5), (proj2 (Nat.eqb_neq j k) H3). reflexivity.
Qed.
Lemma marks_member k o : 1 <= k -> In o (nth (k - 1) all []) -> marks (lat k) (obs o) = (-1)%Z /\ marks (obs o) (lat k) = 1%Z.
Proof.
  intros H1 H2. unfold marks. rewrite !points_lo, points_o. rewrite (proj2 (Nat.leb_le 1 k) H1), (proj2 (memb_In o _) H2). auto.
Qed.
Lemma marks_nonmember k o : ~ In o (nth (k - 1) all []) -> marks (lat k) (obs o) = 0%Z /\ marks (obs o) (lat k) = 0%Z.
Proof.
  intros H. unfold marks. rewrite !points_lo, points_o. rewrite (proj2 (memb_not_In o _) H), andb_false_r. destruct (lines_o o (lat k)) as [-> ->]. auto.
Qed.
Lemma marks_obs o p : marks (obs o) (obs p) = 0%Z.
Proof. unfold marks. rewrite !points_o. now rewrite (proj1 (lines_o o (obs p))). Qed.
Lemma marks_nonzero a b : marks a b <> 0%Z ->
  (exists j k, 1 <= j /\ j < k /\ k <= K /\ j <= N /\ ((a = lat j /\ b = lat k) \/ (a = lat k /\ b = lat j))) \/
  (exists j k, N < j /\ j < k /\ k <= K /\ ((a = lat j /\ b = lat k) \/ (a = lat k /\ b = lat j))) \/
  (exists k o, 1 <= k /\ In o (nth (k - 1) all []) /\ ((a = lat k /\ b = obs o) \/ (a = obs o /\ b = lat k))).
Proof.
  assert (P : forall a b, points a b = true -> (exists j k, 1 <= j /\ j < k /\ k <= K /\ j <= N /\ a = lat j /\ b = lat k) \/ (exists k o, 1 <= k /\ In o (nth (k - 1) all []) /\ a = lat k /\ b = obs o)).
  { clear a b. intros a b H. destruct (name_cases a) as [(j & ->)|(o & ->)]; [|rewrite points_o in H; discriminate]. destruct (name_cases b) as [(k & ->)|(o & ->)].
    - left. exists j, k. rewrite points_ll, !andb_true_iff, Nat.ltb_lt, !Nat.leb_le in H. tauto.
    - right. exists j, o. rewrite points_lo, andb_true_iff, Nat.leb_le, memb_In in H. tauto. }
  unfold marks. destruct (points a b) eqn:E1; [intros _|destruct (points b a) eqn:E2; [intros _|destruct (lines a b) eqn:E3; [intros _|congruence]]].
  - destruct (P a b E1) as [(j & k & ? & ? & ? & ? & ? & ?)|(k & o & ? & ? & ? & ?)]; [left; exists j, k|right; right; exists k, o]; auto 10.
  - destruct (P b a E2) as [(j & k & ? & ? & ? & ? & ? & ?)|(k & o & ? & ? & ? & ?)]; [left; exists j, k|right; right; exists k, o]; auto 10.
  - right. left. destruct (name_cases a) as [(j & ->)|(o & ->)]; [|rewrite (proj1 (lines_o o b)) in E3; discriminate].
    destruct (name_cases b) as [(k & ->)|(o & ->)]; [|rewrite (proj2 (lines_o o (lat j))) in E3; discriminate].
    rewrite lines_ll, !andb_true_iff, !Nat.ltb_lt, !Nat.leb_le, negb_true_iff, Nat.eqb_neq in E3. destruct E3 as ((((? & ?) & ?) & ?) & ?).
    destruct (Nat.lt_ge_cases j k); [exists j, k|exists k, j]; (split; [lia|]); (split; [lia|]); (split; [lia|]); auto.
Qed.

Lemma members_ok k c : forall nds, In (lat k) nds -> (forall o, In o c -> marks (lat k) (obs o) = (-1)%Z /\ marks (obs o) (lat k) = 1%Z) -> run_ok marks nds (members k c).
Proof.
  unfold members. induction c as [|o c IH]; intros nds Hk H; [exact I|]. cbn [flat_map app run_ok].
  set (nds' := if existsb (Nat.eqb (obs o)) nds then nds else nds ++ [obs o]).
  assert (S1 : forall v, In v nds -> In v nds') by (intros v Hv; unfold nds'; destruct (existsb _ nds); [auto|apply in_app_iff; auto]).
  assert (S2 : In (obs o) nds') by (unfold nds'; destruct (existsb (Nat.eqb (obs o)) nds) eqn:E; [now apply existsb_In|apply in_app_iff; right; now left]).
  destruct (H o (or_introl eq_refl)). split; [auto|]. split; [exact S2|]. split; [unfold lat, obs; lia|]. split; [assumption|]. split; [assumption|]. apply IH; [auto|]. intros; apply H; now right.
Qed.
Lemma arrows_ok k ls nds : In (lat k) nds -> (forall l, In l ls -> In l nds /\ l <> lat k /\ marks l (lat k) = (-1)%Z /\ marks (lat k) l = 1%Z) -> run_ok marks nds (map (fun l => NAddDirected l (lat k)) ls).
Proof.
  intros Hk. induction ls as [|l ls IH]; intros H; [exact I|]. cbn [map run_ok]. destruct (H l (or_introl eq_refl)) as (? & ? & ? & ?). repeat (split; [assumption|]). apply IH. intros; apply H; now right.
Qed.
Lemma strokes_ok k ls nds : In (lat k) nds -> (forall l, In l ls -> In l nds /\ l <> lat k /\ marks l (lat k) = (-1)%Z /\ marks (lat k) l = (-1)%Z) -> run_ok marks nds (map (fun l => NAddEdge l (lat k) TAIL TAIL) ls).
Proof.
  intros Hk. induction ls as [|l ls IH]; intros H; [exact I|]. cbn [map run_ok]. destruct (H l (or_introl eq_refl)) as (? & ? & ? & ?). repeat (split; [assumption|]). apply IH. intros; apply H; now right.
Qed.
Lemma final_edges nds f (ls : list nat) : (forall l, match f l with NAdd _ => False | _ => True end) -> final nds (map f ls) = nds.
Proof. intros H. induction ls as [|l ls IH]; [reflexivity|]. cbn [map final]. specialize (H l). destruct (f l); tauto. Qed.
Lemma final_keeps ops nds v : In v nds -> In v (final nds ops).
Proof. intros H. apply final_in. now left. Qed.
Lemma nth_middle' (pre : list (list nat)) c post : nth (length pre) (pre ++ c :: post) [] = c.
Proof. now rewrite nth_middle. Qed.
Lemma seq_snoc s n : seq s (S n) = seq s n ++ [s + n]. Proof. apply seq_S. Qed.
Lemma ordered_ok cs : forall pre nds, order = pre ++ cs -> (forall l, In l (map lat (seq 1 (length pre))) -> In l nds) ->
  run_ok marks nds (ordered_ops (S (length pre)) (map lat (seq 1 (length pre))) cs).
Proof.
  induction cs as [|c cs IH]; intros pre nds E Hl; [exact I|]. set (k := S (length pre)).
  assert (LN : k <= N) by (rewrite E, app_length; cbn [length]; unfold k; lia). assert (LK : N <= K) by (rewrite app_length; lia).
  cbn [ordered_ops run_ok]. set (nds' := if existsb (Nat.eqb (lat k)) nds then nds else nds ++ [lat k]).
  assert (S1 : forall v, In v nds -> In v nds') by (intros v Hv; unfold nds'; destruct (existsb _ nds); [auto|apply in_app_iff; auto]).
  assert (S2 : In (lat k) nds') by (unfold nds'; destruct (existsb (Nat.eqb (lat k)) nds) eqn:E'; [now apply existsb_In|apply in_app_iff; right; now left]).
  apply run_ok_app; [|rewrite final_edges by (intros; exact I); apply run_ok_app].
  - apply arrows_ok; [exact S2|]. intros l Hl'. split; [auto|]. apply in_map_iff in Hl'. destruct Hl' as (j & <- & Hj). apply in_seq in Hj.
    split; [unfold lat, k; lia|]. apply marks_ordered; unfold k in *; lia.
  - apply members_ok; [exact S2|]. intros o Ho. apply marks_member; [unfold k; lia|]. unfold k. cbn [Nat.sub]. rewrite Nat.sub_0_r, E, <- app_assoc. cbn [app]. now rewrite nth_middle'.
  - specialize (IH (pre ++ [c]) (final nds' (members k c))). rewrite app_length, <- app_assoc in IH. cbn [length app] in IH. rewrite Nat.add_1_r, seq_snoc, map_app in IH. cbn [map] in IH.
    apply IH; [exact E|]. intros l Hl'. apply final_keeps. apply in_app_iff in Hl'. destruct Hl' as [Hl'|[<-|[]]]; [auto|exact S2].
Qed.
Lemma rest_ok cs : forall pre nds, cls = pre ++ cs -> (forall l, In l (map lat (seq 1 N)) -> In l nds) -> (forall l, In l (map lat (seq (S N) (length pre))) -> In l nds) ->
  run_ok marks nds (rest_ops (S N + length pre) (map lat (seq 1 N)) (map lat (seq (S N) (length pre))) cs).
Proof.
  induction cs as [|c cs IH]; intros pre nds E Hl Hu; [exact I|]. set (k := S N + length pre).
  assert (LK : k <= K) by (rewrite app_length, E, app_length; cbn [length]; unfold k; lia).
  cbn [rest_ops run_ok]. set (nds' := if existsb (Nat.eqb (lat k)) nds then nds else nds ++ [lat k]).
  assert (S1 : forall v, In v nds -> In v nds') by (intros v Hv; unfold nds'; destruct (existsb _ nds); [auto|apply in_app_iff; auto]).
  assert (S2 : In (lat k) nds') by (unfold nds'; destruct (existsb (Nat.eqb (lat k)) nds) eqn:E'; [now apply existsb_In|apply in_app_iff; right; now left]).
  apply run_ok_app; [|rewrite final_edges by (intros; exact I); apply run_ok_app; [|rewrite final_edges by (intros; exact I); apply run_ok_app]].
  - apply arrows_ok; [exact S2|]. intros l Hl'. split; [auto|]. apply in_map_iff in Hl'. destruct Hl' as (j & <- & Hj). apply in_seq in Hj.
    split; [unfold lat, k; lia|]. apply marks_ordered; unfold k in *; lia.
  - apply strokes_ok; [exact S2|]. intros l Hl'. split; [auto|]. apply in_map_iff in Hl'. destruct Hl' as (j & <- & Hj). apply in_seq in Hj.
    split; [unfold lat, k; lia|]. split; apply marks_rest; unfold k in *; lia.
  - apply members_ok; [exact S2|]. intros o Ho. apply marks_member; [unfold k; lia|]. replace (k - 1) with (length (order ++ pre)) by (rewrite app_length; unfold k; lia).
    rewrite E, app_assoc. now rewrite nth_middle'.
  - specialize (IH (pre ++ [c]) (final nds' (members k c))). rewrite app_length, <- app_assoc in IH. cbn [length app] in IH. rewrite (Nat.add_1_r (length pre)), seq_snoc, map_app in IH. cbn [map] in IH.
    replace (S N + S (length pre)) with (S k) in IH by (unfold k; lia). apply IH; [exact E| |].
    + intros l Hl'. apply final_keeps. auto.
    + intros l Hl'. apply final_keeps. apply in_app_iff in Hl'. destruct Hl' as [Hl'|[<-|[]]]; [auto|exact S2].
Qed.
(** Which operations occur. *)
Lemma in_members k c o : In o c -> In (NAdd (obs o)) (members k c) /\ In (NAddDirected (lat k) (obs o)) (members k c).
Proof. intros H. unfold members. split; apply in_flat_map; exists o; (split; [exact H|cbn; auto]). Qed.
Lemma in_ordered cs : forall k ls i, i < length cs -> In (NAdd (lat (k + i))) (ordered_ops k ls cs) /\
  (forall o, In o (nth i cs []) -> In (NAdd (obs o)) (ordered_ops k ls cs) /\ In (NAddDirected (lat (k + i)) (obs o)) (ordered_ops k ls cs)) /\
  (forall l, In l ls \/ In l (map lat (seq k i)) -> In (NAddDirected l (lat (k + i))) (ordered_ops k ls cs)).
Proof.
  induction cs as [|c cs IH]; intros k ls i Hi; [cbn in Hi; lia|]. cbn [ordered_ops]. destruct i as [|i].
  - rewrite Nat.add_0_r. split; [now left|]. cbn [nth]. split.
    + intros o Ho. destruct (in_members k c o Ho). split; right; apply in_app_iff; right; apply in_app_iff; now left.
    + intros l [Hl|[]]. right. apply in_app_iff. left. now apply (in_map (fun l => NAddDirected l (lat k))).
  - cbn [length] in Hi. destruct (IH (S k) (ls ++ [lat k]) i ltac:(lia)) as (K1 & K2 & K3). replace (S k + i) with (k + S i) in * by lia.
    assert (R : forall x, In x (ordered_ops (S k) (ls ++ [lat k]) cs) -> In x (NAdd (lat k) :: map (fun l => NAddDirected l (lat k)) ls ++ members k c ++ ordered_ops (S k) (ls ++ [lat k]) cs)) by (intros x Hx; right; rewrite !in_app_iff; auto).
    split; [auto|]. cbn [nth]. split; [intros o Ho; destruct (K2 o Ho); auto|]. intros l Hl. apply R, K3. rewrite in_app_iff. cbn [seq map In] in *. tauto.
Qed.
Lemma in_rest cs : forall k ls us i, i < length cs -> In (NAdd (lat (k + i))) (rest_ops k ls us cs) /\
  (forall o, In o (nth i cs []) -> In (NAdd (obs o)) (rest_ops k ls us cs) /\ In (NAddDirected (lat (k + i)) (obs o)) (rest_ops k ls us cs)) /\
  (forall l, In l ls -> In (NAddDirected l (lat (k + i))) (rest_ops k ls us cs)) /\
  (forall l, In l us \/ In l (map lat (seq k i)) -> In (NAddEdge l (lat (k + i)) TAIL TAIL) (rest_ops k ls us cs)).
Proof.
  induction cs as [|c cs IH]; intros k ls us i Hi; [cbn in Hi; lia|]. cbn [rest_ops]. destruct i as [|i].
  - rewrite Nat.add_0_r. split; [now left|]. cbn [nth]. split; [|split].
    + intros o Ho. destruct (in_members k c o Ho). split; right; rewrite !in_app_iff; auto.
    + intros l Hl. right. apply in_app_iff. left. now apply (in_map (fun l => NAddDirected l (lat k))).
    + intros l [Hl|[]]. right. rewrite !in_app_iff. right. left. now apply (in_map (fun l => NAddEdge l (lat k) TAIL TAIL)).
  - cbn [length] in Hi. destruct (IH (S k) ls (us ++ [lat k]) i ltac:(lia)) as (K1 & K2 & K3 & K4). replace (S k + i) with (k + S i) in * by lia.
    set (R := rest_ops (S k) ls (us ++ [lat k]) cs) in *.
    assert (RR : forall x, In x R -> In x (NAdd (lat k) :: map (fun l => NAddDirected l (lat k)) ls ++ map (fun l => NAddEdge l (lat k) TAIL TAIL) us ++ members k c ++ R)) by (intros x Hx; right; rewrite !in_app_iff; auto).
    split; [auto|]. cbn [nth]. split; [intros o Ho; destruct (K2 o Ho); auto|]. split; [intros l Hl; apply RR, K3; exact Hl|]. intros l Hl. apply RR, K4. rewrite in_app_iff. cbn [seq map In] in *. tauto.
Qed.
Lemma adds_ordered cs : forall k ls v, In (NAdd v) (ordered_ops k ls cs) -> (exists i, i < length cs /\ v = lat (k + i)) \/ (exists o, In o (concat cs) /\ v = obs o).
Proof.
  induction cs as [|c cs IH]; intros k ls v H; [destruct H|]. cbn [ordered_ops] in H. destruct H as [[= <-]|H]; [left; exists 0; cbn [length]; split; [lia|now rewrite Nat.add_0_r]|].
  apply in_app_iff in H. destruct H as [H|H]; [apply in_map_iff in H; destruct H as (x & H & _); discriminate|]. apply in_app_iff in H. destruct H as [H|H].
  - unfold members in H. apply in_flat_map in H. destruct H as (o & Ho & [[= <-]|[H|[]]]); [|discriminate]. right. exists o. split; [cbn; apply in_app_iff; auto|reflexivity].
  - destruct (IH (S k) _ v H) as [(i & Hi & ->)|(o & Ho & ->)]; [left; exists (S i); cbn [length]; split; [lia|f_equal; lia]|right; exists o; split; [cbn; apply in_app_iff; auto|reflexivity]].
Qed.
Lemma adds_rest cs : forall k ls us v, In (NAdd v) (rest_ops k ls us cs) -> (exists i, i < length cs /\ v = lat (k + i)) \/ (exists o, In o (concat cs) /\ v = obs o).
Proof.
  induction cs as [|c cs IH]; intros k ls us v H; [destruct H|]. cbn [rest_ops] in H. destruct H as [[= <-]|H]; [left; exists 0; cbn [length]; split; [lia|now rewrite Nat.add_0_r]|].
  apply in_app_iff in H. destruct H as [H|H]; [apply in_map_iff in H; destruct H as (x & H & _); discriminate|].
  apply in_app_iff in H. destruct H as [H|H]; [apply in_map_iff in H; destruct H as (x & H & _); discriminate|]. apply in_app_iff in H. destruct H as [H|H].
  - unfold members in H. apply in_flat_map in H. destruct H as (o & Ho & [[= <-]|[H|[]]]); [|discriminate]. right. exists o. split; [cbn; apply in_app_iff; auto|reflexivity].
  - destruct (IH (S k) _ _ v H) as [(i & Hi & ->)|(o & Ho & ->)]; [left; exists (S i); cbn [length]; split; [lia|f_equal; lia]|right; exists o; split; [cbn; apply in_app_iff; auto|reflexivity]].
Qed.
(** The operations of GIN: isolated observed variables [vs], then the ordered clusters, then the others. *)
Definition gin_ops (vs : list nat) : list nop :=
  map (fun v => NAdd (obs v)) vs ++ ordered_ops 1 [] order ++ rest_ops (S N) (map lat (seq 1 N)) [] cls.
Lemma adds_ok vs : forall nds ops, (forall nds', (forall v, In v nds -> In v nds') -> run_ok marks nds' ops) -> run_ok marks nds (map (fun v => NAdd (obs v)) vs ++ ops).
Proof.
  induction vs as [|v vs IH]; intros nds ops H; [now apply H|]. cbn [map app run_ok]. apply IH. intros nds' Hs. apply H. intros x Hx. apply Hs. destruct (existsb _ nds); [exact Hx|apply in_app_iff; auto].
Qed.
Theorem gin_ops_spec vs : exists G, nrun (new_ngraph []) (gin_ops vs) = Ok G /\ consistent G /\ NoDup (nodes G) /\
  (forall v, In v (nodes G) <-> (exists k, 1 <= k <= K /\ v = lat k) \/ (exists o, (In o vs \/ In o (concat all)) /\ v = obs o)) /\
  forall a b, In a (nodes G) -> In b (nodes G) -> cell G a b = marks a b.
Proof.
  destruct (run_new marks (gin_ops vs)) as (G & E & HC & HN & HM).
  - apply adds_ok. intros nds' _. apply run_ok_app; [apply (ordered_ok order []); [reflexivity|intros l []]|].
    replace (S N) with (S N + length (@nil (list nat))) at 1 by (cbn; lia). apply (rest_ok cls []); [reflexivity| |intros l []].
    intros l Hl. apply final_in. right. apply in_map_iff in Hl. destruct Hl as (j & <- & Hj). apply in_seq in Hj. replace j with (1 + (j - 1)) by lia. apply in_ordered. lia.
  - intros a b Hab. assert (O : forall o x y, In o (gin_ops vs) -> touches o x y -> touched (gin_ops vs) x y) by (intros o x y H1 H2; exists o; auto).
    assert (IO : forall o, In o (ordered_ops 1 [] order) -> In o (gin_ops vs)) by (intros o H; unfold gin_ops; rewrite !in_app_iff; auto).
    assert (IR : forall o, In o (rest_ops (S N) (map lat (seq 1 N)) [] cls) -> In o (gin_ops vs)) by (intros o H; unfold gin_ops; rewrite !in_app_iff; auto).
    apply marks_nonzero in Hab. destruct Hab as [(j & k & H1 & H2 & H3 & H4 & H)|[(j & k & H1 & H2 & H3 & H)|(k & o & H1 & H2 & H)]].
    + apply (O (NAddDirected (lat j) (lat k))); [|cbn; destruct H as [[-> ->]|[-> ->]]; auto]. destruct (Nat.le_gt_cases k N) as [L|L].
      * apply IO. replace k with (1 + (k - 1)) by lia. apply in_ordered; [lia|]. right. apply in_map, in_seq. lia.
      * apply IR. replace k with (S N + (k - S N)) by lia. rewrite app_length in H3. apply in_rest; [lia|]. apply in_map, in_seq. lia.
    + apply (O (NAddEdge (lat j) (lat k) TAIL TAIL)); [|cbn; destruct H as [[-> ->]|[-> ->]]; auto]. apply IR. replace k with (S N + (k - S N)) by lia. rewrite app_length in H3.
      apply in_rest; [lia|]. right. apply in_map, in_seq. lia.
    + apply (O (NAddDirected (lat k) (obs o))); [|cbn; destruct H as [[-> ->]|[-> ->]]; auto].
      assert (Lk : k - 1 < K) by (destruct (Nat.lt_ge_cases (k - 1) K) as [L|L]; [exact L|rewrite nth_overflow in H2 by exact L; destruct H2]).
      destruct (Nat.lt_ge_cases (k - 1) N) as [L|L].
      * apply IO. rewrite app_nth1 in H2 by exact L. replace k with (1 + (k - 1)) by lia. now apply in_ordered.
      * apply IR. rewrite app_nth2 in H2 by exact L. rewrite app_length in Lk. replace k with (S N + (k - 1 - N)) by lia. apply in_rest; [lia|exact H2].
  - exists G. split; [exact E|]. split; [exact HC|]. split; [apply HC|]. split; [|exact HM]. intros v. rewrite HN, final_in. split.
    + intros [[]|H]. unfold gin_ops in H. rewrite !in_app_iff in H. destruct H as [H|[H|H]].
      * apply in_map_iff in H. destruct H as (o & [= <-] & Ho). right. exists o. auto.
      * apply adds_ordered in H. destruct H as [(i & Hi & ->)|(o & Ho & ->)]; [left; exists (1 + i); rewrite app_length; split; [lia|reflexivity]|right; exists o; rewrite concat_app, in_app_iff; auto].
      * apply adds_rest in H. destruct H as [(i & Hi & ->)|(o & Ho & ->)]; [left; exists (S N + i); rewrite app_length; split; [lia|reflexivity]|right; exists o; rewrite concat_app, in_app_iff; auto].
    + intros H. right. unfold gin_ops. rewrite !in_app_iff. destruct H as [(k & Hk & ->)|(o & [Ho|Ho] & ->)].
      * rewrite app_length in Hk. destruct (Nat.le_gt_cases k N) as [L|L].
        -- right. left. replace k with (1 + (k - 1)) by lia. apply in_ordered. lia.
        -- right. right. replace k with (S N + (k - S N)) by lia. apply in_rest. lia.
      * left. now apply (in_map (fun v => NAdd (obs v))).
      * right. rewrite concat_app, in_app_iff in Ho. destruct Ho as [Ho|Ho]; apply in_concat' in Ho; destruct Ho as (c & Hc & Ho); destruct (In_nth _ _ [] Hc) as (i & Hi & <-).
        -- left. now apply (in_ordered order 1 [] i).
        -- right. now apply (in_rest cls (S N) (map lat (seq 1 N)) [] i).
Qed.
End Marks.
