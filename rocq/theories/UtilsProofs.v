(** Lemmas about the GraphUtils model: path search, cycle check, causal order. *)
From Coq Require Import Permutation.
From Verif Require Import Base EdgeModel EdgeProofs GraphModel GraphSpec GraphProofs DpathProofs QueryProofs RankLib UtilsModel.
Local Open Scope Z_scope.

Lemma memb_In x l : memb x l = true <-> In x l.
Proof.
  unfold memb. rewrite existsb_exists. split.
  - intros (y & Hy & E). apply Nat.eqb_eq in E. now subst.
  - intros H. exists x. split; [exact H|apply Nat.eqb_refl].
Qed.

Lemma memb_not_In x l : memb x l = false <-> ~ In x l.
Proof. rewrite <- memb_In. destruct (memb x l); split; congruence. Qed.

Lemma reach_last_aux {A} (R : A -> A -> Prop) a c x : reach R c x ->
  forall p, reach R a p -> R p c -> exists q, reach R a q /\ R q x.
Proof.
  induction 1 as [y0|y z w Hyz _ IH]; intros p Hp Hpc; [exists p; auto|].
  apply IH with (p := y); auto. eapply reach_trans; [exact Hp|]; now apply reach_one.
Qed.
Lemma reach1_last {A} (R : A -> A -> Prop) a x : reach1 R a x -> exists p, reach R a p /\ R p x.
Proof. intros (c & Hac & Hcx). eapply reach_last_aux; eauto. constructor. Qed.

Section BFS.
Variable g : ggraph.
Hypothesis Hw : wf g.
Hypothesis Hs : simple g.
Notation n := (gn g).

Lemma simple_dedge a b : dedge g a b <-> (a < n)%nat /\ (b < n)%nat /\ gm g a b = -1 /\ gm g b a = 1.
Proof.
  unfold dedge. split.
  - intros (Ha & Hb & [H|[H _]]); [tauto|]. specialize (Hs _ _ Ha Hb). lia.
  - tauto.
Qed.

Lemma no_mutual t u : (t < n)%nat -> (u < n)%nat -> is_parent_of g t u && is_parent_of g u t = false.
Proof.
  intros Ht Hu. apply not_true_is_false. intros H. apply andb_true_iff in H. destruct H as [H1 H2].
  apply is_parent_dedge in H1, H2; auto using simple_no44.
  apply simple_dedge in H1, H2. lia.
Qed.

(** What the traversal step sees of an adjacent node. *)
Lemma step_edge t u : (t < n)%nat -> (u < n)%nat -> In u (get_adjacent_nodes g t) ->
  exists e, get_edge g t u = Ok (Some e) /\
    ((dedge g t u /\ traverse_directed t e = Some u) \/ (~ dedge g t u /\ traverse_directed t e = None)).
Proof.
  intros Ht Hu Hadj. unfold get_adjacent_nodes in Hadj. apply filter_In in Hadj. destruct Hadj as [_ Hadj].
  apply andb_true_iff in Hadj. destruct Hadj as [N1 N2].
  pose proof (simple_dedge t u) as HD.
  destruct Hw as [Hd Hl].
  assert (Htu : t <> u). { intros ->. rewrite Hd in N1 by auto. discriminate N1. }
  assert (Enn : Nat.eqb u t = false) by (apply Nat.eqb_neq; congruence).
  assert (Enn' : Nat.eqb t u = false) by (apply Nat.eqb_neq; congruence).
  specialize (Hl _ _ Ht Hu). pose proof (Hs _ _ Ht Hu) as S1. unfold get_edge.
  pair_cases Hl;
  repeat match goal with H : _ = gm g t u |- _ => symmetry in H | H : _ = gm g u t |- _ => symmetry in H end;
  match goal with A : gm g t u = _, B : gm g u t = _ |- _ => rewrite ?A, ?B in N1; rewrite ?A, ?B in N2; rewrite ?A in S1; rewrite ?A, ?B; try lia; cbn in N1, N2 |- * end;
  try discriminate N1; try discriminate N2;
  eexists; (split; [reflexivity|]); unfold traverse_directed, Edge; cbn; rewrite ?Nat.eqb_refl, ?Enn, ?Enn'; cbn;
  first [right; split; [rewrite HD; lia|reflexivity] | left; split; [rewrite HD; lia|reflexivity] | idtac].
Qed.

Variable from to : nat.
Hypothesis Hfrom : (from < n)%nat.

Definition binv (V Q : list nat) : Prop :=
  NoDup V /\ (forall x, In x V -> (x < n)%nat) /\ incl Q V /\ NoDup Q /\ In from V /\
  (forall x, In x V -> reach (dedge g) from x) /\ (In to V -> to = from).

Definition bclosed (V Q : list nat) : Prop := forall x c, In x V -> ~ In x Q -> dedge g x c -> In c V.

Lemma bfs_inner_spec t us : (t < n)%nat -> incl us (get_adjacent_nodes g t) ->
  forall V Q, binv V Q -> In t V -> ~ In t Q ->
  (bfs_inner g to t us V Q = BReturn /\ reach1 (dedge g) from to /\ to <> from) \/
  exists V' Q' new, bfs_inner g to t us V Q = BCont V' Q' /\ V' = V ++ new /\ Q' = rev new ++ Q /\ binv V' Q' /\
     (forall c, In c us -> dedge g t c -> In c V') /\ ~ In t Q'.
Proof.
  intros Ht. induction us as [|u us IH]; intros Hus V Q HI HtV HtQ; cbn [bfs_inner].
  - right. exists V, Q, []. rewrite app_nil_r. repeat split; auto; try apply HI. intros c [].
  - assert (Hua : In u (get_adjacent_nodes g t)) by (apply Hus; now left).
    assert (Hu : (u < n)%nat).
    { unfold get_adjacent_nodes in Hua. apply filter_In in Hua. apply in_seq0, Hua. }
    rewrite no_mutual by auto.
    assert (Hus' : incl us (get_adjacent_nodes g t)) by (intros x Hx; apply Hus; now right).
    destruct (step_edge t u Ht Hu Hua) as (e & -> & [[Hd ->]|[Hd ->]]).
    + destruct (memb u V) eqn:EV.
      * apply memb_In in EV.
        destruct (IH Hus' V Q HI HtV HtQ) as [H|(V' & Q' & new & E & EV' & EQ' & HI' & Hc & HtQ')]; [now left|].
        right. exists V', Q', new. repeat split; auto; try apply HI'.
        intros c [<-|Hc'] Hdc; [|auto]. subst V'. apply in_app_iff. now left.
      * apply memb_not_In in EV.
        destruct (Nat.eqb_spec u to) as [->|Hto].
        -- left. split; [reflexivity|].
           assert (Hr : reach1 (dedge g) from to).
           { destruct HI as (_ & _ & _ & _ & _ & Hr & _). specialize (Hr t HtV).
             destruct Hr as [a|a b c HR Hr]; [exists to; split; [exact Hd|constructor]|].
             exists b. split; [exact HR|]. eapply reach_trans; [exact Hr|]. now apply reach_one. }
           split; [exact Hr|]. intros ->. apply EV, HI.
        -- assert (HI1 : binv (V ++ [u]) (u :: Q)).
           { destruct HI as (H1 & H2 & H3 & H4 & H5 & H6 & H7).
             repeat split.
             - apply (NoDup_Add (a := u) (l := V)); [rewrite <- (app_nil_r V) at 1; apply Add_app|split; auto].
             - intros x Hx. apply in_app_iff in Hx. destruct Hx as [Hx|[<-|[]]]; auto.
             - intros x [<-|Hx]; apply in_app_iff; [right; now left|left; auto].
             - constructor; auto.
             - apply in_app_iff. now left.
             - intros x Hx. apply in_app_iff in Hx. destruct Hx as [Hx|[<-|[]]]; auto.
               eapply reach_trans; [apply H6, HtV|]. now apply reach_one.
             - intros Hx. apply in_app_iff in Hx. destruct Hx as [Hx|[Hx|[]]]; auto. congruence. }
           assert (HtV1 : In t (V ++ [u])) by (apply in_app_iff; now left).
           assert (HtQ1 : ~ In t (u :: Q)).
           { intros [E|Hq]; [|contradiction]. subst u. contradiction. }
           destruct (IH Hus' _ _ HI1 HtV1 HtQ1) as [H|(V' & Q' & new & E & EV' & EQ' & HI' & Hc & HtQ')]; [now left|].
           right. exists V', Q', (u :: new). rewrite <- app_assoc in EV'. cbn in EV'.
           repeat split; auto; try apply HI'.
           ++ subst Q'. cbn. now rewrite <- app_assoc.
           ++ intros c [<-|Hc'] Hdc; [|auto]. subst V'. apply in_app_iff. right; now left.
    + destruct (IH Hus' V Q HI HtV HtQ) as [H|(V' & Q' & new & E & EV' & EQ' & HI' & Hc & HtQ')]; [now left|].
      right. exists V', Q', new. repeat split; auto; try apply HI'.
      intros c [<-|Hc'] Hdc; [contradiction|auto].
Qed.

Lemma adj_all t : (t < n)%nat -> forall c, dedge g t c -> In c (get_adjacent_nodes g t).
Proof.
  intros Ht c Hd. apply simple_dedge in Hd. destruct Hd as (_ & Hc & A & B).
  unfold get_adjacent_nodes. rewrite filter_In, in_seq0, A, B. auto.
Qed.

Lemma bfs_loop_spec fuel : forall V Q, binv V Q -> bclosed V Q -> (length Q + n < fuel + length V)%nat ->
  exists b, bfs_loop fuel g to V Q = Ret b /\
    (b = true -> reach1 (dedge g) from to /\ to <> from) /\
    (b = false -> to = from \/ ~ reach (dedge g) from to).
Proof.
  induction fuel as [|f IH]; intros V Q HI HC Hf.
  - pose proof (nodup_bound g V) as Hb. destruct HI as (H1 & H2 & _). specialize (Hb H1 H2). lia.
  - cbn [bfs_loop]. destruct Q as [|t Q].
    + exists false. split; [reflexivity|]. split; [discriminate|]. intros _.
      destruct (Nat.eq_dec to from) as [E|E]; [now left|right]. intros Hr.
      destruct HI as (_ & _ & _ & _ & HF & _ & HT).
      apply E, HT. clear - HC HF Hr.
      induction Hr as [|a b c HR _ IH]; [exact HF|]. apply IH. eapply HC; eauto.
    + assert (HtV : In t V) by (apply HI; now left).
      assert (Ht : (t < n)%nat) by (apply HI; exact HtV).
      assert (HI0 : binv V Q).
      { destruct HI as (H1 & H2 & H3 & H4 & H5). inversion H4; subst. repeat split; auto; try apply H5.
        intros x Hx. apply H3. now right. }
      assert (HtQ : ~ In t Q). { destruct HI as (_ & _ & _ & H4 & _). now inversion H4. }
      destruct (bfs_inner_spec t (get_adjacent_nodes g t) Ht (incl_refl _) V Q HI0 HtV HtQ)
        as [(-> & Hr & Hne)|(V' & Q' & new & -> & EV & EQ & HI' & Hc & HtQ')].
      * exists true. repeat split; auto; discriminate.
      * apply IH; auto.
        -- intros x c Hx Hxq Hd. destruct (Nat.eq_dec x t) as [->|Hxt].
           ++ apply Hc; [now apply adj_all|exact Hd].
           ++ subst V' Q'. apply in_app_iff in Hx. destruct Hx as [Hx|Hx].
              ** apply in_app_iff. left. eapply HC; eauto. intros [E|Hq]; [congruence|].
                 apply Hxq, in_app_iff. now right.
              ** exfalso. apply Hxq, in_app_iff. left. now apply in_rev in Hx.
        -- subst V' Q'. rewrite !app_length, rev_length. cbn [length] in Hf. lia.
Qed.
End BFS.

Lemma exists_path_correct g from to fuel : wf g -> simple g -> (from < gn g)%nat -> (gn g < fuel)%nat ->
  exists b, exists_directed_path fuel g from to = Ret b /\
    (b = true -> reach1 (dedge g) from to /\ to <> from) /\
    (b = false -> to = from \/ ~ reach (dedge g) from to).
Proof.
  intros Hw Hs Hf Hfu. unfold exists_directed_path.
  apply (bfs_loop_spec g Hw Hs from to Hf).
  - repeat split.
    + repeat constructor. intros [].
    + intros x [<-|[]]. exact Hf.
    + apply incl_refl.
    + repeat constructor. intros [].
    + now left.
    + intros x [<-|[]]. constructor.
    + intros [->|[]]. reflexivity.
  - intros x c [<-|[]] Hn. exfalso. apply Hn. now left.
  - cbn. lia.
Qed.

Lemma cycle_never g fuel : wf g -> simple g -> (gn g < fuel)%nat ->
  exists_directed_cycle fuel g = Ret false.
Proof.
  intros Hw Hs Hf. unfold exists_directed_cycle.
  assert (G : forall vs, (forall v, In v vs -> (v < gn g)%nat) -> cycle_loop fuel g vs = Ret false).
  { induction vs as [|v vs IH]; intros Hv; cbn; [reflexivity|].
    destruct (exists_path_correct g v v fuel Hw Hs (Hv v (or_introl eq_refl)) Hf) as ([|] & -> & H1 & _).
    - destruct (H1 eq_refl) as [_ H]. congruence.
    - apply IH. intros; apply Hv; now right. }
  apply G. intros v. apply in_seq0.
Qed.

(* ---------- causal order ---------- *)

Section Order.
Variable g : ggraph.
Variable all : list nat.
Hypothesis Hall : forall v, In v all -> (v < gn g)%nat.

(** found is a topologically ordered list of nodes of [all]. *)
Definition topo_prefix (found : list nat) : Prop :=
  NoDup found /\ incl found all /\
  forall l1 v l2, found = l1 ++ v :: l2 -> forall p, In p all -> dedge g p v -> In p l1.

Definition ready (found : list nat) (v : nat) : bool :=
  forallb (fun p => memb p found) (filter (fun p => memb p all) (get_parents g v)).

Lemma ready_spec found v : (v < gn g)%nat ->
  (ready found v = true <-> forall p, In p all -> dedge g p v -> In p found).
Proof.
  intros Hv. unfold ready. rewrite forallb_forall. split.
  - intros H p Hp Hd. apply memb_In, H, filter_In. split; [now apply in_parents|now apply memb_In].
  - intros H p Hp. apply filter_In in Hp. destruct Hp as [Hp Ha]. apply memb_In, H; [now apply memb_In|].
    now apply in_parents in Hp.
Qed.

Lemma topo_snoc found v : topo_prefix found -> In v all -> ~ In v found -> ready found v = true ->
  topo_prefix (found ++ [v]).
Proof.
  intros (Hd & Hi & Ht) Hv Hn Hr. split; [|split].
  - apply (NoDup_Add (a := v) (l := found)); [rewrite <- (app_nil_r found) at 1; apply Add_app|split; auto].
  - intros x Hx. apply in_app_iff in Hx. destruct Hx as [Hx|[<-|[]]]; auto.
  - intros l1 w l2 E p Hp Hpw.
    assert (Hv' : (v < gn g)%nat) by auto.
    destruct (destruct_list (rev l2)) as [(x & tl & Er)|Er].
    + assert (El : l2 = rev tl ++ [x]).
      { rewrite <- (rev_involutive l2), Er. reflexivity. }
      subst l2. rewrite app_comm_cons, app_assoc in E. apply app_inj_tail in E. destruct E as [E _].
      eapply Ht; eauto.
    + assert (l2 = []) by (rewrite <- (rev_involutive l2), Er; reflexivity). subst l2.
      apply app_inj_tail in E. destruct E as [E1 E2]. subst l1 w.
      now apply (ready_spec found v Hv') with (p := p) in Hr.
Qed.

(** One pass: the accumulator grows by exactly the nodes put into sub_not_found, in order. *)
Lemma pass_spec nf : forall found sub f' s',
  topo_prefix found -> NoDup nf -> incl nf all -> (forall v, In v nf -> ~ In v found) ->
  fold_left (fun st node =>
      let '(found, sub) := st in
      let parents := filter (fun p => memb p all) (get_parents g node) in
      if forallb (fun p => memb p found) parents then (found ++ [node], sub ++ [node]) else (found, sub))
    nf (found, sub) = (f', s') ->
  exists new, f' = found ++ new /\ s' = sub ++ new /\ incl new nf /\ topo_prefix f' /\
    (forall v, In v nf -> ready found v = true -> In v new).
Proof.
  induction nf as [|v nf IH]; intros found sub f' s' Ht Hd Hi Hn E; cbn [fold_left] in E.
  - injection E as <- <-. exists []. rewrite !app_nil_r. repeat split; try apply Ht; try (intros x []); tauto.
  - inversion Hd as [|? ? Hvn Hd']; subst.
    assert (Hva : In v all) by (apply Hi; now left).
    assert (Hi' : incl nf all) by (intros x Hx; apply Hi; now right).
    change (forallb (fun p => memb p found) (filter (fun p => memb p all) (get_parents g v))) with (ready found v) in E.
    destruct (ready found v) eqn:ER.
    + assert (Ht1 : topo_prefix (found ++ [v])).
      { apply topo_snoc; auto. apply Hn. now left. }
      assert (Hn1 : forall w, In w nf -> ~ In w (found ++ [v])).
      { intros w Hw Hin. apply in_app_iff in Hin. destruct Hin as [Hin|[<-|[]]]; [|contradiction].
        eapply Hn; [right; exact Hw|exact Hin]. }
      destruct (IH _ _ _ _ Ht1 Hd' Hi' Hn1 E) as (new & E1 & E2 & E3 & E4 & E5).
      * exists (v :: new). rewrite <- !app_assoc in *. cbn in *. repeat split; auto; try apply E4.
        -- intros x [<-|Hx]; [now left|right; auto].
        -- intros w [<-|Hw] Hr; [now left|]. right. apply E5; [exact Hw|].
           apply ready_spec; [now apply Hall, Hi'|]. intros p Hp Hpd. apply in_app_iff. left.
           apply (ready_spec found w) with (p := p) in Hr; auto.
    + assert (Hn1 : forall w, In w nf -> ~ In w found) by (intros w Hw; apply Hn; now right).
      destruct (IH _ _ _ _ Ht Hd' Hi' Hn1 E) as (new & E1 & E2 & E3 & E4 & E5).
      * exists new. repeat split; auto; try apply E4.
        -- intros x Hx. right. auto.
        -- intros w [<-|Hw] Hr; [congruence|auto].
Qed.

Definition partition_of (found nf : list nat) : Prop :=
  NoDup nf /\ (forall v, In v all <-> In v found \/ In v nf) /\ (forall v, In v nf -> ~ In v found).

Lemma order_loop_spec fuel : forall found nf,
  topo_prefix found -> partition_of found nf ->
  (exists r, order_loop fuel g all found nf = Ret r /\ topo_prefix r /\ (forall v, In v all <-> In v r)) \/
  (order_loop fuel g all found nf = Running /\
     (acyclic (dedge g) -> (fuel < length nf)%nat)).
Proof.
  induction fuel as [|f IH]; intros found nf Ht HP.
  - destruct nf as [|v nf].
    + left. exists found. cbn. split; [reflexivity|]. split; [exact Ht|].
      intros w. destruct HP as (_ & H & _). rewrite H. cbn. tauto.
    + right. cbn. split; [reflexivity|]. lia.
  - destruct nf as [|v nf0] eqn:Enf.
    + left. exists found. cbn. split; [reflexivity|]. split; [exact Ht|].
      intros w. destruct HP as (_ & H & _). rewrite H. cbn. tauto.
    + rewrite <- Enf in *. assert (Hne : nf <> []) by congruence. clear Enf.
      replace (order_loop (S f) g all found nf) with
        (let '(found', sub) := order_pass g all found nf in
          order_loop f g all found' (filter (fun e => negb (memb e sub)) nf)) by (destruct nf; [congruence|reflexivity]).
      destruct (order_pass g all found nf) as [found' sub] eqn:EP.
      destruct HP as (HP1 & HP2 & HP3).
      assert (Hnfall : incl nf all) by (intros x Hx; apply HP2; now right).
      destruct (pass_spec nf found [] found' sub Ht HP1 Hnfall HP3 EP) as (new & E1 & E2 & E3 & E4 & E5).
      cbn in E2. subst sub found'.
      set (nf' := filter (fun e => negb (memb e new)) nf).
      assert (Hnf' : forall x, In x nf' <-> In x nf /\ ~ In x new).
      { intros x. unfold nf'. rewrite filter_In, negb_true_iff, memb_not_In. tauto. }
      assert (HP' : partition_of (found ++ new) nf').
      { split; [apply NoDup_filter, HP1|]. split.
        - intros w. rewrite HP2, in_app_iff, Hnf'.
          destruct (in_dec Nat.eq_dec w new) as [Hin|Hin]; [|tauto].
          specialize (E3 w Hin). tauto.
        - intros w Hw Hin. apply Hnf' in Hw. apply in_app_iff in Hin. destruct Hin as [Hin|Hin]; [|tauto].
          eapply HP3; [apply Hw|exact Hin]. }
      destruct (IH _ _ E4 HP') as [H|[H1 H2]]; [now left|]. right. split; [exact H1|].
      intros Hac. specialize (H2 Hac).
      (* some node of nf is ready *)
      destruct (topological_rank g Hac) as (r & Hr).
      destruct (exists_min_rank r nf Hne) as (m & Hm & Hmin).
      assert (Hmn : In m new).
      { apply E5; [exact Hm|]. apply ready_spec; [apply Hall, Hnfall, Hm|].
        intros p Hp Hpd. apply HP2 in Hp. destruct Hp as [Hp|Hp]; [exact Hp|].
        apply Hmin in Hp. apply Hr in Hpd. lia. }
      assert (Hlt : (length nf' < length nf)%nat).
      { apply (NoDup_incl_length (l := m :: nf') (l' := nf)).
        - constructor; [|apply NoDup_filter, HP1]. intros H. apply Hnf' in H. tauto.
        - intros x [<-|Hx]; [exact Hm|]. now apply Hnf' in Hx. }
      lia.
Qed.

(** Nodes with an ancestor on a cycle inside [all] are never found. *)
Lemma topo_prefix_no_cycle found (C : nat -> Prop) :
  topo_prefix found -> (forall v, C v -> In v all /\ exists p, C p /\ dedge g p v) ->
  forall v, C v -> ~ In v found.
Proof.
  intros (Hd & Hi & Ht) HC.
  assert (G : forall k l1 l2, (length l1 <= k)%nat -> found = l1 ++ l2 -> forall v, C v -> ~ In v l1).
  { induction k as [|k IHk]; intros l1 l2 Hl E v Hv Hin.
    - destruct l1; [contradiction|cbn in Hl; lia].
    - apply in_split in Hin. destruct Hin as (a & b & ->).
      destruct (HC v Hv) as (_ & p & Hp & Hpv). destruct (HC p Hp) as (Hpa & _).
      rewrite <- app_assoc in E. cbn in E. pose proof (Ht a v (b ++ l2) E p Hpa Hpv) as Hpin.
      apply (IHk a (v :: b ++ l2)) with (v := p); auto.
      rewrite app_length in Hl. cbn in Hl. lia. }
  intros v Hv Hin. apply (G (length found) found []) with (v := v); auto. now rewrite app_nil_r.
Qed.
End Order.

Lemma causal_order_correct g err fuel : wf g -> simple g -> acyclic (dedge g) -> (gn g < fuel)%nat ->
  exists l, get_causal_order fuel g err = Ret l /\ NoDup l /\
    (forall v, In v l <-> (v < gn g)%nat /\ err v = false) /\
    (forall l1 v l2, l = l1 ++ v :: l2 -> forall p, dedge g p v -> err p = false -> In p l1).
Proof.
  intros Hw Hs Hac Hf. unfold get_causal_order. rewrite cycle_never by auto.
  set (all := filter (fun v => negb (err v)) (seq 0 (gn g))).
  assert (Hall : forall v, In v all <-> (v < gn g)%nat /\ err v = false).
  { intros v. unfold all. rewrite filter_In, in_seq0, negb_true_iff. tauto. }
  destruct (order_loop_spec g all) with (fuel := fuel) (found := @nil nat) (nf := all)
    as [(l & E & (H1 & H2 & H3) & H4)|[E Hlt]].
  - intros v Hv. now apply Hall in Hv.
  - split; [constructor|]. split; [intros x []|]. intros l1 v l2 E. destruct l1; discriminate E.
  - split; [apply NoDup_filter, seq_NoDup|]. split; [cbn; tauto|]. intros v _ [].
  - exists l. split; [exact E|]. split; [exact H1|]. split.
    + intros v. rewrite <- H4. apply Hall.
    + intros l1 v l2 El p Hp He. eapply H3; eauto. apply Hall. split; [apply Hp|exact He].
  - specialize (Hlt Hac).
    assert (length all <= gn g)%nat.
    { apply nodup_bound with (g := g); [apply NoDup_filter, seq_NoDup|]. intros x Hx. now apply Hall in Hx. }
    lia.
Qed.

(** On a cyclic graph the loop runs forever. *)
Lemma causal_order_cyclic_diverges g fuel : wf g -> simple g -> (exists v, reach1 (dedge g) v v) -> (gn g < fuel)%nat ->
  get_causal_order fuel g (fun _ => false) = Running.
Proof.
  intros Hw Hs (v & b & Hvb & Hbv) Hf. unfold get_causal_order. rewrite cycle_never by auto.
  set (all := filter (fun v => negb false) (seq 0 (gn g))).
  assert (Hall : forall v, In v all <-> (v < gn g)%nat).
  { intros w. unfold all. rewrite filter_In, in_seq0. tauto. }
  destruct (order_loop_spec g all) with (fuel := fuel) (found := @nil nat) (nf := all)
    as [(l & E & Ht & H4)|[E _]]; [..|exact E].
  - intros w Hw'. now apply Hall in Hw'.
  - split; [constructor|]. split; [intros x []|]. intros l1 w l2 E. destruct l1; discriminate E.
  - split; [apply NoDup_filter, seq_NoDup|]. split; [cbn; tauto|]. intros w _ [].
  - exfalso.
    set (C := fun x => reach (dedge g) v x /\ reach (dedge g) x v /\ (x < gn g)%nat).
    assert (Hvn : (v < gn g)%nat) by apply Hvb.
    eapply (topo_prefix_no_cycle g all l C Ht) with (v := v).
    + intros x (Hx1 & Hx2 & Hx3). split; [now apply Hall|].
      (* predecessor of x on the cycle *)
      assert (Hr1 : reach1 (dedge g) v x).
      { destruct (reach_split _ _ _ Hx1) as [<-|H]; [exists b; auto|exact H]. }
      assert (exists p, reach (dedge g) v p /\ dedge g p x) as (p & Hp1 & Hp2).
      { now apply reach1_last. }
      exists p. split; [|exact Hp2]. split; [exact Hp1|]. split; [|apply Hp2].
      eapply reach_step; eauto.
    + split; [constructor|]. split; [constructor|exact Hvn].
    + apply H4, Hall, Hvn.
Qed.
