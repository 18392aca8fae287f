(** C26: the knowledge store answers according to the rules in force. *)
From Verif Require Import Base NamedModel NamedProofs KnowledgeModel.
Local Open Scope Z_scope.

(* ---------- specification, over histories only ---------- *)
(** [add] was called and [rem] has not been called since. *)
Definition in_force (add rem : bkop) (h : list bkop) : Prop :=
  exists h1 h2, h = h1 ++ add :: h2 /\ ~ In rem h2.

(** The last tier call about [v] put it into tier [t]. *)
Definition last_tier (v : nat) (t : Z) (h : list bkop) : Prop :=
  exists h1 h2, h = h1 ++ AddTier v t :: h2 /\ 0 <= t /\
    forall o, In o h2 -> (forall t', 0 <= t' -> o <> AddTier v t' /\ o <> RemTier v t').

(* ---------- lemmas ---------- *)
Lemma pair_eqb_spec p q : pair_eqb p q = true <-> p = q.
Proof.
  destruct p as [a b], q as [c d]. unfold pair_eqb. cbn. rewrite andb_true_iff, !Nat.eqb_eq.
  split; [intros [-> ->]; reflexivity | intros [= -> ->]; auto].
Qed.
Lemma pmem_In p s : pmem p s = true <-> In p s.
Proof.
  unfold pmem. rewrite existsb_exists. split.
  - intros (q & Hq & E). apply pair_eqb_spec in E. now subst.
  - intros H. exists p. split; [exact H|]. now apply pair_eqb_spec.
Qed.
Lemma padd_In p q s : In q (padd p s) <-> q = p \/ In q s.
Proof.
  unfold padd. destruct (pmem p s) eqn:E.
  - apply pmem_In in E. split; [auto|]. intros [->|H]; auto.
  - rewrite in_app_iff. cbn. split; [intros [H|[H|[]]]; auto | intros [H|H]; auto].
Qed.
Lemma premove_In p q s : In q (premove p s) <-> q <> p /\ In q s.
Proof.
  unfold premove. rewrite filter_In, negb_true_iff. split.
  - intros [H E]. split; [|exact H]. intros ->. now rewrite (proj2 (pair_eqb_spec p p) eq_refl) in E.
  - intros [H1 H2]. split; [exact H2|]. destruct (pair_eqb p q) eqn:E; [|reflexivity].
    apply pair_eqb_spec in E. congruence.
Qed.
Lemma or_iff_compat_lr A B C D : (A <-> C) -> (B <-> D) -> (A \/ B <-> C \/ D).
Proof. tauto. Qed.
Lemma run_snoc h o : bk_run (h ++ [o]) = bk_step (bk_run h) o.
Proof. unfold bk_run. now rewrite fold_left_app. Qed.

Lemma force_snoc add rem h o : add <> rem ->
  (in_force add rem (h ++ [o]) <-> o = add \/ (o <> rem /\ in_force add rem h)).
Proof.
  intros Hne. split.
  - intros (h1 & h2 & E & N). destruct (exists_last (l := add :: h2)) as (r & z & Er); [discriminate|].
    rewrite Er, app_assoc in E. apply app_inj_tail in E. destruct E as [E ->].
    destruct h2 as [|x h2] using rev_ind.
    + destruct r; [|now destruct r]. cbn in Er. injection Er as <-. now left.
    + clear IHh2. rewrite app_comm_cons in Er. apply app_inj_tail in Er. destruct Er as [<- <-].
      right. split. { intros <-. apply N. apply in_or_app. right. now left. }
      exists h1, h2. split; [now rewrite E|]. intros H. apply N. apply in_or_app. now left.
  - intros [->|[H (h1 & h2 & -> & N)]].
    + exists h, []. split; [reflexivity|]. intros [].
    + exists h1, (h2 ++ [o]). split; [now rewrite <- app_assoc|].
      intros K. apply in_app_or in K. destruct K as [K|[K|[]]]; auto.
Qed.
Lemma force_nil add rem : ~ in_force add rem [].
Proof. intros (h1 & h2 & E & _). now destruct h1. Qed.

Ltac step o E := unfold bk_step, bk_apply; destruct o; cbn [forb forbp reqd reqdp];
  try match goal with |- context [?t <? 0] => destruct (t <? 0) end; cbn [forb forbp reqd reqdp];
  rewrite ?padd_In, ?premove_In, E.

Ltac finish := split; intros K;
  repeat match goal with
  | H : _ \/ _ |- _ => destruct H
  | H : _ /\ _ |- _ => destruct H
  | H : (_, _) = (_, _) |- _ => injection H as ? ?; subst
  | H : AddForb _ _ = AddForb _ _ |- _ => injection H as ? ?; subst
  | H : AddReq _ _ = AddReq _ _ |- _ => injection H as ? ?; subst
  | H : AddForbP _ _ = AddForbP _ _ |- _ => injection H as ? ?; subst
  | H : AddReqP _ _ = AddReqP _ _ |- _ => injection H as ? ?; subst
  end; try discriminate; auto;
  try (right; split; [congruence | assumption]); try (split; [congruence|assumption]).

Lemma forb_inv h a b : In (a, b) (forb (bk_run h)) <-> in_force (AddForb a b) (RemForb a b) h.
Proof.
  induction h as [|o h IH] using rev_ind; [split; [intros [] | intros H; now apply force_nil in H]|].
  rewrite run_snoc, force_snoc by discriminate. step o IH; finish.
Qed.
Lemma forbp_inv h a b : In (a, b) (forbp (bk_run h)) <-> in_force (AddForbP a b) (RemForbP a b) h.
Proof.
  induction h as [|o h IH] using rev_ind; [split; [intros [] | intros H; now apply force_nil in H]|].
  rewrite run_snoc, force_snoc by discriminate. step o IH; finish.
Qed.
Lemma reqd_inv h a b : In (a, b) (reqd (bk_run h)) <-> in_force (AddReq a b) (RemReq a b) h.
Proof.
  induction h as [|o h IH] using rev_ind; [split; [intros [] | intros H; now apply force_nil in H]|].
  rewrite run_snoc, force_snoc by discriminate. step o IH; finish.
Qed.
Lemma reqdp_inv h a b : In (a, b) (reqdp (bk_run h)) <-> in_force (AddReqP a b) (RemReqP a b) h.
Proof.
  induction h as [|o h IH] using rev_ind; [split; [intros [] | intros H; now apply force_nil in H]|].
  rewrite run_snoc, force_snoc by discriminate. step o IH; finish.
Qed.

Lemma dget_dset d k v q : dget (dset d k v) q = if Nat.eqb k q then Some v else dget d q.
Proof.
  induction d as [|[k' v'] d IH]; cbn [dset]; [now rewrite dget_cons|].
  destruct (Nat.eqb_spec k' k) as [->|N].
  - rewrite !dget_cons. destruct (Nat.eqb k q); reflexivity.
  - rewrite !dget_cons, IH. destruct (Nat.eqb_spec k' q) as [->|N2]; [|reflexivity].
    destruct (Nat.eqb_spec k q); [congruence|reflexivity].
Qed.
Lemma dget_dpop d k q : dget (dpop d k) q = if Nat.eqb k q then None else dget d q.
Proof.
  induction d as [|[k' v'] d IH]; cbn [dpop filter]; [now destruct (Nat.eqb k q)|]. cbn [fst].
  destruct (Nat.eqb_spec k' k) as [->|N]; cbn [negb].
  - change (filter _ d) with (dpop d k). rewrite IH, dget_cons. destruct (Nat.eqb k q); reflexivity.
  - change (filter _ d) with (dpop d k). rewrite !dget_cons, IH.
    destruct (Nat.eqb_spec k' q) as [->|N2]; [|reflexivity]. destruct (Nat.eqb_spec k q); [congruence|reflexivity].
Qed.

Definition tier_op (v : nat) (o : bkop) : Prop := exists t, 0 <= t /\ (o = AddTier v t \/ o = RemTier v t).

Lemma last_snoc v t h o :
  last_tier v t (h ++ [o]) <-> (0 <= t /\ o = AddTier v t) \/ (~ tier_op v o /\ last_tier v t h).
Proof.
  split.
  - intros (h1 & h2 & E & Ht & N). destruct h2 as [|x h2] using rev_ind.
    + apply app_inj_tail in E. destruct E as [-> ->]. now left.
    + clear IHh2. rewrite app_comm_cons, app_assoc in E. apply app_inj_tail in E. destruct E as [-> ->]. right. split.
      * intros (t' & Ht' & [-> | ->]); destruct (N _ (in_or_app h2 [_] _ (or_intror (or_introl eq_refl))) t' Ht'); congruence.
      * exists h1, h2. split; [reflexivity|]. split; [exact Ht|]. intros o Ho. apply N, in_or_app. now left.
  - intros [[Ht ->]|[H (h1 & h2 & -> & Ht & N)]].
    + exists h, []. split; [reflexivity|]. split; [exact Ht|]. intros o [].
    + exists h1, (h2 ++ [o]). split; [now rewrite <- app_assoc|]. split; [exact Ht|].
      intros x Hx t' Ht'. apply in_app_or in Hx. destruct Hx as [Hx|[<-|[]]]; [now apply N|].
      split; intros ->; apply H; exists t'; auto.
Qed.
Lemma last_nil v t : ~ last_tier v t [].
Proof. intros (h1 & h2 & E & _). now destruct h1. Qed.

Lemma tval_inv h v t : dget (tval (bk_run h)) v = Some t <-> last_tier v (Z.of_nat t) h.
Proof.
  induction h as [|o h IH] using rev_ind; [split; [discriminate | intros H; now apply last_nil in H]|].
  rewrite run_snoc, last_snoc.
  assert (Hno : ~ tier_op v o -> (forall K, dget (tval (bk_step K o)) v = dget (tval K) v)).
  { intros H K. unfold bk_step, bk_apply. destruct o as [| | | | | | | |w s|w s]; try reflexivity;
    destruct (Z.ltb_spec s 0); try reflexivity; cbn [tval]; rewrite ?dget_dset, ?dget_dpop;
    destruct (Nat.eqb_spec w v); try reflexivity; exfalso; apply H; exists s; split; [lia|subst; auto|lia|subst; auto]. }
  assert (Hdec : tier_op v o \/ ~ tier_op v o).
  { destruct o as [| | | | | | | |w s|w s]; try (right; intros (? & _ & [E|E]); discriminate).
    all: destruct (Z_lt_dec s 0); [right; intros (? & ? & [E|E]); try discriminate; injection E as ? ?; lia|].
    all: destruct (Nat.eq_dec w v) as [->|]; [left; exists s; split; [lia|auto]|right; intros (? & ? & [E|E]); try discriminate; injection E as ? ?; lia]. }
  destruct Hdec as [(s & Hs & [-> | ->])|Hd].
  - unfold bk_step, bk_apply. destruct (Z.ltb_spec s 0); [lia|]. cbn [tval]. rewrite dget_dset, Nat.eqb_refl. split.
    + intros [= <-]. left. split; [lia|]. f_equal. lia.
    + intros [[_ E]|[N _]]; [injection E as ->; f_equal; lia|]. exfalso. apply N. exists s. auto.
  - unfold bk_step, bk_apply. destruct (Z.ltb_spec s 0); [lia|]. cbn [tval]. rewrite dget_dpop, Nat.eqb_refl. split; [discriminate|].
    intros [[_ E]|[N _]]; [discriminate|]. exfalso. apply N. exists s. auto.
  - rewrite (Hno Hd), IH. split; [auto|]. intros [[H0 ->]|[_ H]]; [|exact H].
    exfalso. apply Hd. eexists. split; [exact H0|]. now left.
Qed.

Lemma tier_defined h v : (exists t, last_tier v t h) <-> dget (tval (bk_run h)) v <> None.
Proof.
  split.
  - intros (t & H). assert (0 <= t) by (destruct H as (? & ? & _ & H & _); exact H).
    rewrite <- (Z2Nat.id t) in H by assumption. apply tval_inv in H. congruence.
  - intros H. destruct (dget (tval (bk_run h)) v) as [t|] eqn:E; [|congruence]. exists (Z.of_nat t). now apply tval_inv.
Qed.

(* ---------- the theorems ---------- *)
(** C26.  For every history and every regular-expression semantics, [is_forbidden a b] is True exactly when a node rule
    for (a,b) is in force, or a pattern rule in force matches both names, or the tiers last given to a and b
    are strictly decreasing. *)
Theorem C26_is_forbidden_iff : forall rx h a b,
  is_forbidden rx (bk_run h) a b = true <->
    in_force (AddForb a b) (RemForb a b) h \/
    (exists p q, in_force (AddForbP p q) (RemForbP p q) h /\ rx p a = true /\ rx q b = true) \/
    (exists t1 t2, last_tier a t1 h /\ last_tier b t2 h /\ t2 < t1).
Proof.
  intros rx h a b. unfold is_forbidden. rewrite !orb_true_iff, !existsb_exists. apply or_iff_compat_lr.
  - split.
    + intros ((x & y) & Hi & E). apply andb_true_iff in E. rewrite !Nat.eqb_eq in E. cbn in E. destruct E as [-> ->]. now apply forb_inv.
    + intros H. apply forb_inv in H. exists (a, b). cbn. now rewrite !Nat.eqb_refl.
  - apply or_iff_compat_lr.
    + split.
      * intros ((p & q) & Hi & E). apply andb_true_iff in E. exists p, q. split; [now apply forbp_inv|exact E].
      * intros (p & q & Hf & E). exists (p, q). split; [now apply forbp_inv|]. now apply andb_true_iff.
    + split.
      * destruct (dget (tval (bk_run h)) a) as [t1|] eqn:E1; [|discriminate].
        destruct (dget (tval (bk_run h)) b) as [t2|] eqn:E2; [|discriminate]. intros H. apply Nat.ltb_lt in H.
        exists (Z.of_nat t1), (Z.of_nat t2). apply tval_inv in E1, E2. split; [exact E1|split; [exact E2|lia]].
      * intros (t1 & t2 & H1 & H2 & L).
        assert (P1 : 0 <= t1) by (destruct H1 as (? & ? & _ & H & _); exact H).
        assert (P2 : 0 <= t2) by (destruct H2 as (? & ? & _ & H & _); exact H).
        rewrite <- (Z2Nat.id t1) in H1 by assumption. rewrite <- (Z2Nat.id t2) in H2 by assumption.
        apply tval_inv in H1, H2. rewrite H1, H2. apply Nat.ltb_lt. lia.
Qed.
Print Assumptions C26_is_forbidden_iff.

Theorem C26_is_required_iff : forall rx h a b,
  is_required rx (bk_run h) a b = true <->
    in_force (AddReq a b) (RemReq a b) h \/
    (exists p q, in_force (AddReqP p q) (RemReqP p q) h /\ rx p a = true /\ rx q b = true).
Proof.
  intros rx h a b. unfold is_required. rewrite !orb_true_iff, !existsb_exists. apply or_iff_compat_lr; split.
  - intros ((x & y) & Hi & E). apply andb_true_iff in E. rewrite !Nat.eqb_eq in E. cbn in E. destruct E as [-> ->]. now apply reqd_inv.
  - intros H. apply reqd_inv in H. exists (a, b). cbn. now rewrite !Nat.eqb_refl.
  - intros ((p & q) & Hi & E). apply andb_true_iff in E. exists p, q. split; [now apply reqdp_inv|exact E].
  - intros (p & q & Hf & E). exists (p, q). split; [now apply reqdp_inv|]. now apply andb_true_iff.
Qed.
Print Assumptions C26_is_required_iff.

(** [is_in_which_tier] reports the tier last given, or -1. *)
Theorem C26_tier_query : forall h v,
  (forall t, last_tier v t h -> is_in_which_tier (bk_run h) v = t) /\
  ((forall t, ~ last_tier v t h) -> is_in_which_tier (bk_run h) v = -1).
Proof.
  intros h v. unfold is_in_which_tier. split.
  - intros t H. assert (P : 0 <= t) by (destruct H as (? & ? & _ & H & _); exact H).
    rewrite <- (Z2Nat.id t) in H |- * by assumption. apply tval_inv in H. now rewrite H.
  - intros H. destruct (dget (tval (bk_run h)) v) as [t|] eqn:E; [|reflexivity]. apply tval_inv in E. now apply H in E.
Qed.
Print Assumptions C26_tier_query.

(** A non-trivial history: node rule added, pattern rule added and removed, tiers 0 and 2, then 0 and 1. *)
Definition exH : list bkop :=
  [AddForb 1 2; AddForbP 7 8; AddTier 3 0; AddTier 4 2; RemForbP 7 8; AddTier 4 1; AddForb 5 6; RemForb 1 2; AddReq 9 9].
Example C26_ex : let rx := fun _ _ => true in
  is_forbidden rx (bk_run exH) 4 3 = true /\ is_forbidden rx (bk_run exH) 3 4 = false /\
  is_forbidden rx (bk_run exH) 5 6 = true /\ is_forbidden rx (bk_run exH) 1 2 = false /\
  is_required rx (bk_run exH) 9 9 = true /\ last_tier 4 1 exH.
Proof.
  repeat split; try reflexivity.
  exists [AddForb 1 2; AddForbP 7 8; AddTier 3 0; AddTier 4 2; RemForbP 7 8], [AddForb 5 6; RemForb 1 2; AddReq 9 9].
  split; [reflexivity|]. split; [lia|]. intros o Ho t' _. cbn in Ho. decompose [or] Ho; subst; split; congruence.
Qed.

(** "Remove the node from tier t" drops the tier of the node whatever tier it is in: removing it from a tier it was
    never in also cancels its ordering constraints. *)
Theorem C44_remove_from_other_tier_refuted :
  exists h a b, ~ last_tier a 0 h /\ is_forbidden (fun _ _ => false) (bk_run h) a b = true /\
    is_forbidden (fun _ _ => false) (bk_run (h ++ [RemTier a 0])) a b = false.
Proof.
  exists [AddTier 1 2; AddTier 2 1], 1%nat, 2%nat. split; [|split; reflexivity].
  intros H. apply (tval_inv _ 1 0) in H. discriminate.
Qed.
Print Assumptions C44_remove_from_other_tier_refuted.

(** Moving a node to another tier leaves it listed in the old tier as well: tier_map and is_in_which_tier disagree. *)
Theorem C44_tier_listing_refuted :
  exists h v, is_in_which_tier (bk_run h) v = 1 /\ tier_get (tmap (bk_run h)) 0 = Some [v] /\ tier_get (tmap (bk_run h)) 1 = Some [v].
Proof. exists [AddTier 5 0; AddTier 5 1], 5%nat. repeat split; reflexivity. Qed.
Print Assumptions C44_tier_listing_refuted.
