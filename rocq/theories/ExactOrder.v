(** The order graph: completions of a set of variables, and what a path through the order graph means. *)
From Verif Require Import Base GraphModel GraphSpec GraphProofs RankLib UtilsModel UtilsProofs SkelModel SkelProofs CacheModel CacheProofs ExactModel ExactSpec ExactParents.
From Coq Require Import Permutation Sorted.
Local Open Scope Z_scope.

Lemma leqb_spec l : forall m, leqb l m = true <-> l = m.
Proof.
  induction l as [|a l IH]; intros [|b m]; cbn [leqb]; [tauto|split; discriminate|split; discriminate|].
  rewrite andb_true_iff, Nat.eqb_eq, IH. split; [intros [-> ->]; reflexivity|intros [= -> ->]; auto].
Qed.
Lemma lmem_In U l : lmem U l = true <-> In U l.
Proof. unfold lmem. rewrite existsb_exists. split; [intros (x & H & E); apply leqb_spec in E; now subst|intros H; exists U; split; [exact H|now apply leqb_spec]]. Qed.
Lemma set_nth_length st : forall i x, length (set_nth st i x) = length st.
Proof. induction st as [|a st IH]; intros [|i] x; cbn; auto. Qed.
Lemma set_nth_same st : forall i x, (i < length st)%nat -> nth_error (set_nth st i x) i = Some x.
Proof. induction st as [|a st IH]; intros [|i] x H; cbn in *; [lia|lia|reflexivity|apply IH; lia]. Qed.
Lemma set_nth_other st : forall i j x, i <> j -> nth_error (set_nth st i x) j = nth_error st j.
Proof. induction st as [|a st IH]; intros [|i] [|j] x H; cbn; try congruence; auto. Qed.

(** Sets of variables are strictly increasing lists. *)
Section Order.
Variable d : nat.
Variable pgs : nat -> pgraph.
Definition best (i : nat) (U : list nat) : ext := qscore (pgs i) U.
Let gb := gbest pgs.
Hypothesis mono : forall i T T' s, incl T T' -> best i T = Some s -> exists s', best i T' = Some s' /\ s' <= s.
Hypothesis above : forall i T s, best i T = Some s -> gb i <= s.

Definition uset (U : list nat) : Prop := StronglySorted lt U /\ forall v, In v U -> (v < d)%nat.
Lemma in_uplus U i v : In v (uplus U i) <-> v = i \/ In v U.
Proof. apply sins_In. Qed.
Lemma uset_uplus U i : uset U -> (i < d)%nat -> uset (uplus U i).
Proof. intros [H1 H2] Hi. split; [now apply sins_sorted|]. intros v Hv. apply in_uplus in Hv. destruct Hv as [->|Hv]; auto. Qed.
Lemma uplus_comm U i j : uset U -> uplus (uplus U i) j = uplus (uplus U j) i.
Proof.
  intros [H _]. apply sorted_unique; [now apply sins_sorted, sins_sorted|now apply sins_sorted, sins_sorted|]. intros v. rewrite !in_uplus. tauto.
Qed.
Lemma uset_eq U V : uset U -> uset V -> (forall v, In v U <-> In v V) -> U = V.
Proof. intros [H _] [H' _] E. now apply sorted_unique. Qed.
Lemma uset_nodup U : uset U -> NoDup U.
Proof.
  intros [H _]. induction H as [|a l Hl IH Ha]; constructor; [|exact IH]. rewrite Forall_forall in Ha. intros J. specialize (Ha a J). lia.
Qed.
Lemma uplus_length U i : uset U -> ~ In i U -> length (uplus U i) = S (length U).
Proof.
  intros _. unfold uplus. induction U as [|a U IH]; intros H; cbn [sins]; [reflexivity|]. destruct (Nat.ltb_spec i a); [reflexivity|].
  destruct (Nat.eqb_spec i a) as [->|]; [destruct H; now left|]. cbn [length]. rewrite IH; [reflexivity|]. intros J. apply H. now right.
Qed.
Lemma uset_nil : uset [].
Proof. split; [constructor|intros v []]. Qed.
Lemma uset_bound U : uset U -> (length U <= d)%nat.
Proof. intros H. rewrite <- (seq_length d 0). apply NoDup_incl_length; [now apply uset_nodup|]. intros v Hv. apply in_seq0. now apply H. Qed.
Lemma uset_full U : uset U -> length U = d -> forall v, (v < d)%nat -> In v U.
Proof.
  intros H HL v Hv. refine (NoDup_length_incl (uset_nodup U H) _ _ v (proj2 (in_seq0 d v) Hv)); [rewrite seq_length; lia|].
  intros x Hx. apply in_seq0. now apply H.
Qed.
Lemma full_length U : uset U -> (forall v, (v < d)%nat -> In v U) -> length U = d.
Proof.
  intros H HF. pose proof (uset_bound U H). enough (d <= length U)%nat by lia. rewrite <- (seq_length d 0) at 1. apply NoDup_incl_length; [apply seq_NoDup|].
  intros v Hv. apply in_seq0 in Hv. auto.
Qed.
Lemma in_out U v : In v (out_set d U) <-> (v < d)%nat /\ ~ In v U.
Proof. unfold out_set. rewrite filter_In, in_seq0, negb_true_iff, memb_not_In. tauto. Qed.

(** ** The sum over the variables outside U *)
Definition sum_out (f : nat -> Z) (U : list nat) : Z := fold_right Z.add 0 (map f (out_set d U)).
Lemma sum_filter (f : nat -> Z) (p q : nat -> bool) (l : list nat) i : NoDup l -> In i l -> q i = true -> p i = false -> (forall v, v <> i -> p v = q v) ->
  fold_right Z.add 0 (map f (filter q l)) = f i + fold_right Z.add 0 (map f (filter p l)).
Proof.
  intros HN HI Q P E. induction HN as [|a l Ha Hl IH]; [destruct HI|]. cbn [filter]. destruct (Nat.eq_dec a i) as [->|N].
  - rewrite Q, P. cbn [map fold_right]. f_equal. f_equal. f_equal. symmetry. apply filter_ext_in. intros v Hv. apply E. intros ->. auto.
  - rewrite (E a N). destruct HI as [HI|HI]; [congruence|]. specialize (IH HI). destruct (q a); cbn [map fold_right]; lia.
Qed.
Lemma sum_out_step f U i : (i < d)%nat -> ~ In i U -> sum_out f U = f i + sum_out f (uplus U i).
Proof.
  intros Hi Hn. unfold sum_out, out_set. apply sum_filter; [apply seq_NoDup|now apply in_seq0| | |].
  - apply negb_true_iff, memb_not_In, Hn.
  - apply negb_false_iff, memb_In, in_uplus. now left.
  - intros v Hv. f_equal. destruct (memb v U) eqn:E.
    + apply memb_In, in_uplus. right. now apply memb_In.
    + apply memb_not_In. rewrite in_uplus. apply memb_not_In in E. tauto.
Qed.
Lemma sum_out_full f U : (forall v, (v < d)%nat -> In v U) -> sum_out f U = 0.
Proof.
  intros H. unfold sum_out. assert (E : out_set d U = []); [|now rewrite E]. destruct (out_set d U) as [|v l] eqn:E; [reflexivity|].
  assert (J : In v (out_set d U)) by (rewrite E; now left). apply in_out in J. destruct J as [J1 J2]. destruct (J2 (H v J1)).
Qed.
Lemma simple_h_sum U : simple_h d pgs U = sum_out gb U.
Proof. reflexivity. Qed.

(** ** Completions *)
Inductive compl : list nat -> Z -> Prop :=
| compl_done U : (forall v, (v < d)%nat -> In v U) -> compl U 0
| compl_step U i s c : (i < d)%nat -> ~ In i U -> best i U = Some s -> compl (uplus U i) c -> compl U (s + c).

Lemma compl_lower U c : compl U c -> sum_out gb U <= c.
Proof.
  induction 1 as [U H|U i s c Hi Hn Hs Hc IH]; [rewrite sum_out_full by exact H; lia|]. rewrite (sum_out_step gb U i Hi Hn). specialize (above _ _ _ Hs). lia.
Qed.
(** A variable may be added right away if that is no more expensive than ever. *)
Lemma compl_exchange U c : compl U c -> uset U -> forall j, (j < d)%nat -> ~ In j U -> exists c', compl (uplus U j) c' /\ gb j + c' <= c.
Proof.
  induction 1 as [U H|U i s c Hi Hn Hs Hc IH]; intros HU j Hj Nj; [destruct (Nj (H j Hj))|].
  destruct (Nat.eq_dec i j) as [->|N].
  - exists c. split; [exact Hc|]. specialize (above _ _ _ Hs). lia.
  - destruct (IH (uset_uplus U i HU Hi) j Hj) as (c' & Hc' & L); [rewrite in_uplus; intros [E|E]; [congruence|auto]|].
    destruct (mono i U (uplus U j) s) as (s' & Hs' & Ls); [intros v Hv; apply in_uplus; now right|exact Hs|].
    exists (s' + c'). split; [|lia]. econstructor; [exact Hi|rewrite in_uplus; intros [E|E]; [congruence|auto]|exact Hs'|]. now rewrite uplus_comm.
Qed.
Lemma compl_not_full U c : compl U c -> (exists v, (v < d)%nat /\ ~ In v U) ->
  exists i s c', (i < d)%nat /\ ~ In i U /\ best i U = Some s /\ compl (uplus U i) c' /\ c = s + c'.
Proof. intros H (v & Hv & Nv). inversion H as [? HF|? i s c' H1 H2 H3 H4]; subst; [destruct (Nv (HF v Hv))|]. exists i, s, c'. auto. Qed.

(** ** Paths from the empty set *)
Definition qpar (i : nat) (U : list nat) : option (list nat) := qparents (pgs i) U.
Inductive built : list nat -> structs -> ext -> Prop :=
| built_nil st : length st = d -> built [] st (Some 0)
| built_step U st g i : built U st g -> (i < d)%nat -> ~ In i U -> built (uplus U i) (set_nth st i (qpar i U)) (eadd (best i U) g).

Lemma built_length U st g : built U st g -> length st = d.
Proof. induction 1; [assumption|]. now rewrite set_nth_length. Qed.
Lemma built_uset U st g : built U st g -> uset U.
Proof. induction 1; [apply uset_nil|]. now apply uset_uplus. Qed.
Lemma built_compl U st g : built U st g -> forall a c, g = Some a -> compl U c -> compl [] (a + c).
Proof.
  induction 1 as [st H|U st g i Hb IH Hi Hn]; intros a c E Hc; [injection E as <-; exact Hc|].
  destruct (best i U) as [s|] eqn:Es; [|discriminate]. destruct g as [b|]; [|discriminate]. cbn [eadd] in E. injection E as <-.
  replace (s + b + c) with (b + (s + c)) by lia. apply IH; [reflexivity|]. now apply (compl_step U i s c).
Qed.
(** What the structures along a finite path are: every variable has parents found by the query, all of smaller rank; the cost is the sum. *)
Lemma built_network U st g : built U st g -> forall a, g = Some a ->
  exists (r : nat -> nat) (pa : nat -> list nat) (w : nat -> Z),
    (forall i, In i U -> nth_error st i = Some (Some (pa i)) /\ (r i < length U)%nat /\ (forall p, In p (pa i) -> In p U /\ (r p < r i)%nat) /\
       exists T, query (pgs i) T = Some (pa i, w i)) /\
    a = fold_right Z.add 0 (map w U).
Proof.
  induction 1 as [st H|U st g i Hb IH Hi Hn]; intros a E.
  - injection E as <-. exists (fun _ => 0%nat), (fun _ => []), (fun _ => 0). split; [intros i []|reflexivity].
  - pose proof (built_uset _ _ _ Hb) as HU. pose proof (built_length _ _ _ Hb) as HL. unfold best, qscore in E.
    destruct (query (pgs i) U) as [[P s]|] eqn:EQ; [|discriminate]. destruct g as [b|]; [|discriminate]. cbn in E. injection E as <-.
    destruct (IH b eq_refl) as (r & pa & w & H1 & H2).
    exists (fun v => if Nat.eqb v i then length U else r v), (fun v => if Nat.eqb v i then P else pa v), (fun v => if Nat.eqb v i then s else w v).
    assert (PU : forall p, In p P -> In p U).
    { unfold query in EQ. apply find_some in EQ. destruct EQ as [_ EQ]. cbn [fst] in EQ. apply subset_spec in EQ. exact EQ. }
    split.
    + intros v Hv. rewrite uplus_length by assumption. apply in_uplus in Hv. destruct (Nat.eqb_spec v i) as [->|N].
      * split; [unfold qpar, qparents; rewrite EQ; cbn [option_map fst]; apply set_nth_same; lia|]. split; [lia|]. split; [|exists U; exact EQ].
        intros p Hp. split; [apply in_uplus; right; auto|]. destruct (Nat.eqb_spec p i) as [->|Np]; [destruct (Hn (PU _ Hp))|]. apply (H1 p). auto.
      * destruct Hv as [Hv|Hv]; [congruence|]. destruct (H1 v Hv) as (K1 & K2 & K3 & K4). split; [rewrite set_nth_other by congruence; exact K1|]. split; [lia|].
        split; [|exact K4]. intros p Hp. destruct (K3 p Hp) as [K5 K6]. split; [apply in_uplus; now right|]. destruct (Nat.eqb_spec p i) as [->|]; [contradiction|exact K6].
    + rewrite H2. clear - Hn HU. assert (G : forall l, ~ In i l -> fold_right Z.add 0 (map (fun v => if Nat.eqb v i then s else w v) l) = fold_right Z.add 0 (map w l)).
      { induction l as [|a l IHl]; intros N; [reflexivity|]. cbn [map fold_right]. rewrite IHl by (intros J; apply N; now right).
        destruct (Nat.eqb_spec a i) as [->|]; [destruct N; now left|reflexivity]. }
      clear HU. unfold uplus. induction U as [|a U IH]; cbn [sins map fold_right]; [rewrite Nat.eqb_refl; lia|].
      destruct (Nat.ltb_spec i a); [|destruct (Nat.eqb_spec i a) as [->|N]; [destruct Hn; now left|]].
      * cbn [map fold_right]. rewrite Nat.eqb_refl. pose proof (G (a :: U) Hn) as K. cbn [map fold_right] in K. lia.
      * cbn [map fold_right]. specialize (IH ltac:(intros J; apply Hn; now right)). destruct (Nat.eqb_spec a i) as [->|]; [congruence|]. lia.
Qed.
End Order.

Lemma seq_increasing n : forall k, StronglySorted lt (seq k n).
Proof.
  induction n as [|n IH]; intros k; cbn [seq]; constructor; [apply IH|]. apply Forall_forall. intros x Hx. apply in_seq in Hx. lia.
Qed.
(** ** Networks and completions *)
Section Network.
Variable bic : nat -> list nat -> Z.
Hypothesis bic_set : set_score bic.
Variable so : list nat -> list nat.
Hypothesis so_perm : forall l, Permutation (so l) l.
Variable d maxp : nat.
Variable sup inc : nat -> nat -> bool.
Let pgs := parent_graphs bic so d maxp sup inc.

(** A rank function for a network. *)
Definition net_graph (pa : nat -> list nat) : ggraph :=
  mkG d (fun i j => if memb i (pa j) then -1 else if memb j (pa i) then 1 else 0) (fun _ _ => 0).
Lemma network_rank pa : network d maxp sup inc pa -> exists r : nat -> nat, forall p i, (i < d)%nat -> In p (pa i) -> (r p < r i)%nat.
Proof.
  intros [HA HP].
  assert (HE : forall p i, dedge (net_graph pa) p i -> (i < d)%nat /\ In p (pa i)).
  { intros p i (H1 & H2 & [[H3 H4]|[H3 H4]]); cbn in *.
    - destruct (memb p (pa i)) eqn:E; [split; [exact H2|now apply memb_In]|]. destruct (memb i (pa p)); discriminate.
    - destruct (memb p (pa i)); [discriminate|]. destruct (memb i (pa p)); discriminate. }
  destruct (topological_rank (net_graph pa)) as (r & Hr).
  - intros v (w & Hvw & HR). apply (HA v). exists w. split; [now apply HE|]. clear Hvw. induction HR as [|x y z H _ IH]; [constructor|]. econstructor; [apply HE, H|exact IH].
  - exists r. intros p i Hi Hp. apply Hr. destruct (HP i Hi) as (_ & HB & _). destruct (HB p Hp) as [Hpd _]. split; [exact Hpd|]. split; [exact Hi|]. left. cbn.
    rewrite (proj2 (memb_In p (pa i)) Hp). split; [reflexivity|]. destruct (memb i (pa p)) eqn:E; [|reflexivity]. exfalso. apply memb_In in E.
    apply (HA p). exists i. split; [auto|]. eapply reach_step; [split; [exact Hpd|exact E]|constructor].
Qed.
Lemma least_rank (r : nat -> nat) (l : list nat) : l <> [] -> exists v, In v l /\ forall w, In w l -> (r v <= r w)%nat.
Proof.
  induction l as [|a l IH]; [congruence|]. intros _. destruct l as [|b l].
  - exists a. split; [now left|]. intros w [->|[]]. lia.
  - destruct IH as (v & Hv & Hm); [discriminate|]. destruct (le_lt_dec (r a) (r v)) as [L|L].
    + exists a. split; [now left|]. intros w [->|Hw]; [lia|]. specialize (Hm w Hw). lia.
    + exists v. split; [now right|]. intros w [->|Hw]; [lia|auto].
Qed.
Lemma network_compl pa : network d maxp sup inc pa -> forall m U, uset d U -> (length (out_set d U) <= m)%nat -> (forall i, In i U -> incl (pa i) U) ->
  exists c, compl d pgs U c /\ c <= sum_out d (fun i => bic i (pa i)) U.
Proof.
  intros HN. destruct (network_rank pa HN) as (r & Hr). destruct HN as [_ HP].
  induction m as [|m IH]; intros U HU Hm HD.
  - exists 0. assert (HF : forall v, (v < d)%nat -> In v U).
    { intros v Hv. destruct (in_dec Nat.eq_dec v U) as [H|H]; [exact H|]. assert (J : In v (out_set d U)) by (apply in_out; auto). destruct (out_set d U); [destruct J|cbn in Hm; lia]. }
    split; [now apply compl_done|]. rewrite sum_out_full by exact HF. lia.
  - destruct (out_set d U) as [|x l] eqn:EO.
    + exists 0. assert (HF : forall v, (v < d)%nat -> In v U).
      { intros v Hv. destruct (in_dec Nat.eq_dec v U) as [H|H]; [exact H|]. assert (J : In v (out_set d U)) by (apply in_out; auto). rewrite EO in J. destruct J. }
      split; [now apply compl_done|]. rewrite sum_out_full by exact HF. lia.
    + destruct (least_rank r (out_set d U)) as (i & Hi & Hmin); [rewrite EO; discriminate|]. apply in_out in Hi. destruct Hi as [Hi Ni].
      assert (HPi : incl (pa i) U).
      { intros p Hp. destruct (in_dec Nat.eq_dec p U) as [H|H]; [exact H|]. destruct (HP i Hi) as (_ & HB & _). destruct (HB p Hp) as [Hpd _].
        specialize (Hmin p (proj2 (in_out d U p) (conj Hpd H))). specialize (Hr p i Hi Hp). lia. }
      assert (HB : exists s, best pgs i U = Some s /\ s <= bic i (pa i)).
      { unfold best, qscore. destruct (query (pgs i) U) as [[P s]|] eqn:EQ.
        - exists s. split; [reflexivity|]. destruct (query_best bic bic_set so so_perm d maxp sup inc i U P s EQ) as (_ & _ & _ & H). apply H; [now apply HP|exact HPi].
        - exfalso. apply (query_fails bic so so_perm d maxp sup inc i U EQ (pa i)); [now apply HP|exact HPi]. }
      destruct HB as (s & Es & Ls). destruct (IH (uplus U i)) as (c & Hc & Lc).
      * now apply uset_uplus.
      * assert (L : (length (out_set d (uplus U i)) < length (out_set d U))%nat); [|rewrite EO in L; cbn in *; lia].
        apply (NoDup_incl_length (l := i :: out_set d (uplus U i)) (l' := out_set d U)).
        -- constructor; [rewrite in_out, in_uplus; tauto|]. apply NoDup_filter, seq_NoDup.
        -- intros v [<-|Hv]; apply in_out; [auto|]. apply in_out in Hv. rewrite in_uplus in Hv. tauto.
      * intros v Hv p Hp. apply in_uplus. right. apply in_uplus in Hv. destruct Hv as [->|Hv]; [now apply HPi|now apply (HD v Hv)].
      * exists (s + c). split; [now apply (compl_step d pgs U i s c)|]. rewrite (sum_out_step d _ U i Hi Ni). lia.
Qed.
Lemma network_cost pa : network d maxp sup inc pa -> exists c, compl d pgs [] c /\ c <= total bic d pa.
Proof.
  intros HN. destruct (network_compl pa HN (length (out_set d [])) [] (uset_nil d) (le_n _)) as (c & H1 & H2); [intros i []|]. exists c. split; [exact H1|].
  unfold sum_out, out_set in H2. unfold total. rewrite (filter_ext _ (fun _ => true)) in H2 by reflexivity.
  assert (E : filter (fun _ : nat => true) (seq 0 d) = seq 0 d) by (clear; induction (seq 0 d); cbn; congruence). now rewrite E in H2.
Qed.

(** A cheapest path to the full set is an optimal network. *)
Lemma built_optimal U st a : built d pgs U st (Some a) -> length U = d -> (forall c, compl d pgs [] c -> a <= c) ->
  exists pa, optimal bic d maxp sup inc pa /\ matrix_of d pa (dag_est st) /\ total bic d pa = a.
Proof.
  intros HB HL HM. pose proof (built_uset _ _ _ _ _ HB) as HU.
  assert (EU : U = seq 0 d).
  { apply (uset_eq d); [exact HU| |].
    - split; [|intros v Hv; now apply in_seq0]. apply seq_increasing.
    - intros v. rewrite in_seq0. split; [apply HU|now apply uset_full]. }
  destruct (built_network _ _ _ _ _ HB a eq_refl) as (r & pa & w & H1 & H2). exists pa.
  assert (HT : total bic d pa = a).
  { rewrite H2. unfold total. rewrite <- EU. f_equal. apply map_ext_in. intros i Hi. destruct (H1 i Hi) as (_ & _ & _ & T & HQ).
    destruct (query_best bic bic_set so so_perm d maxp sup inc i T _ _ HQ) as (_ & _ & E & _). auto. }
  split; [|split; [|exact HT]].
  - split; [split|].
    + apply (rank_acyclic _ r). intros p i [Hi Hp]. apply (H1 i); [rewrite EU; now apply in_seq0|exact Hp].
    + intros i Hi. destruct (H1 i) as (_ & _ & _ & T & HQ); [rewrite EU; now apply in_seq0|]. eapply query_best; eauto.
    + intros pa' HN. destruct (network_cost pa' HN) as (c & Hc & Lc). specialize (HM c Hc). lia.
  - intros p i Hi. unfold dag_est. destruct (H1 i) as (E & _); [rewrite EU; now apply in_seq0|]. rewrite E. destruct (memb p (pa i)) eqn:EM.
    + left. split; [reflexivity|now apply memb_In].
    + right. split; [reflexivity|now apply memb_not_In].
Qed.
End Network.
