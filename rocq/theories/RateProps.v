(** C251-C253: precision and recall of adjacencies and of arrowheads. *)
From Verif Require Import Base GraphModel GraphSpec GraphProofs SumLib NamedModel NamedProofs NamedProps RateModel.
Require Import QArith Permutation.
Local Open Scope Z_scope.

(** Specification. x is the fraction num/den; x lies in [0, 1]; the number of ordered pairs of nodes of G with a property. *)
Definition fraction (x : Q) (num den : Z) : Prop := 0 < den /\ (x * inject_Z den == inject_Z num)%Q.
Definition unit_interval (x : Q) : Prop := (0 <= x)%Q /\ (x <= 1)%Q.
Definition ordered_pairs (G : ngraph) (f : nat -> nat -> bool) : Z :=
  Z.of_nat (length (filter (fun p => f (fst p) (snd p)) (list_prod (nodes G) (nodes G)))).

Lemma to_pos_frac a b : 0 < b -> fraction (a # Z.to_pos b) a b.
Proof. intros H. split; [exact H|]. unfold Qeq, inject_Z, Qmult. cbn. rewrite Pos.mul_1_r, Z2Pos.id by auto. lia. Qed.
Lemma frac_unit a b : 0 <= a <= b -> 0 < b -> unit_interval (a # Z.to_pos b).
Proof. intros H1 H2. split; unfold Qle; cbn; rewrite ?Z2Pos.id by auto; lia. Qed.
Lemma frac_one a b : 0 < b -> ((a # Z.to_pos b) == 1)%Q <-> a = b.
Proof. intros H. unfold Qeq. cbn. rewrite Z2Pos.id by auto. lia. Qed.

Lemma double_count l l2 (f : nat -> nat -> bool) :
  sum_over l (fun a => sum_over l2 (fun b => b2z (f a b))) = Z.of_nat (length (filter (fun p => f (fst p) (snd p)) (list_prod l l2))).
Proof.
  induction l as [|a l IH]; [reflexivity|]. rewrite sum_over_cons, IH. cbn [list_prod]. rewrite filter_app, app_length, Nat2Z.inj_add. f_equal.
  clear IH. induction l2 as [|b l2 IH]; [reflexivity|]. rewrite sum_over_cons, IH. cbn [map filter fst snd]. destruct (f a b); cbn [b2z length]; lia.
Qed.

Lemma op_double G f : ordered_pairs G f = sum_over (nodes G) (fun a => sum_over (nodes G) (fun b => b2z (f a b))).
Proof. unfold ordered_pairs. now rewrite <- double_count. Qed.

Lemma count_zero G f : ordered_pairs G f = 0 <-> forall a b, In a (nodes G) -> In b (nodes G) -> f a b = false.
Proof.
  unfold ordered_pairs. split.
  - intros H a b Ha Hb. destruct (f a b) eqn:F; [|reflexivity]. exfalso.
    assert (I : In (a, b) (filter (fun p => f (fst p) (snd p)) (list_prod (nodes G) (nodes G)))).
    { apply filter_In. split; [apply in_prod; auto|exact F]. }
    destruct (filter _ _); [destruct I|cbn in H; lia].
  - intros H. assert (E : filter (fun p => f (fst p) (snd p)) (list_prod (nodes G) (nodes G)) = []); [|now rewrite E].
    destruct (filter _ _) as [|[a b] l] eqn:E; [reflexivity|]. exfalso.
    assert (I : In (a, b) ((a, b) :: l)) by (now left). rewrite <- E in I. apply filter_In in I. destruct I as [I F]. apply in_prod_iff in I.
    cbn in F. rewrite H in F by tauto. discriminate.
Qed.

Lemma count_split G f g : ordered_pairs G f = ordered_pairs G (fun a b => f a b && g a b) + ordered_pairs G (fun a b => f a b && negb (g a b)).
Proof.
  unfold ordered_pairs. rewrite <- Nat2Z.inj_add. f_equal. induction (list_prod _ _) as [|[a b] l IH]; [reflexivity|].
  cbn [filter fst snd]. destruct (f a b), (g a b); cbn [andb negb length]; lia.
Qed.

Lemma count_all G f g : ordered_pairs G (fun a b => f a b && g a b) = ordered_pairs G f <->
  forall a b, In a (nodes G) -> In b (nodes G) -> f a b = true -> g a b = true.
Proof.
  rewrite (count_split G f g). split.
  - intros H a b Ha Hb Hf. assert (Z0 : ordered_pairs G (fun a b => f a b && negb (g a b)) = 0) by lia.
    pose proof (proj1 (count_zero _ _) Z0 a b Ha Hb) as K. cbn in K. rewrite Hf in K. destruct (g a b); [reflexivity|discriminate].
  - intros H. rewrite (proj2 (count_zero G (fun a b => f a b && negb (g a b)))); [lia|]. intros a b Ha Hb. specialize (H a b Ha Hb).
    destruct (f a b); [rewrite H; reflexivity|reflexivity].
Qed.

Lemma count_nonneg G f : 0 <= ordered_pairs G f.
Proof. unfold ordered_pairs. lia. Qed.

Lemma count_names T E f : same_names T E -> ordered_pairs T f = ordered_pairs E f.
Proof. intros H. unfold ordered_pairs. rewrite <- !double_count. apply (double_sum_perm _ _ (fun a b => b2z (f a b)) H). Qed.

Lemma count_ext G f g : (forall a b, In a (nodes G) -> In b (nodes G) -> f a b = g a b) -> ordered_pairs G f = ordered_pairs G g.
Proof.
  intros H. unfold ordered_pairs. rewrite <- !double_count. apply sum_over_ext. intros a Ha. apply sum_over_ext. intros b Hb. now rewrite H.
Qed.

Lemma pair_count_ordered T f : (forall a b, In a (nodes T) -> In b (nodes T) -> f a b = f b a) -> (forall a, In a (nodes T) -> f a a = false) ->
  2 * pair_count T f = ordered_pairs T f.
Proof. intros H1 H2. rewrite pair_count_double by auto. apply double_count. Qed.

Lemma py_div_raise a b : py_div a b = Raise <-> b = 0.
Proof. unfold py_div. destruct (Z.eqb_spec b 0); split; intros; congruence. Qed.
Lemma py_div_ok a b p : py_div a b = Ok p -> b <> 0 /\ p = (a # Z.to_pos b)%Q.
Proof. unfold py_div. destruct (Z.eqb_spec b 0); intros [=]; auto. Qed.

Section Adjacency.
Variables T E : ngraph.
Hypothesis HT : api_graph T.
Hypothesis HE : api_graph E.
Hypothesis HP : same_names T E.

Let inT a : In a (nodes E) -> In a (nodes T).
Proof. apply Permutation_in, Permutation_sym, HP. Qed.
Let inE a : In a (nodes T) -> In a (nodes E).
Proof. apply Permutation_in, HP. Qed.

Lemma tp_ordered : 2 * adj_tp T E = ordered_pairs E (fun a b => nadjacent E a b && nadjacent T a b).
Proof.
  rewrite <- (count_names T E) by auto. apply (pair_count_ordered T (fun a b => nadjacent E a b && nadjacent T a b)).
  - intros a b Ha Hb. rewrite (nadjacent_sym E a b), (nadjacent_sym T a b); auto.
  - intros a Ha. rewrite (nadjacent_irrefl E); auto.
Qed.
Lemma pairs_ordered : 2 * adjacent_pairs E = ordered_pairs E (nadjacent E).
Proof. apply pair_count_ordered; intros; [now apply nadjacent_sym | now apply nadjacent_irrefl]. Qed.
End Adjacency.

Lemma tp_sym T E : api_graph T -> api_graph E -> same_names T E -> adj_tp T E = adj_tp E T.
Proof.
  intros HT HE HP. assert (HP' : same_names E T) by (apply Permutation_sym, HP).
  assert (H : 2 * adj_tp T E = 2 * adj_tp E T); [|lia]. rewrite !tp_ordered by auto. rewrite (count_names T E) by auto.
  apply count_ext. intros. apply andb_comm.
Qed.

(** Adjacency precision: the fraction of the estimate's adjacent pairs that are adjacent in the truth; a number in [0, 1], equal to 1
    exactly when every adjacency of the estimate is in the truth; recall is the precision with the two graphs exchanged.
    The call raises (ZeroDivisionError) exactly when the estimate has no adjacency. *)
Theorem C251_adjacency_precision_partial : forall T E, api_graph T -> api_graph E -> same_names T E ->
  (adj_precision T E = Raise <-> forall a b, In a (nodes E) -> In b (nodes E) -> nadjacent E a b = false) /\
  (forall p, adj_precision T E = Ok p ->
    fraction p (ordered_pairs E (fun a b => nadjacent E a b && nadjacent T a b)) (ordered_pairs E (nadjacent E)) /\
    unit_interval p /\
    ((p == 1)%Q <-> forall a b, In a (nodes E) -> In b (nodes E) -> nadjacent E a b = true -> nadjacent T a b = true)) /\
  adj_recall T E = adj_precision E T.
Proof.
  intros T E HT HE HP.
  destruct (C14_adjacency_confusion T E HT HE HP) as (N1 & N2 & N3 & _ & _ & A1 & A2).
  assert (HP' : same_names E T) by (apply Permutation_sym, HP).
  destruct (C14_adjacency_confusion E T HE HT HP') as (_ & _ & _ & _ & _ & _ & B2).
  pose proof (tp_ordered T E HT HE HP) as HTP. pose proof (pairs_ordered E HE) as HPO.
  split; [|split].
  - unfold adj_precision. rewrite py_div_raise, A2. rewrite <- (count_zero E (nadjacent E)). lia.
  - intros p Hp. apply py_div_ok in Hp. destruct Hp as [Hne ->]. set (d := adj_tp T E + adj_fp T E) in *.
    assert (Hd : 0 < d) by lia. split; [|split].
    + split; [lia|]. rewrite <- HTP, <- HPO, <- A2. unfold Qeq, inject_Z, Qmult. cbn [Qnum Qden].
      rewrite Pos.mul_1_r, Z2Pos.id by auto. ring.
    + apply frac_unit; lia.
    + rewrite frac_one by auto. rewrite <- (count_all E (nadjacent E) (nadjacent T)), <- HTP, <- HPO. lia.
  - unfold adj_recall, adj_precision. rewrite <- (tp_sym T E) by auto. f_equal. rewrite (tp_sym T E) in * by auto. lia.
Qed.
Print Assumptions C251_adjacency_precision_partial.

(** The two quotients of a graph with itself are 1, when it has an adjacency. *)
Theorem C251_self : forall T, api_graph T -> (exists a b, In a (nodes T) /\ In b (nodes T) /\ nadjacent T a b = true) ->
  exists p, adj_precision T T = Ok p /\ adj_recall T T = Ok p /\ (p == 1)%Q.
Proof.
  intros T HT (a & b & Ha & Hb & Hab). assert (HP : same_names T T) by apply Permutation_refl.
  destruct (C251_adjacency_precision_partial T T HT HT HP) as (R & S & W).
  destruct (adj_precision T T) as [p|] eqn:Ep.
  - exists p. split; [reflexivity|]. split; [now rewrite W|]. destruct (S p eq_refl) as (_ & _ & S3). apply S3. auto.
  - exfalso. rewrite (proj1 R eq_refl a b) in Hab by auto. discriminate.
Qed.
Print Assumptions C251_self.

(** "Precision and recall are defined for every estimate" fails: the estimate with no edges makes the precision raise whatever the truth
    is, and as a truth it makes the recall raise; while the example pair below has both. *)
Theorem C251_always_defined_refuted : forall names, NoDup names ->
  exists E, api_graph E /\ nodes E = names /\ forall T, api_graph T -> same_names T E -> adj_precision T E = Raise /\ adj_recall E T = Raise.
Proof.
  intros names HN. exists (new_ngraph names).
  assert (HE : api_graph (new_ngraph names)) by (split; [now apply new_consistent|apply empty_wf]).
  assert (Z0 : forall a b, nadjacent (new_ngraph names) a b = false).
  { intros a b. unfold nadjacent, cell. cbn [ng new_ngraph]. reflexivity. }
  split; [exact HE|]. split; [reflexivity|]. intros T HT HP.
  assert (R : adj_precision T (new_ngraph names) = Raise).
  { apply (proj1 (C251_adjacency_precision_partial T _ HT HE HP)). auto. }
  split; [exact R|].
  destruct (C251_adjacency_precision_partial _ T HE HT (Permutation_sym HP)) as (_ & _ & W). now rewrite W.
Qed.
Print Assumptions C251_always_defined_refuted.

Example C251_example : exists p q, adj_precision exT exE = Ok p /\ (p == 1)%Q /\ adj_recall exT exE = Ok q /\ (q == 1)%Q.
Proof. exists (2 # 2)%Q, (2 # 2)%Q. repeat split; reflexivity. Qed.

(* ---------- arrowheads ---------- *)
Lemma cf_counts T tp ep :
  cf_tp T tp ep = ordered_pairs T (fun a b => ep a b && tp a b) /\
  cf_fp T tp ep = ordered_pairs T (fun a b => ep a b && negb (tp a b)) /\
  cf_fn T tp ep = ordered_pairs T (fun a b => tp a b && negb (ep a b)).
Proof.
  unfold cf_tp, cf_fp, cf_fn. rewrite !op_double, !all_cells_names.
  repeat split; apply sum_over_ext; intros a _; apply sum_over_ext; intros b _; destruct (tp a b), (ep a b); reflexivity.
Qed.

(** What the four quotients over a pair of 0/1 matrices are. *)
Lemma np_rate T tp ep : 
  let r := np_div (cf_tp T tp ep) (cf_tp T tp ep + cf_fp T tp ep) in
  (r = None <-> forall a b, In a (nodes T) -> In b (nodes T) -> ep a b = false) /\
  (forall p, r = Some p -> fraction p (ordered_pairs T (fun a b => ep a b && tp a b)) (ordered_pairs T ep) /\ unit_interval p /\
    ((p == 1)%Q <-> forall a b, In a (nodes T) -> In b (nodes T) -> ep a b = true -> tp a b = true)).
Proof.
  destruct (cf_counts T tp ep) as (-> & -> & _). rewrite <- (count_split T ep tp). intros r. unfold r, np_div.
  destruct (Z.eqb_spec (ordered_pairs T ep) 0) as [H|H].
  - split; [|intros p; discriminate]. split; [intros _; now apply count_zero|reflexivity].
  - pose proof (count_nonneg T ep) as N1. pose proof (count_nonneg T (fun a b => ep a b && tp a b)) as N2.
    pose proof (count_nonneg T (fun a b => ep a b && negb (tp a b))) as N3. pose proof (count_split T ep tp) as N4.
    split; [split; [discriminate|intros K; apply count_zero in K; lia]|]. intros p [= <-]. split; [|split].
    + apply to_pos_frac. lia.
    + apply frac_unit; lia.
    + rewrite frac_one by lia. apply count_all.
Qed.

(** Arrow precision: the fraction of the estimate's arrowheads that are arrowheads of the truth; in [0, 1], equal to 1 exactly when
    every arrowhead of the estimate is in the truth; recall is the precision with the graphs exchanged.  With no arrowhead in the
    estimate it is nan (the call does not raise, unlike the adjacency precision). *)
Theorem C252_arrow_precision : forall T E, same_names T E ->
  (arrow_precision T E = None <-> forall a b, In a (nodes E) -> In b (nodes E) -> arrow_at E a b = false) /\
  (forall p, arrow_precision T E = Some p ->
    fraction p (ordered_pairs E (fun a b => arrow_at E a b && arrow_at T a b)) (ordered_pairs E (arrow_at E)) /\ unit_interval p /\
    ((p == 1)%Q <-> forall a b, In a (nodes E) -> In b (nodes E) -> arrow_at E a b = true -> arrow_at T a b = true)) /\
  arrow_recall T E = arrow_precision E T.
Proof.
  intros T E HP. destruct (np_rate T (arrow_at T) (arrow_at E)) as [R1 R2].
  assert (I : forall a, In a (nodes T) <-> In a (nodes E)) by (intros a; split; apply Permutation_in; [|apply Permutation_sym]; exact HP).
  split; [|split].
  - unfold arrow_precision, arrows_tp, arrows_fp. rewrite R1. split; intros H a b Ha Hb; apply H; now apply I.
  - intros p Hp. destruct (R2 p Hp) as (F & U & O). rewrite (count_names T E), (count_names T E (arrow_at E)) in F by auto.
    split; [exact F|]. split; [exact U|]. rewrite O. split; intros H a b Ha Hb; apply H; now apply I.
  - unfold arrow_recall, arrow_precision. destruct (C15_arrow_confusion T E HP) as (_ & _ & _ & _ & -> & _).
    destruct (C15_arrow_confusion E T (Permutation_sym HP)) as (_ & _ & _ & <- & _). reflexivity.
Qed.
Print Assumptions C252_arrow_precision.

Example C252_example : (exists p, arrow_precision exT exE = Some p /\ (p == 1 # 2)%Q) /\ arrow_precision exT (new_ngraph [7; 8; 9]%nat) = None.
Proof. split; [exists (1 # 2)%Q; split; reflexivity|reflexivity]. Qed.

(** Precision over common edges: the same with the estimate's arrowheads restricted to pairs adjacent in the truth.  The class method and
    the GraphUtils function, which divide different counts, return the same; it is nan exactly when no arrowhead of the estimate
    lies on a pair adjacent in the truth, and it is at least the plain precision.  Recall is the same with the graphs exchanged. *)
Theorem C253_common_edge_precision : forall T E, api_graph T -> api_graph E -> same_names T E -> simple (ng T) -> simple (ng E) ->
  arrow_precision_common_edges T E = arrow_precision_ce T E /\
  arrow_recall_common_edges T E = arrow_recall_ce T E /\
  arrow_recall_ce T E = arrow_precision_ce E T /\
  (arrow_precision_ce T E = None <->
    forall a b, In a (nodes E) -> In b (nodes E) -> arrow_at E a b = true -> nadjacent T a b = false) /\
  (forall p, arrow_precision_ce T E = Some p ->
    fraction p (ordered_pairs E (fun a b => arrow_at E a b && arrow_at T a b)) (ordered_pairs E (fun a b => arrow_at E a b && nadjacent T a b)) /\
    unit_interval p /\ forall q, arrow_precision T E = Some q -> (q <= p)%Q).
Proof.
  intros T E HT HE HP ST SE. destruct (C15_common_edges T E HT HE HP ST SE) as (C1 & C2 & C3).
  assert (I : forall a, In a (nodes T) <-> In a (nodes E)) by (intros a; split; apply Permutation_in; [|apply Permutation_sym]; exact HP).
  assert (K : forall a b, In a (nodes T) -> In b (nodes T) ->
     (arrow_at T a b = true -> nadjacent T a b = true) /\ (arrow_at E a b = true -> nadjacent E a b = true)).
  { intros a b Ha Hb. split; intros H; rewrite arrow_at_cell in H; auto; try (now apply I);
    apply Z.eqb_eq in H; unfold nadjacent; now rewrite H. }
  destruct (np_rate T (true_ce T E) (est_ce T E)) as [R1 R2].
  split; [|split; [|split; [|split]]].
  - unfold arrow_precision_common_edges, arrow_precision_ce. now rewrite C1.
  - unfold arrow_recall_common_edges, arrow_recall_ce. now rewrite C1.
  - unfold arrow_recall_ce, arrow_precision_ce, arrows_tp_ce, arrows_fn_ce, arrows_fp_ce.
    destruct (cf_counts T (true_ce T E) (est_ce T E)) as (-> & _ & ->). destruct (cf_counts E (true_ce E T) (est_ce E T)) as (-> & -> & _).
    rewrite !(count_names T E) by auto. unfold true_ce, est_ce.
    rewrite (count_ext E (fun a b => arrow_at E a b && nadjacent T a b && (arrow_at T a b && nadjacent E a b))
               (fun a b => arrow_at T a b && nadjacent E a b && (arrow_at E a b && nadjacent T a b))).
    + reflexivity.
    + intros. apply andb_comm.
  - unfold arrow_precision_ce, arrows_tp_ce, arrows_fp_ce. rewrite R1. unfold est_ce. split.
    + intros H a b Ha Hb Hab. specialize (H a b (proj2 (I a) Ha) (proj2 (I b) Hb)). now rewrite Hab in H.
    + intros H a b Ha Hb. destruct (arrow_at E a b) eqn:Hab; [|reflexivity]. cbn. apply H; auto; now apply I.
  - intros p Hp. destruct (R2 p Hp) as (F & U & _).
    assert (X : ordered_pairs T (fun a b => est_ce T E a b && true_ce T E a b) = ordered_pairs E (fun a b => arrow_at E a b && arrow_at T a b)).
    { rewrite <- (count_names T E) by auto. apply count_ext. intros a b Ha Hb. destruct (K a b Ha Hb) as [K1 K2]. unfold est_ce, true_ce.
      destruct (arrow_at T a b) eqn:A1, (arrow_at E a b) eqn:A2; rewrite ?K1, ?K2 by reflexivity; cbn; rewrite ?andb_false_r; reflexivity. }
    assert (Y : ordered_pairs T (est_ce T E) = ordered_pairs E (fun a b => arrow_at E a b && nadjacent T a b)) by (rewrite <- (count_names T E) by auto; reflexivity).
    rewrite X, Y in F. split; [exact F|]. split; [exact U|]. intros q Hq.
    destruct (C252_arrow_precision T E HP) as (_ & Q2 & _). destruct (Q2 q Hq) as ([D1 F1] & _ & _). destruct F as [D2 F2].
    set (num := ordered_pairs E (fun a b => arrow_at E a b && arrow_at T a b)) in *.
    pose proof (count_split E (arrow_at E) (nadjacent T)) as CS.
    set (d2 := ordered_pairs E (fun a b => arrow_at E a b && nadjacent T a b)) in *. set (d1 := ordered_pairs E (arrow_at E)) in *.
    pose proof (count_nonneg E (fun a b => arrow_at E a b && negb (nadjacent T a b))) as NN.
    assert (N0 : 0 <= num) by apply count_nonneg. clearbody num d1 d2.
    unfold Qle, Qeq in *. cbn in *. destruct p as [pn pd], q as [qn qd]. cbn in *. rewrite ?Pos.mul_1_r, ?Z.mul_1_r in *.
    apply (Z.mul_le_mono_pos_r _ _ (d1 * d2)); [nia|].
    replace (qn * Z.pos pd * (d1 * d2)) with (qn * d1 * Z.pos pd * d2) by ring.
    replace (pn * Z.pos qd * (d1 * d2)) with (pn * d2 * Z.pos qd * d1) by ring. rewrite F1, F2.
    replace (num * Z.pos pd * Z.pos qd * d1) with (num * Z.pos qd * Z.pos pd * d1) by ring.
    apply Z.mul_le_mono_nonneg_l; [|lia]. apply Z.mul_nonneg_nonneg; [apply Z.mul_nonneg_nonneg|]; lia.
Qed.
Print Assumptions C253_common_edge_precision.

Example C253_example : simple (ng exT) /\ simple (ng exE) /\ exists p, arrow_precision_ce exT exE = Some p /\ (p == 1 # 2)%Q.
Proof.
  split; [|split; [|exists (1 # 2)%Q; split; reflexivity]];
  intros i j Hi Hj; cbn in Hi, Hj; destruct i as [|[|[|]]], j as [|[|[|]]]; try lia; vm_compute; tauto.
Qed.
