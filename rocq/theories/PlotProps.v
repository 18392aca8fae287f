(** C247-C249: the time series graph, the order of its rows, eigdec. *)
From Verif Require Import Base FinderProps PlotModel.
From Coq Require Import Reals Lra Permutation.
Local Open Scope nat_scope.

(** * C247: the edges of the time series graph *)
Lemma flat_inj L i s j t : s < L -> t < L -> flat L i s = flat L j t -> i = j /\ s = t.
Proof. unfold flat. intros Hs Ht E. assert (i = j) by nia. subst. lia. Qed.
Lemma in_links d L link i j tau : In (i, j, tau) (link_list d L link) <-> i < d /\ j < d /\ tau < L /\ link i j tau = true.
Proof.
  unfold link_list. rewrite in_flat_map. split.
  - intros (i' & Hi & H). apply in_flat_map in H. destruct H as (j' & Hj & H). apply in_flat_map in H. destruct H as (t' & Ht & H). apply in_seq in Hi, Hj, Ht.
    destruct (link i' j' t') eqn:E; [|destruct H]. destruct H as [H|[]]. injection H as -> -> ->. repeat split; try lia. exact E.
  - intros (Hi & Hj & Ht & E). exists i. split; [apply in_seq; lia|]. apply in_flat_map. exists j. split; [apply in_seq; lia|]. apply in_flat_map. exists tau. split; [apply in_seq; lia|]. rewrite E. now left.
Qed.
Lemma set_times L i j tau l : forall m x y, fold_left (fun m t => if Nat.leb tau t then set_cell m (flat L i (t - tau)) (flat L j t) else m) l m x y = true <->
  m x y = true \/ exists t, In t l /\ tau <= t /\ x = flat L i (t - tau) /\ y = flat L j t.
Proof.
  induction l as [|t l IH]; intros m x y; cbn [fold_left]; [split; [auto|intros [H|(t & [] & _)]; exact H]|]. rewrite IH. destruct (Nat.leb_spec tau t).
  - unfold set_cell. destruct (Nat.eqb_spec x (flat L i (t - tau))) as [E|E], (Nat.eqb_spec y (flat L j t)) as [F|F]; cbn [andb]; split.
    + intros _. right. exists t. auto using in_eq.
    + intros _. now left.
    + intros [Q|(u & Hu & Q)]; [now left|right; exists u; split; [now right|exact Q]].
    + intros [Q|(u & [->|Hu] & Q1 & Q2 & Q3)]; [now left|congruence|right; exists u; auto].
    + intros [Q|(u & Hu & Q)]; [now left|right; exists u; split; [now right|exact Q]].
    + intros [Q|(u & [->|Hu] & Q1 & Q2 & Q3)]; [now left|congruence|right; exists u; auto].
    + intros [Q|(u & Hu & Q)]; [now left|right; exists u; split; [now right|exact Q]].
    + intros [Q|(u & [->|Hu] & Q1 & Q2 & Q3)]; [now left|congruence|right; exists u; auto].
  - split; intros [Q|(u & Hu & Q)]; try (now left).
    + right. exists u. split; [now right|exact Q].
    + destruct Hu as [->|Hu]; [lia|right; exists u; auto].
Qed.
Lemma set_links L es : forall m x y, fold_left (set_link L) es m x y = true <-> m x y = true \/ exists i j tau t, In (i, j, tau) es /\ tau <= t /\ t < L /\ x = flat L i (t - tau) /\ y = flat L j t.
Proof.
  induction es as [|[[i j] tau] es IH]; intros m x y; cbn [fold_left]; [split; [auto|intros [H|(i & j & tau & t & [] & _)]; exact H]|]. rewrite IH. unfold set_link. rewrite set_times. split.
  - intros [[H|(t & Ht & H)]|(i' & j' & tau' & t & Hin & H)]; [now left| |].
    + right. exists i, j, tau, t. apply in_seq in Ht. split; [now left|]. split; [tauto|]. split; [lia|tauto].
    + right. exists i', j', tau', t. split; [now right|exact H].
  - intros [H|(i' & j' & tau' & t & [E|Hin] & H1 & H2 & H3)]; [tauto| |].
    + injection E as -> -> ->. left. right. exists t. split; [apply in_seq; lia|tauto].
    + right. exists i', j', tau', t. auto.
Qed.
(** There is an edge from variable i at time s to variable j at time t just when there is a link from i to j with the lag t - s; all edges join nodes of the d variables at the L times. *)
Theorem C247_edges : forall d L link, (forall i j s t, i < d -> j < d -> s < L -> t < L -> (tsg d L link (flat L i s) (flat L j t) = true <-> s <= t /\ link i j (t - s) = true)) /\
  forall x y, tsg d L link x y = true -> exists i j s t, i < d /\ j < d /\ s < L /\ t < L /\ x = flat L i s /\ y = flat L j t.
Proof.
  intros d L link. unfold tsg. split.
  - intros i j s t Hi Hj Hs Ht. rewrite set_links. split.
    + intros [H|(i' & j' & tau & t' & Hin & H1 & H2 & H3 & H4)]; [discriminate|]. apply in_links in Hin. apply flat_inj in H3; [|exact Hs|lia]. apply flat_inj in H4; [|exact Ht|exact H2]. destruct H3 as [-> ->], H4 as [-> ->].
      split; [lia|]. replace (t' - (t' - tau)) with tau by lia. tauto.
    + intros [H1 H2]. right. exists i, j, (t - s), t. split; [apply in_links; repeat split; try lia; exact H2|]. replace (t - (t - s)) with s by lia. repeat split; lia.
  - intros x y H. apply set_links in H. destruct H as [H|(i & j & tau & t & Hin & H1 & H2 & H3 & H4)]; [discriminate|]. apply in_links in Hin. exists i, j, (t - tau), t. repeat split; tauto || lia.
Qed.
(** Distinct nodes have distinct places (the time from left to right), whatever the permutation order; the links of a matrix of coefficients are those of at least alpha. *)
Theorem C247_places : forall d L order n tau n' tau', (forall k, k < d -> order k < d) -> (forall a b, a < d -> b < d -> order a = order b -> a = b) -> n < d -> n' < d -> tau < L -> tau' < L ->
  fst (node_place d L order n tau) = tau /\ (node_place d L order n tau = node_place d L order n' tau' -> n = n' /\ tau = tau').
Proof.
  intros d L order n tau n' tau' HO HI Hn Hn' Ht Ht'. assert (P : forall k t, t < L -> place L (k * L + t) = (t, k)).
  { intros k t H. unfold place. f_equal; [rewrite Nat.add_comm, Nat.mod_add by lia; now apply Nat.mod_small|rewrite Nat.div_add_l by lia; rewrite Nat.div_small by exact H; lia]. }
  unfold node_place. rewrite !P by assumption. cbn [fst]. split; [reflexivity|]. intros E. injection E as -> E. split; [|reflexivity]. apply HI; try assumption. pose proof (HO n Hn). pose proof (HO n' Hn'). lia.
Qed.
Theorem C247_threshold : forall alpha coef i j tau, links_of alpha coef i j tau = true <-> (alpha <= Rabs (coef i j tau))%R.
Proof. intros. unfold links_of. destruct (Rle_dec alpha (Rabs (coef i j tau))); split; auto; discriminate. Qed.

(** * C248: the order of the rows *)
(** The row of a variable, counted from the top. *)
Definition from_top (d L : nat) (order : nat -> nat) (n : nat) : nat := d - 1 - snd (node_place d L order n 0).
Lemma node_row d L order n : 0 < L -> snd (node_place d L order n 0) = d - order n - 1.
Proof. intros HL. unfold node_place, place. cbn [snd]. rewrite Nat.add_0_r. apply Nat.div_mul. lia. Qed.
(** The variable order[k] is in row k from the top just when doing order twice changes nothing (as it does by default). *)
Theorem C248_order_partial : forall d L order, 0 < L -> (forall k, k < d -> order k < d) -> ((forall k, k < d -> from_top d L order (order k) = k) <-> forall k, k < d -> order (order k) = k).
Proof.
  intros d L order HL HO. unfold from_top. split; intros H k Hk; specialize (H k Hk); rewrite node_row in * by exact HL; pose proof (HO _ (HO k Hk)); lia.
Qed.
(** Every label stands at the row of the variable that it names, and every variable has one. *)
Theorem C248_labels : forall d L order, 0 < L -> (forall k, k < d -> order k < d) -> (forall a b, a < d -> b < d -> order a = order b -> a = b) ->
  (forall i tau, i < d -> tau < L -> snd (label d L order i) = snd (node_place d L order (fst (label d L order i)) tau)) /\ (forall n, n < d -> exists i, i < d /\ fst (label d L order i) = n).
Proof.
  intros d L order HL HO HI. split.
  - intros i tau Hi Ht. unfold label. cbn [fst snd]. rewrite node_row by exact HL. unfold node_place, place. cbn [snd]. rewrite Nat.div_add_l by lia. rewrite Nat.div_small by exact Ht. lia.
  - intros n Hn. unfold label. cbn [fst].
    assert (ND : NoDup (map order (seq 0 d))) by (apply FinderProps.NoDup_map_on; [apply seq_NoDup|intros a b Ha Hb E; apply in_seq in Ha, Hb; apply HI; lia||exact E]).
    assert (IN : incl (seq 0 d) (map order (seq 0 d))).
    { apply NoDup_length_incl; [exact ND|rewrite map_length; reflexivity|]. intros x Hx. apply in_map_iff in Hx. destruct Hx as (y & <- & Hy). apply in_seq in Hy. apply in_seq. specialize (HO y). lia. }
    specialize (IN n). rewrite in_map_iff in IN. destruct IN as (i & E & Hi); [apply in_seq; lia|]. apply in_seq in Hi. exists i. split; [lia|exact E].
Qed.
(** Three variables to be shown in the order 1, 2, 0 from the top: the one at the top is 2. *)
Theorem C248_order_refuted : exists order : nat -> nat, map order [0; 1; 2] = [1; 2; 0] /\ forall L, 0 < L -> from_top 3 L order 2 = 0 /\ from_top 3 L order 0 = 1 /\ from_top 3 L order 1 = 2.
Proof. exists (fun k => nth k [1; 2; 0] 0). split; [reflexivity|]. intros L HL. unfold from_top. rewrite !node_row by exact HL. repeat split. Qed.

(** * C249: eigdec *)
Local Open Scope R_scope.
(** perm sorts the m values in descending order. *)
Definition sorts (v : nat -> R) (m : nat) (perm : nat -> nat) : Prop := Permutation (map perm (seq 0 m)) (seq 0 m) /\ forall i j, (i <= j)%nat -> (j < m)%nat -> v (perm j) <= v (perm i).
Lemma perm_inj m (perm : nat -> nat) : Permutation (map perm (seq 0 m)) (seq 0 m) -> forall a b, (a < m)%nat -> (b < m)%nat -> perm a = perm b -> a = b.
Proof.
  intros P a b Ha Hb E. assert (ND : NoDup (map perm (seq 0 m))) by (eapply Permutation_NoDup; [apply Permutation_sym; exact P|apply seq_NoDup]).
  rewrite NoDup_nth with (d := perm 0%nat) in ND. apply (ND a b); rewrite ?map_length, ?seq_length; try assumption. rewrite !map_nth, !seq_nth by assumption. exact E.
Qed.
(** Of m eigenvalues found, the N given are the largest, in descending order (none of those left out is larger than one of them), and each comes with a vector of its own that belongs to it; no vector is given twice. *)
Theorem C249_sorted : forall v m perm N, sorts v m perm -> (N <= m)%nat ->
  length (eig_values v perm N) = N /\ (forall i j, (i <= j)%nat -> (j < N)%nat -> nth j (eig_values v perm N) 0 <= nth i (eig_values v perm N) 0) /\
  map v (eig_vectors v perm N) = eig_values v perm N /\ NoDup (eig_vectors v perm N) /\ (forall k, In k (eig_vectors v perm N) -> (k < m)%nat) /\
  forall k x, (k < m)%nat -> ~ In k (eig_vectors v perm N) -> In x (eig_values v perm N) -> v k <= x.
Proof.
  intros v m perm N [P SO] HN. pose proof (perm_inj m perm P) as PI.
  assert (NV : forall i, (i < N)%nat -> nth i (eig_values v perm N) 0 = v (perm i)).
  { intros i Hi. unfold eig_values. rewrite nth_indep with (d' := v (perm 0%nat)) by (rewrite map_length, seq_length; exact Hi). rewrite (map_nth (fun i => v (perm i))), seq_nth by exact Hi. reflexivity. }
  assert (PB : forall i, (i < m)%nat -> (perm i < m)%nat). { intros i Hi. assert (In (perm i) (seq 0 m)) as Q by (eapply Permutation_in; [exact P|apply in_map, in_seq; lia]). apply in_seq in Q. lia. }
  assert (PS : forall k, (k < m)%nat -> exists i, (i < m)%nat /\ perm i = k). { intros k Hk. assert (In k (map perm (seq 0 m))) as Q by (eapply Permutation_in; [apply Permutation_sym; exact P|apply in_seq; lia]). apply in_map_iff in Q. destruct Q as (i & E & Hi). apply in_seq in Hi. exists i. split; [lia|exact E]. }
  split; [unfold eig_values; now rewrite map_length, seq_length|]. split; [intros i j Hij Hj; rewrite !NV by lia; apply SO; lia|].
  unfold eig_vectors. destruct (in_order v perm N) eqn:IO.
  - assert (E : forall i, (i < N)%nat -> v (perm i) = v i). { intros i Hi. unfold in_order in IO. rewrite forallb_forall in IO. specialize (IO i). destruct (Req_EM_T (v (perm i)) (v i)) as [e|n]; [exact e|]. discriminate IO. apply in_seq. lia. }
    split; [unfold eig_values; apply map_ext_in; intros i Hi; apply in_seq in Hi; symmetry; apply E; lia|]. split; [apply seq_NoDup|]. split; [intros k Hk; apply in_seq in Hk; lia|].
    intros k x Hk HK Hx. unfold eig_values in Hx. apply in_map_iff in Hx. destruct Hx as (i & <- & Hi). apply in_seq in Hi.
    destruct (PS k Hk) as (j & Hj & <-). destruct (le_lt_dec N j) as [L|L]; [apply SO; lia|].
    (* the places with a value above v (perm i) are among the first N, hence such indices too; they are as many, so all *)
    apply Rnot_lt_le. intros LT. set (x := v (perm i)) in *. set (above := fun u : R => if Rlt_dec x u then true else false).
    assert (AB : forall u, above u = true <-> x < u) by (intros u; unfold above; destruct (Rlt_dec x u); split; auto; discriminate).
    set (S0 := filter (fun p => above (v (perm p))) (seq 0 m)). set (T0 := filter (fun q => above (v q)) (seq 0 m)).
    assert (SN : forall p, In p S0 -> (p < N)%nat /\ x < v p).
    { intros p Hp. apply filter_In in Hp. destruct Hp as [Hp Ap]. apply AB in Ap. apply in_seq in Hp. destruct (le_lt_dec i p) as [Lp|Lp]; [exfalso; pose proof (SO i p Lp) as Q; assert (v (perm p) <= x) by (apply Q; lia); lra|]. split; [lia|]. rewrite <- E by lia. exact Ap. }
    assert (ST : incl S0 T0). { intros p Hp. pose proof (SN p Hp) as [_ Q]. apply filter_In in Hp. apply filter_In. split; [tauto|apply AB; exact Q]. }
    assert (TS : incl T0 (map perm S0)). { intros q Hq. apply filter_In in Hq. destruct Hq as [Hq Aq]. apply in_seq in Hq. destruct (PS q) as (p & Hp & <-); [lia|]. apply in_map, filter_In. split; [apply in_seq; lia|exact Aq]. }
    assert (LE : (length T0 <= length S0)%nat). { rewrite <- (map_length perm S0). apply NoDup_incl_length; [apply NoDup_filter, seq_NoDup|exact TS]. }
    assert (IN : incl T0 S0) by (apply NoDup_length_incl; [apply NoDup_filter, seq_NoDup|exact LE|exact ST]).
    assert (In (perm j) T0) as Q by (apply filter_In; split; [apply in_seq; pose proof (PB j Hj); lia|apply AB; exact LT]).
    apply IN, SN in Q. apply HK, in_seq. lia.
  - split; [unfold eig_values; rewrite map_map; reflexivity|]. split.
    + apply FinderProps.NoDup_map_on; [apply seq_NoDup|intros a b Ha Hb; apply in_seq in Ha, Hb; apply PI; lia].
    + split; [intros k Hk; apply in_map_iff in Hk; destruct Hk as (i & <- & Hi); apply in_seq in Hi; apply PB; lia|].
      intros k x Hk HK Hx. unfold eig_values in Hx. apply in_map_iff in Hx. destruct Hx as (i & <- & Hi). apply in_seq in Hi. destruct (PS k Hk) as (j & Hj & <-).
      apply SO; [|exact Hj]. destruct (le_lt_dec N j) as [L|L]; [lia|]. exfalso. apply HK, in_map, in_seq. lia.
Qed.
(** A matrix without negative eigenvalues (a kernel matrix, say): the result holds the N largest also when N is small against its size. *)
Theorem C249_sparse_partial : forall v m N found perm, eigs_found v m N found -> (forall k, (k < m)%nat -> 0 <= v k) -> sorts (of_found v found) N perm ->
  (forall i j, (i <= j)%nat -> (j < N)%nat -> nth j (eig_values (of_found v found) perm N) 0 <= nth i (eig_values (of_found v found) perm N) 0) /\
  (forall x, In x (eig_values (of_found v found) perm N) -> exists q, In q found /\ x = v q) /\ forall k x, (k < m)%nat -> ~ In k found -> In x (eig_values (of_found v found) perm N) -> v k <= x.
Proof.
  intros v m N found perm (Len & ND & Bd & Big) Pos HS. destruct (C249_sorted _ N perm N HS (le_n N)) as (_ & A & _). split; [exact A|].
  assert (B : forall x, In x (eig_values (of_found v found) perm N) -> exists q, In q found /\ x = v q).
  { intros x Hx. unfold eig_values in Hx. apply in_map_iff in Hx. destruct Hx as (i & <- & Hi). apply in_seq in Hi. exists (nth (perm i) found 0%nat). split; [|reflexivity]. apply nth_In. rewrite Len.
    destruct HS as [P _]. assert (In (perm i) (seq 0 N)) as Q by (eapply Permutation_in; [exact P|apply in_map, in_seq; lia]). apply in_seq in Q. lia. }
  split; [exact B|]. intros k x Hk HK Hx. destruct (B x Hx) as (q & Hq & ->). specialize (Big k q Hk HK Hq). rewrite !Rabs_right in Big by (apply Rle_ge, Pos; auto). exact Big.
Qed.
(** With negative ones it does not: of the eigenvalues -2, 1, 1, ... of a matrix of size 25 or more, the largest one is said to be -2. *)
Theorem C249_sparse_refuted : forall m, (25 <= m)%nat -> exists v found perm, eigs_found v m 1 found /\ sorts (of_found v found) 1 perm /\ eig_values (of_found v found) perm 1 = [-2] /\ (forall k, (0 < k < m)%nat -> v k = 1).
Proof.
  intros m Hm. exists (fun k => if Nat.eqb k 0 then -2 else 1), [0%nat], (fun i => i). split; [|split; [|split]].
  - split; [reflexivity|]. split; [constructor; [intros []|constructor]|]. split; [intros k [<-|[]]; lia|]. intros k q Hk HK [<-|[]]. destruct k; [exfalso; apply HK; now left|]. cbn. rewrite Rabs_R1, Rabs_left by lra. lra.
  - split; [reflexivity|]. intros i j Hij Hj. assert (j = 0%nat) by lia. assert (i = 0%nat) by lia. subst. apply Rle_refl.
  - reflexivity.
  - intros [|k] Hk; [lia|reflexivity].
Qed.
(** Concrete eigenvalues, out of order and with a tie. *)
Example C249_example : let v := fun k : nat => nth k [1; 3; 3; 2] 0 in let perm := fun k => nth k [1; 2; 3; 0]%nat 0%nat in
  sorts v 4 perm /\ eig_vectors v perm 2 = [1; 2]%nat /\ eig_values v perm 2 = [3; 3].
Proof.
  cbv zeta. split; [split|split].
  - cbn. apply Permutation_sym, perm_trans with [0; 1; 2; 3]%nat; [reflexivity|]. change [1; 2; 3; 0]%nat with ([1; 2; 3] ++ [0])%nat. change [0; 1; 2; 3]%nat with ([0] ++ [1; 2; 3])%nat. apply Permutation_app_comm.
  - intros i j Hij Hj. destruct j as [|[|[|[|j]]]]; try lia; destruct i as [|[|[|[|i]]]]; try lia; cbn; lra.
  - unfold eig_vectors, in_order. cbn. destruct (Req_EM_T 3 1) as [H|H]; [exfalso; lra|]. reflexivity.
  - reflexivity.
Qed.
