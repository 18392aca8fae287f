(** Proofs about merge_overlaping_cluster, array_split and the graph construction. *)
From Coq Require Import Permutation.
From Verif Require Import Base EdgeModel GraphModel GraphSpec GraphProofs UtilsModel UtilsProofs NamedModel NamedProofs SkelModel SkelProofs GINModel GINSpec.

Section M.
Variable cl : list (list nat).
Notation m := (length cl).
Notation C t := (nth t cl []).
Definition near (t u : nat) : Prop := t < m /\ u < m /\ exists i, In i (C t) /\ In i (C u).
Lemma in_holders i k : In k (holders cl i) <-> k < m /\ In i (C k).
Proof. unfold holders. rewrite filter_In, in_seq0, memb_In. reflexivity. Qed.
Lemma in_pushes t u : t < m -> In u (flat_map (holders cl) (C t)) <-> near t u.
Proof.
  intros Ht. rewrite in_flat_map. split.
  - intros (i & Hi & Hu). apply in_holders in Hu. destruct Hu as [H1 H2]. split; [exact Ht|]. split; [exact H1|]. eauto.
  - intros (_ & Hu & i & H1 & H2). exists i. split; [exact H1|]. now apply in_holders.
Qed.
Lemma near_sym t u : near t u -> near u t. Proof. intros (H1 & H2 & i & H3 & H4). split; [exact H2|]. split; [exact H1|]. eauto. Qed.
Lemma reach_near_sym t u : reach near t u -> reach near u t.
Proof. intros H. induction H as [t|t u w H1 H2 IH]; [constructor|]. apply reach_trans with u; [exact IH|]. apply reach_one. now apply near_sym. Qed.
Definition unvisited (vis : list nat) : nat := length (filter (fun i => negb (memb i vis)) (seq 0 m)).
Lemma unvisited_le vis vis' : (forall j, In j vis -> In j vis') -> unvisited vis' <= unvisited vis.
Proof.
  intros H. unfold unvisited. induction (seq 0 m) as [|a l IH]; [cbn; lia|]. cbn [filter]. destruct (memb a vis') eqn:E1, (memb a vis) eqn:E2; cbn [negb length]; try lia.
  exfalso. apply memb_In in E2. apply memb_not_In in E1. auto.
Qed.
Lemma unvisited_cons vis j : j < m -> ~ In j vis -> unvisited (j :: vis) < unvisited vis.
Proof.
  intros Hj N. unfold unvisited.
  assert (G : forall l, (forall x, In x l -> negb (memb x (j :: vis)) = true -> negb (memb x vis) = true) -> length (filter (fun i => negb (memb i (j :: vis))) l) <= length (filter (fun i => negb (memb i vis)) l)).
  { induction l as [|a l IH]; intros H; [cbn; lia|]. cbn [filter]. pose proof (H a (or_introl eq_refl)) as Ha. specialize (IH (fun x Hx => H x (or_intror Hx))).
    destruct (negb (memb a (j :: vis))); [rewrite Ha by reflexivity; cbn [length]; lia|]. destruct (negb (memb a vis)); cbn [length]; lia. }
  assert (I : In j (seq 0 m)) by (now apply in_seq0).
  assert (K : forall x, negb (memb x (j :: vis)) = true -> negb (memb x vis) = true).
  { intros x H. apply negb_true_iff in H. apply negb_true_iff. apply memb_not_In in H. apply memb_not_In. intros Q. apply H. now right. }
  apply in_split in I. destruct I as (l1 & l2 & ->). rewrite !filter_app, !app_length. cbn [filter].
  assert (E1 : negb (memb j (j :: vis)) = false) by (apply negb_false_iff, memb_In; now left).
  assert (E2 : negb (memb j vis) = true) by (now apply negb_true_iff, memb_not_In).
  rewrite E1, E2. cbn [length]. pose proof (G l1 (fun x _ => K x)). pose proof (G l2 (fun x _ => K x)). lia.
Qed.
Lemma push_spec L : (forall j, In j L -> j < m) -> forall q vis, exists new,
  fold_left push L (q, vis) = (q ++ new, rev new ++ vis) /\ (forall j, In j new <-> In j L /\ ~ In j vis) /\
  length new + unvisited (rev new ++ vis) <= unvisited vis.
Proof.
  induction L as [|j L IH]; intros HL q vis; cbn [fold_left].
  - exists []. rewrite app_nil_r. cbn. split; [reflexivity|]. split; [tauto|lia].
  - unfold push at 2. cbn [fst snd]. destruct (memb j vis) eqn:E.
    + destruct (IH (fun k Hk => HL k (or_intror Hk)) q vis) as (new & E1 & E2 & E3). exists new. split; [exact E1|]. split; [|exact E3].
      apply memb_In in E. intros k. rewrite E2. cbn [In]. split; [tauto|]. intros [[->|K] N]; tauto.
    + apply memb_not_In in E. destruct (IH (fun k Hk => HL k (or_intror Hk)) (q ++ [j]) (j :: vis)) as (new & E1 & E2 & E3). exists (j :: new). rewrite E1.
      cbn [rev]. rewrite <- !app_assoc. split; [reflexivity|]. split.
      * intros k. cbn [In]. rewrite E2. cbn [In]. destruct (Nat.eq_dec j k) as [->|N]; [tauto|tauto].
      * pose proof (unvisited_cons vis j (HL j (or_introl eq_refl)) E). cbn [length app] in *. lia.
Qed.

(** Elements of the clusters whose index is in [P]. *)
Definition within (P : nat -> Prop) (i : nat) : Prop := exists t, P t /\ t < m /\ In i (C t).

(** Invariant of the queue, started at the cluster [s] with [vis0] and [d0]. *)
Definition SI (s : nat) (len : Z) (vis0 : list nat) (d0 : nat -> Z) (q vis : list nat) (d : nat -> Z) : Prop :=
  (forall t, In t vis -> t < m) /\ (forall t, In t vis0 -> In t vis) /\ In s vis /\
  (forall t, In t vis -> In t vis0 \/ reach near s t) /\
  (forall t, In t q -> In t vis /\ ~ In t vis0) /\
  (forall t u, In t vis -> ~ In t vis0 -> ~ In t q -> near t u -> In u vis) /\
  (forall i, within (fun t => In t vis /\ ~ In t vis0 /\ ~ In t q) i -> d i = len) /\
  (forall i, ~ within (fun t => In t vis /\ ~ In t vis0) i -> d i = d0 i).
Lemma spread_spec s len vis0 d0 fuel : forall q vis d, SI s len vis0 d0 q vis d -> length q + unvisited vis <= fuel ->
  exists vis' d', spread cl fuel len q vis d = Some (vis', d') /\ SI s len vis0 d0 [] vis' d'.
Proof.
  induction fuel as [|fuel IH]; intros q vis d HI Hf; destruct q as [|top q]; cbn [spread]; try (exists vis, d; split; [reflexivity|exact HI]); [cbn in Hf; lia|].
  destruct HI as (I1 & I2 & I3 & I4 & I5 & I6 & I7 & I8). destruct (I5 top (or_introl eq_refl)) as [Tv Tn]. pose proof (I1 top Tv) as Tm.
  destruct (push_spec (flat_map (holders cl) (C top)) (fun j Hj => proj1 (proj2 (proj1 (in_pushes top j Tm) Hj))) q vis) as (new & -> & E2 & E3).
  assert (En : forall j, In j new <-> near top j /\ ~ In j vis) by (intros j; rewrite E2, in_pushes by exact Tm; reflexivity).
  assert (Iv : forall j, In j (rev new ++ vis) <-> In j new \/ In j vis) by (intros j; rewrite in_app_iff, <- in_rev; reflexivity).
  apply IH; [|rewrite app_length; cbn [length] in Hf; lia].
  split; [intros t Ht; apply Iv in Ht; destruct Ht as [Ht|Ht]; [apply En in Ht; apply Ht|auto]|].
  split; [intros t Ht; apply Iv; auto|]. split; [apply Iv; auto|].
  split.
  { intros t Ht. apply Iv in Ht. destruct Ht as [Ht|Ht]; [|auto]. apply En in Ht. destruct Ht as [Ht _]. destruct (I4 top Tv) as [K|K]; [contradiction|]. right.
    apply reach_trans with top; [exact K|now apply reach_one]. }
  split.
  { intros t Ht. apply in_app_iff in Ht. destruct Ht as [Ht|Ht]; [destruct (I5 t (or_intror Ht)) as [K1 K2]; split; [apply Iv; auto|exact K2]|].
    apply En in Ht as Ht'. split; [apply Iv; auto|]. intros K. apply (proj2 Ht'). auto. }
  split.
  { intros t u Ht N Nq Htu. apply Iv. destruct (in_dec Nat.eq_dec u vis) as [|Nu]; [auto|left].
    destruct (Nat.eq_dec t top) as [->|Nt]; [apply En; auto|]. exfalso. apply Nu. apply Iv in Ht. destruct Ht as [Ht|Ht]; [exfalso; apply Nq, in_app_iff; auto|].
    apply (I6 t u Ht N); [|exact Htu]. intros [K|K]; [congruence|]. apply Nq, in_app_iff; auto. }
  split.
  - intros i (t & (Ht & N & Nq) & Tl & Hi). destruct (memb i (C top)) eqn:E; [reflexivity|]. apply memb_not_In in E. apply I7. exists t.
    split; [|auto]. apply Iv in Ht. destruct Ht as [Ht|Ht]; [exfalso; apply Nq, in_app_iff; auto|]. split; [exact Ht|]. split; [exact N|]. intros [->|K]; [contradiction|]. apply Nq, in_app_iff; auto.
  - intros i Ni. destruct (memb i (C top)) eqn:E.
    + exfalso. apply Ni. apply memb_In in E. exists top. split; [|auto]. split; [apply Iv; auto|exact Tn].
    + apply I8. intros (t & (Ht & N) & Tl & Hi). apply Ni. exists t. split; [|auto]. split; [apply Iv; auto|exact N].
Qed.

(** Invariant of the rounds. *)
Definition RI (len : nat) (vis : list nat) (d : nat -> Z) : Prop :=
  (forall t, In t vis -> t < m) /\
  (forall t u, In t vis -> near t u -> In u vis) /\
  (forall i, within (fun t => In t vis) i -> (0 <= d i < Z.of_nat len)%Z) /\
  (forall i j, within (fun t => In t vis) i -> within (fun t => In t vis) j -> (d i = d j <-> linked cl i j)) /\
  (forall k, k < len -> exists t, In t vis /\ forall i, In i (C t) -> d i = Z.of_nat k).
Lemma linked_sym i j : linked cl i j -> linked cl j i.
Proof.
  intros H. induction H as [i|i j k H1 H2 IH]; [constructor|]. apply reach_trans with j; [exact IH|]. apply reach_one. destruct H1 as (c & K1 & K2 & K3). exists c. auto.
Qed.
Lemma near_linked t u : reach near t u -> t < m -> forall i j, In i (C t) -> In j (C u) -> linked cl i j.
Proof.
  intros H. induction H as [t|t u w H1 H2 IH]; intros Ht i j Hi Hj.
  - apply reach_one. exists (C t). split; [now apply nth_In|auto].
  - destruct H1 as (_ & Hu & e & K1 & K2). apply reach_trans with e; [apply reach_one; exists (C t); split; [now apply nth_In|auto]|]. now apply IH.
Qed.
Lemma closed_linked vis i j : (forall t u, In t vis -> near t u -> In u vis) -> linked cl i j -> within (fun t => In t vis) i -> within (fun t => In t vis) j.
Proof.
  intros Hc H. induction H as [i|i j k H1 H2 IH]; [auto|]. intros (t & K1 & K2 & K3). apply IH. destruct H1 as (c & Q1 & Q2 & Q3).
  destruct (In_nth cl c [] Q1) as (u & Hu & E). subst c. exists u. split; [|auto]. apply (Hc t u K1). split; [exact K2|]. split; [exact Hu|]. eauto.
Qed.
Lemma round_step len vis0 d0 s vis d : RI len vis0 d0 -> s < m -> ~ In s vis0 -> SI s (Z.of_nat len) vis0 d0 [] vis d -> RI (S len) vis d.
Proof.
  intros (R1 & R2 & R3 & R4 & R5) Hs Ns (I1 & I2 & I3 & I4 & _ & I6 & I7 & I8).
  assert (Sep : forall i t, In t vis -> ~ In t vis0 -> In i (C t) -> ~ within (fun t => In t vis0) i).
  { intros i t Ht N Hi (u & Hu & Lu & Hi'). apply N. apply (R2 u t Hu). split; [exact Lu|]. split; [now apply I1|]. eauto. }
  assert (New : forall i t, In t vis -> ~ In t vis0 -> In i (C t) -> d i = Z.of_nat len) by (intros i t Ht N Hi; apply I7; exists t; auto).
  assert (Old : forall i, within (fun t => In t vis0) i -> d i = d0 i).
  { intros i Hi. apply I8. intros (t & (Ht & N) & _ & Hit). exact (Sep i t Ht N Hit Hi). }
  assert (Cls : forall t u, In t vis -> near t u -> In u vis).
  { intros t u Ht Hn. destruct (in_dec Nat.eq_dec t vis0) as [K|K]; [apply I2, (R2 t u K Hn)|]. apply (I6 t u Ht K); [easy|exact Hn]. }
  assert (Cas : forall i, within (fun t => In t vis) i -> within (fun t => In t vis0) i \/ exists t, In t vis /\ ~ In t vis0 /\ In i (C t)).
  { intros i (t & Ht & Lt & Hi). destruct (in_dec Nat.eq_dec t vis0) as [K|K]; [left; exists t; auto|right; exists t; auto]. }
  split; [exact I1|]. split; [exact Cls|]. split.
  { intros i Hi. destruct (Cas i Hi) as [K|(t & K1 & K2 & K3)]; [rewrite (Old i K); specialize (R3 i K); lia|rewrite (New i t K1 K2 K3); lia]. }
  split.
  - intros i j Hi Hj. destruct (Cas i Hi) as [Ki|(t & K1 & K2 & K3)], (Cas j Hj) as [Kj|(u & Q1 & Q2 & Q3)].
    + rewrite (Old i Ki), (Old j Kj). auto.
    + rewrite (Old i Ki), (New j u Q1 Q2 Q3). specialize (R3 i Ki). split; [lia|]. intros L. exfalso. apply (Sep j u Q1 Q2 Q3). now apply (closed_linked vis0 i j R2).
    + rewrite (Old j Kj), (New i t K1 K2 K3). specialize (R3 j Kj). split; [lia|]. intros L. exfalso. apply (Sep i t K1 K2 K3). apply (closed_linked vis0 j i R2); [now apply linked_sym|exact Kj].
    + rewrite (New i t K1 K2 K3), (New j u Q1 Q2 Q3). split; [|reflexivity]. intros _. destruct (I4 t K1) as [K|K]; [contradiction|]. destruct (I4 u Q1) as [Q|Q]; [contradiction|].
      apply (near_linked t u); [|now apply I1|exact K3|exact Q3]. apply reach_trans with s; [now apply reach_near_sym|exact Q].
  - intros k Hk. destruct (Nat.eq_dec k len) as [->|N].
    + exists s. split; [exact I3|]. intros i Hi. now apply (New i s).
    + destruct (R5 k ltac:(lia)) as (t & K1 & K2). exists t. split; [now apply I2|]. intros i Hi. rewrite (Old i); [auto|]. exists t. auto.
Qed.
Lemma rounds_spec fuel : forall len vis d, RI len vis d -> (exists i, i < m /\ ~ In i vis) -> unvisited vis <= fuel ->
  exists len' d' vis', rounds cl fuel len vis d = Some (len', d') /\ RI len' vis' d' /\ (forall t, t < m -> In t vis') /\ 0 < len'.
Proof.
  induction fuel as [|fuel IH]; intros len vis d HR (i0 & Hi0 & Ni0) Hf.
  - exfalso. pose proof (unvisited_cons vis i0 Hi0 Ni0). lia.
  - cbn [rounds]. destruct (find (fun i => negb (memb i vis)) (seq 0 m)) as [s|] eqn:Ef.
    2:{ exfalso. pose proof (find_none _ _ Ef i0 (proj2 (in_seq0 m i0) Hi0)) as K. cbn in K. apply negb_false_iff, memb_In in K. contradiction. }
    apply find_some in Ef. destruct Ef as [Hs Ns]. apply in_seq0 in Hs. apply negb_true_iff, memb_not_In in Ns. cbn [fst snd].
    assert (S0 : SI s (Z.of_nat len) vis d [s] (s :: vis) d).
    { pose proof HR as (R1 & R2 & _). split; [intros t [<-|K]; auto|]. split; [intros t K; now right|]. split; [now left|]. split; [intros t [<-|K]; [right; constructor|auto]|].
      split; [intros t [<-|[]]; split; [now left|exact Ns]|]. split; [intros t u [<-|K] N Nq; [exfalso; apply Nq; now left|contradiction]|].
      split; [|auto]. intros i (t & ([<-|K] & N & Nq) & _); [exfalso; apply Nq; now left|contradiction]. }
    destruct (spread_spec s (Z.of_nat len) vis d (S m) [s] (s :: vis) d S0) as (vis2 & d2 & -> & S2).
    { cbn [length]. enough (unvisited (s :: vis) <= m) by lia. unfold unvisited. transitivity (length (seq 0 m)); [|rewrite seq_length; lia].
      induction (seq 0 m) as [|a l IHl]; [cbn; lia|]. cbn [filter]. destruct (negb (memb a (s :: vis))); cbn [length]; lia. }
    pose proof (round_step len vis d s vis2 d2 HR Hs Ns S2) as HR2. destruct (existsb (fun i => negb (memb i vis2)) (seq 0 m)) eqn:Ee.
    + apply existsb_exists in Ee. destruct Ee as (i & K1 & K2). apply in_seq0 in K1. apply negb_true_iff, memb_not_In in K2. apply IH; [exact HR2|eauto|].
      destruct S2 as (_ & I2 & I3 & _). pose proof (unvisited_cons vis s Hs Ns). enough (unvisited vis2 <= unvisited (s :: vis)) by lia. apply unvisited_le. intros j [<-|K]; auto.
    + exists (S len), d2, vis2. split; [reflexivity|]. split; [exact HR2|]. split; [|lia]. intros t Ht. destruct (in_dec Nat.eq_dec t vis2) as [|N]; [assumption|exfalso].
      assert (K : existsb (fun i => negb (memb i vis2)) (seq 0 m) = true) by (apply existsb_exists; exists t; split; [now apply in_seq0|now apply negb_true_iff, memb_not_In]). congruence.
Qed.
End M.

Lemma nodup_app {A} (l1 l2 : list A) : NoDup l1 -> NoDup l2 -> (forall x, In x l1 -> ~ In x l2) -> NoDup (l1 ++ l2).
Proof.
  induction l1 as [|a l1 IH]; intros H1 H2 H; [exact H2|]. cbn. inversion H1 as [|? ? N1 N2]; subst. constructor.
  - rewrite in_app_iff. intros [K|K]; [contradiction|]. exact (H a (or_introl eq_refl) K).
  - apply IH; [exact N2|exact H2|]. intros x Hx. apply H. now right.
Qed.
Lemma in_concat' (l : list (list nat)) v : In v (concat l) <-> exists c, In c l /\ In v c.
Proof. rewrite in_concat. firstorder. Qed.
Lemma nodup_classes (f : nat -> Z) (l : list nat) : NoDup l -> forall s n, NoDup (concat (map (fun k => filter (fun v => Z.eqb (f v) (Z.of_nat k)) l) (seq s n))).
Proof.
  intros HN s n. revert s. induction n as [|n IH]; intros s; cbn; [constructor|]. apply nodup_app; [now apply NoDup_filter|apply IH|].
  intros v Hv K. apply filter_In in Hv. destruct Hv as [_ Hv]. apply Z.eqb_eq in Hv. apply in_concat' in K. destruct K as (c & Q1 & Q2). apply in_map_iff in Q1. destruct Q1 as (k & <- & Q1).
  apply in_seq in Q1. apply filter_In in Q2. destruct Q2 as [_ Q2]. apply Z.eqb_eq in Q2. lia.
Qed.

Lemma ord_in ord l v : enumerates ord -> NoDup l -> In v (ord l) <-> In v l.
Proof. intros HO HN. split; apply Permutation_in; [|apply Permutation_sym]; now apply HO. Qed.
Lemma ord_nodup ord l : enumerates ord -> NoDup l -> NoDup (ord l).
Proof. intros HO HN. eapply Permutation_NoDup; [apply Permutation_sym, HO; exact HN|exact HN]. Qed.
Theorem merge_spec ord cl : enumerates ord ->
  exists out, merge_overlaping_cluster ord cl = Some out /\ NoDup (concat out) /\
    (forall v, In v (concat out) <-> In v (concat cl)) /\
    (forall a b, together out a b <-> In a (concat cl) /\ linked cl a b) /\
    ((forall c, In c cl -> c <> []) -> forall c, In c out -> c <> []).
Proof.
  intros HO. unfold merge_overlaping_cluster. set (L := labels ord cl).
  assert (HL : forall v, In v L <-> In v (concat cl)) by (intros v; unfold L, labels; rewrite ord_in, nodup_In by (auto using NoDup_nodup); reflexivity).
  assert (NL : NoDup L) by (apply ord_nodup; [exact HO|apply NoDup_nodup]).
  destruct L as [|v0 L0] eqn:EL.
  - exists []. assert (E0 : forall v, ~ In v (concat cl)) by (intros v K; apply HL in K; destruct K). split; [reflexivity|]. split; [constructor|].
    split; [intros v; split; [intros []|intros K; exact (E0 v K)]|]. split; [|intros _ c []].
    intros a b. split; [intros (c & [] & _)|]. intros [K _]. exfalso. exact (E0 a K).
  - assert (Hne : 0 < length cl).
    { assert (K : In v0 (concat cl)) by (apply HL; now left). apply in_concat' in K. destruct K as (c & K & _). destruct cl; [destruct K|cbn; lia]. }
    rewrite <- EL in *. clearbody L. clear v0 L0 EL.
    assert (R0 : RI cl 0 [] (fun _ => (-1)%Z)).
    { split; [intros t []|]. split; [intros t u []|]. split; [intros i (t & [] & _)|]. split; [intros i j (t & [] & _)|]. intros k Hk. lia. }
    destruct (rounds_spec cl (S (length cl)) 0 [] (fun _ => (-1)%Z) R0) as (len & d & vis & -> & (R1 & R2 & R3 & R4 & R5) & Hall & Hlen).
    { exists 0. split; [exact Hne|intros []]. }
    { unfold unvisited. transitivity (length (seq 0 (length cl))); [|rewrite seq_length; lia]. induction (seq 0 (length cl)) as [|a l IHl]; [cbn; lia|]. cbn [filter]. destruct (negb (memb a [])); cbn [length]; lia. }
    assert (W : forall i, In i (concat cl) -> within cl (fun t => In t vis) i).
    { intros i Hi. apply in_concat' in Hi. destruct Hi as (c & K1 & K2). destruct (In_nth cl c [] K1) as (t & Ht & <-). exists t. auto. }
    assert (Dm : forall i, In i (concat cl) -> (d i mod Z.of_nat len = d i)%Z) by (intros i Hi; apply Z.mod_small; apply R3; now apply W).
    eexists. split; [reflexivity|]. split; [now apply (nodup_classes (fun v => (d v mod Z.of_nat len)%Z))|].
    assert (IC : forall k v, In v (filter (fun v => Z.eqb (d v mod Z.of_nat len) (Z.of_nat k)) L) <-> In v (concat cl) /\ d v = Z.of_nat k).
    { intros k v. rewrite filter_In, HL, Z.eqb_eq. split; intros [K1 K2]; (split; [exact K1|]); [now rewrite Dm in K2|now rewrite Dm]. }
    assert (CL : forall c, In c (map (fun k => filter (fun v => Z.eqb (d v mod Z.of_nat len) (Z.of_nat k)) L) (seq 0 len)) <->
                  exists k, k < len /\ c = filter (fun v => Z.eqb (d v mod Z.of_nat len) (Z.of_nat k)) L).
    { intros c. rewrite in_map_iff. split; intros (k & K1 & K2); exists k; [apply in_seq0 in K2|split; [|apply in_seq0]]; auto. }
    assert (D0 : forall v, In v (concat cl) -> exists k, k < len /\ d v = Z.of_nat k).
    { intros v Hv. pose proof (R3 v (W v Hv)). exists (Z.to_nat (d v)). lia. }
    split; [|split].
    + intros v. rewrite in_concat'. split.
      * intros (c & K1 & K2). apply CL in K1. destruct K1 as (k & _ & ->). apply IC in K2. apply K2.
      * intros Hv. destruct (D0 v Hv) as (k & K1 & K2). eexists. split; [apply CL; exists k; split; [exact K1|reflexivity]|]. now apply IC.
    + intros a b. split.
      * intros (c & K1 & K2 & K3). apply CL in K1. destruct K1 as (k & _ & ->). apply IC in K2, K3. split; [apply K2|]. apply R4; [apply W, K2|apply W, K3|]. destruct K2, K3. congruence.
      * intros [Ha Hab]. assert (Hb : In b (concat cl)).
        { destruct (closed_linked cl vis a b R2 Hab (W a Ha)) as (t & _ & K1 & K2). apply in_concat'. exists (nth t cl []). split; [now apply nth_In|exact K2]. }
        destruct (D0 a Ha) as (k & K1 & K2). eexists. split; [apply CL; exists k; split; [exact K1|reflexivity]|]. split; apply IC; [auto|]. split; [exact Hb|]. rewrite <- K2. symmetry. now apply R4; auto.
    + intros Hn c Hc. apply CL in Hc. destruct Hc as (k & Hk & ->). destruct (R5 k Hk) as (t & K1 & K2). pose proof (R1 t K1) as Ht.
      destruct (nth t cl []) as [|i r] eqn:Et; [exfalso; apply (Hn (nth t cl [])); [now apply nth_In|exact Et]|].
      intros E. assert (K : In i []); [|destruct K]. rewrite <- E. apply IC. split; [|apply K2; now left]. apply in_concat'. exists (nth t cl []). split; [now apply nth_In|]. rewrite Et. now left.
Qed.

(** ** array_split *)
Lemma take_pieces_spec {A} sizes : forall (x : list A), list_sum sizes = length x -> concat (take_pieces sizes x) = x /\ map (@length A) (take_pieces sizes x) = sizes.
Proof.
  induction sizes as [|s r IH]; intros x H.
  - destruct x; [auto|discriminate].
  - change (list_sum (s :: r)) with (s + list_sum r) in H.

    cbn [take_pieces concat map]. destruct (IH (skipn s x)) as [E1 E2]; [rewrite skipn_length; lia|]. rewrite E1, E2. split; [apply firstn_skipn|]. f_equal. rewrite firstn_length. lia.
Qed.
Lemma sum_repeat a k : list_sum (repeat a k) = k * a.
Proof. induction k as [|k IH]; [reflexivity|]. change (list_sum (repeat a (S k))) with (a + list_sum (repeat a k)). lia. Qed.
Lemma array_split_spec {A} (x : list A) k : 0 < k -> concat (array_split x k) = x /\
  map (@length A) (array_split x k) = repeat (S (length x / k)) (length x mod k) ++ repeat (length x / k) (k - length x mod k).
Proof.
  intros Hk. apply take_pieces_spec. rewrite list_sum_app, !sum_repeat. pose proof (Nat.div_mod_eq (length x) k). pose proof (Nat.mod_upper_bound (length x) k). nia.
Qed.
Lemma halves c : half 0 c ++ half 1 c = c /\ length (half 1 c) = length c / 2 /\ (length (half 0 c) = length c / 2 \/ length (half 0 c) = S (length c / 2)).
Proof.
  unfold half. destruct (array_split_spec c 2) as [E1 E2]; [lia|]. pose proof (Nat.mod_upper_bound (length c) 2).
  generalize dependent (length c / 2). intros h E2. generalize dependent (array_split c 2). intros L E1 E2.
  destruct (length c mod 2) as [|[|]]; [| |lia]; cbn in E2; destruct L as [|a [|b [|]]]; try discriminate; cbn in *; injection E2 as F1 F2; rewrite app_nil_r in E1; auto.
Qed.

(** ** Clusters *)
Section Clusters.
Variables (ord : list nat -> list nat) (indep : list nat -> list nat -> nat -> Z) (fisher : list Z -> Z) (alpha : Z).
Hypothesis HO : enumerates ord.
(** The set S of variables was accepted while V were the variables not yet clustered. *)
Definition accepted (V S : list nat) : Prop := exists S', Permutation S S' /\ (alpha <= gin_pval indep fisher S' (ord (minus V S')))%Z.
Lemma in_minus l c v : In v (minus l c) <-> In v l /\ ~ In v c.
Proof. unfold minus. rewrite filter_In, negb_true_iff, memb_not_In. reflexivity. Qed.
Lemma minus_nodup l c : NoDup l -> NoDup (minus l c). Proof. apply NoDup_filter. Qed.
Lemma found_in size V c : NoDup V -> In c (found ord indep fisher alpha size V) -> length c = size /\ NoDup c /\ incl c V /\ (alpha <= gin_pval indep fisher c (ord (minus V c)))%Z.
Proof.
  intros HV H. apply filter_In in H. destruct H as [H1 H2]. apply combs_in in H1. destruct H1 as (K1 & K2 & K3). split; [exact K1|]. split; [apply K3; now apply ord_nodup|].
  split; [intros v Hv; apply (ord_in ord V v HO HV); now apply K2|]. now apply Z.leb_le.
Qed.
(** What is known about a cluster: it was formed at a size from the accepted sets of that size of the variables then unclustered. *)
Definition justified (n : nat) (c : list nat) : Prop :=
  exists V size, NoDup V /\ (forall v, In v V -> v < n) /\ 2 <= size < length V /\ incl c V /\ NoDup c /\ c <> [] /\ (forall a, In a c -> exists S, In S (found ord indep fisher alpha size V) /\ In a S) /\
    forall a b, In a c -> (In b c <-> linked (found ord indep fisher alpha size V) a b).
Lemma minus_concat_length V m : length (minus V m) <= length V.
Proof. unfold minus. induction V as [|a l IHl]; [cbn; lia|]. cbn [filter]. destruct (negb (memb a m)); cbn [length]; lia. Qed.
Lemma find_clusters_spec n fuel : forall size V acc, 2 <= size -> NoDup V -> (forall v, In v V -> v < n) -> length V <= fuel + size ->
  NoDup (concat acc ++ V) -> (forall v, In v (concat acc ++ V) <-> v < n) -> (forall c, In c acc -> justified n c) ->
  exists cls rest, find_clusters ord indep fisher alpha fuel size V acc = Some (cls, rest) /\
    NoDup (concat cls ++ rest) /\ (forall v, In v (concat cls ++ rest) <-> v < n) /\ (forall c, In c cls -> justified n c).
Proof.
  induction fuel as [|fuel IH]; intros size V acc Hs HV Hn Hf H1 H2 H3; cbn [find_clusters].
  - destruct (Nat.ltb_spec size (length V)); [lia|]. exists acc, V. auto.
  - destruct (Nat.ltb_spec size (length V)) as [Hlt|_]; [|exists acc, V; auto].
    destruct (merge_spec ord (found ord indep fisher alpha size V) HO) as (m & -> & M1 & M2 & M3 & M4).
    assert (MV : forall v, In v (concat m) -> In v V).
    { intros v Hv. apply M2, in_concat' in Hv. destruct Hv as (c & K1 & K2). apply (found_in size V c HV) in K1. now apply K1. }
    assert (P : forall v, In v (concat (acc ++ m) ++ minus V (concat m)) <-> In v (concat acc ++ V)).
    { intros v. rewrite concat_app, !in_app_iff, in_minus. split; [intuition|]. intros [K|K]; [auto|]. destruct (in_dec Nat.eq_dec v (concat m)); auto. }
    apply IH; [lia|now apply minus_nodup|intros v Hv; apply in_minus in Hv; apply Hn, Hv|pose proof (minus_concat_length V (concat m)); lia| | |].
    + rewrite concat_app. apply nodup_app; [apply nodup_app|now apply minus_nodup|].
      * clear - H1. induction (concat acc) as [|a l IHl]; [constructor|]. cbn in H1. inversion H1 as [|? ? N1 N2]; subst. constructor; [intros K; apply N1, in_app_iff; auto|auto].
      * exact M1.
      * intros v Hv K. apply MV in K. apply in_split in Hv. destruct Hv as (l1 & l2 & E). rewrite E, <- app_assoc in H1. apply NoDup_remove_2 in H1. apply H1. rewrite !in_app_iff. auto.
      * intros v Hv K. apply in_minus in K. apply in_app_iff in Hv. destruct Hv as [Hv|Hv]; [|tauto]. destruct K as [K _].
        apply in_split in Hv. destruct Hv as (l1 & l2 & E). rewrite E, <- app_assoc in H1. apply NoDup_remove_2 in H1. apply H1. rewrite !in_app_iff. auto.
    + intros v. rewrite P. apply H2.
    + intros c Hc. apply in_app_iff in Hc. destruct Hc as [Hc|Hc]; [auto|]. exists V, size. split; [exact HV|]. split; [exact Hn|]. split; [lia|].
      assert (Cm : forall v, In v c -> In v (concat m)) by (intros v Hv; apply in_concat'; eauto).
      split; [intros v Hv; apply MV; auto|]. split.
      { clear - M1 Hc. induction m as [|x m IHm]; [destruct Hc|]. cbn in M1. destruct Hc as [->|Hc].
        - clear IHm. induction c as [|a l IHl]; [constructor|]. cbn in M1. inversion M1 as [|? ? N1 N2]; subst. constructor; [intros K; apply N1, in_app_iff; auto|auto].
        - apply IHm; [|exact Hc]. clear - M1. induction x as [|a l IHl]; [exact M1|]. cbn in M1. inversion M1; auto. }
      split; [apply M4; [intros c' K ->; apply found_in in K; [|exact HV]; destruct K as [K _]; cbn in K; lia|exact Hc]|].
      split; [intros a Ha; apply in_concat', M2; auto|].
      intros a b Ha. split.
      * intros Hb. apply M3. exists c. auto.
      * intros L. destruct (proj2 (M3 a b)) as (c' & K1 & K2 & K3); [split; [apply M2; auto|exact L]|].
        enough (c' = c) by (subst; exact K3). clear - M1 K1 K2 Hc Ha. induction m as [|x m IHm]; [destruct Hc|]. cbn in M1.
        assert (X : forall y, In a x -> In y m -> In a y -> False).
        { intros y Q1 Q2 Q3. apply in_split in Q1. destruct Q1 as (l1 & l2 & ->). rewrite <- app_assoc in M1. cbn in M1. apply NoDup_remove_2 in M1. apply M1. rewrite !in_app_iff. right. right. apply in_concat'. eauto. }
        destruct Hc as [<-|Hc], K1 as [<-|K1]; [reflexivity|exfalso; eauto|exfalso; eauto|]. apply IHm; auto. clear - M1. induction x as [|b l IHl]; [exact M1|]. cbn in M1. inversion M1; auto.
Qed.
End Clusters.
