(** dag2pag when the d-separation procedure is right. *)
From Verif Require Import Base EdgeModel EdgeProofs GraphModel GraphSpec GraphProofs DsepSpec DsepProofs DsepTheory UtilsModel UtilsProofs
  SkelModel SkelProofs PCModel FCIModel FCISpec FCIProofs FCIRules FCILoops FCIFront FCISound Dag2PagModel Dag2PagSpec Dag2PagProofs.
From Coq Require Import Permutation.
Local Open Scope nat_scope.

Lemma dconn_members D x y T1 T2 : (forall z, In z T1 <-> In z T2) -> dconnected D x y T1 -> dconnected D x y T2.
Proof.
  intros E (m & H1 & H2 & H3). exists m. split; [exact H1|]. split; [exact H2|]. intros l a b c r Q. destruct (H3 l a b c r Q) as [(K1 & K2 & z & K3 & K4)|[K1 K2]].
  - left. split; [exact K1|]. split; [exact K2|]. exists z. split; [now apply E|exact K4].
  - right. split; [exact K1|]. now rewrite <- E.
Qed.
(** Leaving out of a separating set what is no ancestor of the two nodes or of what remains keeps it separating. *)
Lemma restrict_given D (HD : dag D) x y T T' : (forall z, In z T' -> In z T) ->
  (forall z, In z T -> reach (dedge D) z x \/ reach (dedge D) z y \/ (exists w, In w T' /\ reach (dedge D) z w) -> In z T') ->
  dconnected D x y T' -> dconnected D x y T.
Proof.
  intros HS HT (m & Hd & HA). exists m. split; [exact Hd|]. pose proof HA as [H1 H2]. split; [exact H1|].
  intros l a b c r E. destruct (H2 l a b c r E) as [(K1 & K2 & z & K3 & K4)|[K1 K2]].
  - left. split; [exact K1|]. split; [exact K2|]. exists z. split; [now apply HS|exact K4].
  - right. split; [exact K1|]. intros Hb. apply K2. apply HT; [exact Hb|].
    apply (walk_ancestors D T' x y (l ++ [a]) b (c :: r)); auto.
    + rewrite <- app_assoc. cbn. now rewrite <- E.
    + rewrite <- app_assoc. cbn. destruct l as [|u l]; cbn in E; injection E as -> E; [exists [b]; reflexivity|exists (l ++ [a; b]); reflexivity].
    + clear - E. change (x :: m ++ [y]) with ((x :: m) ++ [y]) in E.
      destruct (@exists_last _ (c :: r)) as (s & w & Es); [discriminate|]. rewrite Es in E.
      assert (w = y).
      { replace (l ++ a :: b :: s ++ [w]) with ((l ++ a :: b :: s) ++ [w]) in E by (now rewrite <- app_assoc).
        apply app_inj_tail in E. symmetry. apply E. }
      subst w. rewrite Es. exists (b :: s). reflexivity.
Qed.
Lemma collider_given D (HD : dag D) a b c T : a <> c -> dconnected D a b T -> dconnected D b c T -> ~ dconnected D a c T -> ~ In b T ->
  forall z, In z T -> ~ reach (dedge D) b z.
Proof.
  intros N C1 C2 S NB. destruct (away_dec D HD T b) as [H|(z & Hz & R)]; [exact H|]. exfalso. apply S. apply (joined_walks D HD a b c T N C1 C2).
  intros u w Hu Hw. destruct (dedge_dec D u b) as [E1|E1], (dedge_dec D w b) as [E2|E2]; [left|right|right|right]; try tauto.
  split; [exact E1|]. split; [exact E2|]. exists z. auto.
Qed.

Section Main.
Variable D : ggraph.
Variables obs sel : list nat.
Hypothesis HR : roles D obs sel.
Variable dsepd : nat -> nat -> list nat -> bool.
Hypothesis HA : answers_dsep D dsepd.
Notation m := (width obs).
Notation o := (name_of obs).
Notation hits := (hit dsepd obs sel).
Lemma o_in k : k < m -> In (o k) obs.
Proof. intros H. apply nth_In. exact H. Qed.
Lemma o_inj i j : i < m -> j < m -> o i = o j -> i = j.
Proof. destruct HR as (_ & Hd & _). intros Hi Hj E. apply (proj1 (NoDup_nth obs 0) Hd); auto. Qed.
Lemma o_lt k : k < m -> o k < gn D.
Proof. intros H. destruct HR as (_ & _ & K & _). apply K. now apply o_in. Qed.
Lemma o_onto x : In x obs -> exists k, k < m /\ o k = x.
Proof. intros H. apply (In_nth obs x 0) in H. destruct H as (k & H1 & H2). exists k. auto. Qed.
Lemma sepd_iff i j T : i < m -> j < m -> i <> j -> (forall z, In z T -> z < m) -> ~ In i T -> ~ In j T ->
  separated dsepd obs sel i j T = true <-> ~ dconnected D (o i) (o j) (map o T ++ sel).
Proof.
  intros Hi Hj N HT Ni Nj. pose proof HR as (_ & _ & _ & S1 & S2). unfold separated.
  assert (NM : forall k, k < m -> ~ In k T -> ~ In (o k) (map o T ++ sel)).
  { intros k Hk Nk Q. apply in_app_iff in Q. destruct Q as [Q|Q].
    - apply in_map_iff in Q. destruct Q as (u & E & Hu). apply o_inj in E; auto. now subst u.
    - apply (S2 (o k)); [now apply o_in|exact Q]. }
  apply HA; auto using o_lt.
  - intros E. apply N. now apply o_inj.
  - intros z Hz. apply in_app_iff in Hz. destruct Hz as [Hz|Hz]; [|auto]. apply in_map_iff in Hz. destruct Hz as (u & <- & Hu). auto using o_lt.
Qed.
Lemma combs_seq k T : In T (combs k (seq 0 m)) -> length T = k /\ NoDup T /\ forall z, In z T -> z < m.
Proof.
  intros H. apply combs_in in H. destruct H as (H1 & H2 & H3). split; [exact H1|]. split; [apply H3, seq_NoDup|]. intros z Hz. apply H2 in Hz. now apply in_seq0 in Hz.
Qed.
Lemma hit_iff i j k T : i < m -> j < m -> i <> j -> In T (combs k (seq 0 m)) ->
  hits i j T = true <-> ~ In i T /\ ~ In j T /\ ~ dconnected D (o i) (o j) (map o T ++ sel).
Proof.
  intros Hi Hj N HT. apply combs_seq in HT. destruct HT as (_ & _ & HT). unfold hit. rewrite andb_true_iff, negb_true_iff, orb_false_iff, !memb_not_In. split.
  - intros ((H1 & H2) & H3). split; [exact H1|]. split; [exact H2|]. apply sepd_iff in H3; auto.
  - intros (H1 & H2 & H3). split; [auto|]. apply sepd_iff; auto.
Qed.
(** A set of observed variables, listed by position. *)
Lemma positions (f : nat -> bool) : let T := filter f (seq 0 m) in In T (combs (length T) (seq 0 m)) /\ forall k, In k T <-> k < m /\ f k = true.
Proof. cbn zeta. split; [apply combs_filter|]. intros k. rewrite filter_In, in_seq0. tauto. Qed.
Lemma short_hit i j T k : i < m -> j < m -> i <> j -> In T (combs k (seq 0 m)) -> hits i j T = true -> k < m - 1.
Proof.
  intros Hi Hj N HT H. pose proof (combs_seq k T HT) as (L & Hd & Hb). apply (hit_iff i j k T Hi Hj N HT) in H. destruct H as (N1 & N2 & _).
  assert (LE : length (i :: j :: T) <= length (seq 0 m)).
  { apply NoDup_incl_length.
    - constructor; [intros [->|H]; auto|]. constructor; auto.
    - intros z [<-|[<-|Hz]]; apply in_seq0; auto. }
  rewrite seq_length in LE. cbn in LE. lia.
Qed.
Lemma inseparable_iff i j : i < m -> j < m -> i <> j -> first_sep dsepd obs sel (m - 1) i j = None <-> mag_adjacent D obs sel (o i) (o j).
Proof.
  intros Hi Hj N. rewrite first_none. destruct HR as (HD & _). split.
  - intros H T HT N1 N2. destruct (dconnected_dec D HD (o i) (o j) (T ++ sel)) as [C|C]; [exact C|]. exfalso.
    destruct (positions (fun k => memb (o k) T)) as [P1 P2]. set (U := filter (fun k => memb (o k) T) (seq 0 m)) in *.
    assert (HU : hits i j U = true).
    { apply (hit_iff i j (length U) U Hi Hj N P1). rewrite !P2, !memb_In. split; [tauto|]. split; [tauto|]. intros Q. apply C.
      apply (dconn_members D (o i) (o j) (map o U ++ sel)); [|exact Q]. intros z. rewrite !in_app_iff, in_map_iff. split; intros [K|K]; auto; left.
      - destruct K as (k & <- & Hk). apply P2 in Hk. now apply memb_In.
      - destruct (o_onto z (HT z K)) as (k & Hk & <-). exists k. split; [reflexivity|]. apply P2. split; [exact Hk|]. now apply memb_In. }
    pose proof (short_hit i j U (length U) Hi Hj N P1 HU) as L. specialize (H (length U) L). unfold seps in H.
    assert (In U []) as []. rewrite <- H. apply filter_In. auto.
  - intros H k Hk. unfold seps. destruct (filter (hits i j) (combs k (seq 0 m))) as [|T l] eqn:E; [reflexivity|]. exfalso.
    assert (HT : In T (filter (hits i j) (combs k (seq 0 m)))) by (rewrite E; now left). apply filter_In in HT. destruct HT as [H1 H2].
    pose proof (combs_seq k T H1) as (_ & _ & Hb). apply (hit_iff i j k T Hi Hj N H1) in H2. destruct H2 as (N1 & N2 & C). apply C. apply H.
    + intros z Hz. apply in_map_iff in Hz. destruct Hz as (u & <- & Hu). auto using o_in.
    + intros Q. apply in_map_iff in Q. destruct Q as (u & E1 & Hu). apply o_inj in E1; auto. now subst.
    + intros Q. apply in_map_iff in Q. destruct Q as (u & E1 & Hu). apply o_inj in E1; auto. now subst.
Qed.
Definition outside (k i j : nat) : Prop := ~ tail_in_mag D sel (o k) (o i) /\ ~ tail_in_mag D sel (o k) (o j).
Lemma outside_sym k i j : outside k i j -> outside k j i.
Proof. unfold outside. tauto. Qed.
(** The recorded set consists of ancestors of the two nodes or of the selection variables. *)
Lemma recorded_ancestors i j k Ts : i < m -> j < m -> i <> j -> first_sep dsepd obs sel (m - 1) i j = Some Ts -> In k (concat Ts) -> ~ outside k i j.
Proof.
  intros Hi Hj N HF Hk [O1 O2]. apply first_some in HF. destruct HF as (l & Hl & -> & _ & Hm). apply in_concat in Hk. destruct Hk as (T & HT & Hk).
  apply filter_In in HT. destruct HT as [H1 H2]. pose proof (combs_seq l T H1) as (L & Hd & Hb). apply (hit_iff i j l T Hi Hj N H1) in H2. destruct H2 as (N1 & N2 & C).
  pose proof HR as (HD & _ & _ & _ & _).
  assert (AD : forall v, {tail_in_mag D sel v (o i) \/ tail_in_mag D sel v (o j)} + {~ (tail_in_mag D sel v (o i) \/ tail_in_mag D sel v (o j))}).
  { intros v. unfold tail_in_mag. destruct (reach_dec D HD v (o i)) as [R|R]; [left; auto|]. destruct (reach_dec D HD v (o j)) as [R'|R']; [left; auto|].
    destruct (existsb (fun s => if reach_dec D HD v s then true else false) sel) eqn:E.
    - left. left. right. apply existsb_exists in E. destruct E as (s & Hs & E). exists s. split; [exact Hs|]. now destruct (reach_dec D HD v s).
    - right. intros [[H|(s & Hs & Hr)]|[H|(s & Hs & Hr)]]; auto; apply not_true_iff_false in E; apply E; apply existsb_exists; exists s; (split; [exact Hs|]);
        destruct (reach_dec D HD v s); auto. }
  set (f := fun k => memb k T && (if AD (o k) then true else false)). destruct (positions f) as [P1 P2]. set (U := filter f (seq 0 m)) in *.
  assert (Hf : forall v, In v U <-> In v T /\ (tail_in_mag D sel (o v) (o i) \/ tail_in_mag D sel (o v) (o j))).
  { intros v. rewrite P2. unfold f. rewrite andb_true_iff, memb_In. destruct (AD (o v)) as [Q|Q]; split; intros H; try tauto; try (split; [apply Hb; tauto|tauto]). destruct H as (_ & _ & [=]). }
  assert (LU : length U < length T).
  { assert (LE : length (k :: U) <= length T). { apply NoDup_incl_length.
      - constructor; [rewrite Hf; tauto|]. apply NoDup_filter, seq_NoDup.
      - intros z [<-|Hz]; [exact Hk|]. now apply Hf in Hz. }
    cbn in LE. lia. }
  assert (E0 : seps dsepd obs sel (length U) i j = []) by (apply Hm; lia).
  assert (HU : hits i j U = true); [|assert (In U []) as []; rewrite <- E0; apply filter_In; auto].
  apply (hit_iff i j (length U) U Hi Hj N P1). rewrite !Hf. split; [tauto|]. split; [tauto|]. intros Q. apply C.
  apply (restrict_given D HD (o i) (o j) (map o T ++ sel) (map o U ++ sel)); [| |exact Q].
  - intros z. rewrite !in_app_iff, !in_map_iff. intros [(v & <- & Hv)|Hz]; [|auto]. left. exists v. split; [reflexivity|]. now apply Hf in Hv.
  - intros z Hz Hz2. apply in_app_iff in Hz. rewrite in_app_iff. destruct Hz as [Hz|Hz]; [|auto]. left. apply in_map_iff in Hz. destruct Hz as (v & <- & Hv).
    apply in_map. apply Hf. split; [exact Hv|]. destruct Hz2 as [R|[R|(w & Hw & R)]]; [left; now left|right; now left|].
    apply in_app_iff in Hw. destruct Hw as [Hw|Hw]; [|left; right; eauto]. apply in_map_iff in Hw. destruct Hw as (u & <- & Hu). apply Hf in Hu.
    destruct Hu as (_ & [[R2|(s & Hs & R2)]|[R2|(s & Hs & R2)]]).
    + left. left. eapply reach_trans; eauto.
    + left. right. exists s. split; [exact Hs|]. eapply reach_trans; eauto.
    + right. left. eapply reach_trans; eauto.
    + right. right. exists s. split; [exact Hs|]. eapply reach_trans; eauto.
Qed.
(** A common neighbour outside the recorded set is no ancestor of the two nodes or of the selection variables. *)
Lemma unrecorded_outside i j k Ts : i < m -> j < m -> k < m -> i <> j -> first_sep dsepd obs sel (m - 1) i j = Some Ts -> ~ In k (concat Ts) -> k <> i -> k <> j ->
  mag_adjacent D obs sel (o i) (o k) -> mag_adjacent D obs sel (o j) (o k) -> outside k i j.
Proof.
  intros Hi Hj Hk N HF NK K1 K2 A1 A2. pose proof HR as (HD & _ & _ & _ & S2). apply first_some in HF. destruct HF as (l & Hl & -> & NE & Hm).
  destruct (seps dsepd obs sel l i j) as [|T Us] eqn:E; [congruence|].
  assert (HT : In T (seps dsepd obs sel l i j)) by (rewrite E; now left). apply filter_In in HT. destruct HT as [H1 H2].
  pose proof (combs_seq l T H1) as (_ & _ & Hb). apply (hit_iff i j l T Hi Hj N H1) in H2. destruct H2 as (N1 & N2 & C).
  assert (NkT : ~ In k T) by (intros Q; apply NK; cbn; apply in_app_iff; now left).
  assert (SUB : forall z, In z (map o T) -> In z obs) by (intros z Hz; apply in_map_iff in Hz; destruct Hz as (u & <- & Hu); auto using o_in).
  assert (NM : forall v, v < m -> ~ In v T -> ~ In (o v) (map o T)).
  { intros v Hv Nv Q. apply in_map_iff in Q. destruct Q as (u & E1 & Hu). apply o_inj in E1; auto. now subst. }
  pose proof (A1 (map o T) SUB (NM i Hi N1) (NM k Hk NkT)) as C1. pose proof (A2 (map o T) SUB (NM j Hj N2) (NM k Hk NkT)) as C2.
  assert (No : o i <> o j) by (intros Q; apply N; now apply o_inj).
  assert (Nk : ~ In (o k) (map o T ++ sel)). { rewrite in_app_iff. intros [Q|Q]; [now apply (NM k Hk NkT)|]. apply (S2 (o k)); [now apply o_in|exact Q]. }
  apply (dconnected_sym D) in C2. destruct (collider_not_ancestor D HD (o i) (o k) (o j) _ No C1 C2 C Nk) as [R1 R2].
  pose proof (collider_given D HD (o i) (o k) (o j) _ No C1 C2 C Nk) as AW.
  assert (NS : ~ exists s, In s sel /\ reach (dedge D) (o k) s) by (intros (s & Hs & R); apply (AW s); [apply in_app_iff; auto|exact R]).
  unfold outside, tail_in_mag. tauto.
Qed.
Lemma mag_adjacent_sym x y : mag_adjacent D obs sel x y -> mag_adjacent D obs sel y x.
Proof. intros H T H1 H2 H3. apply dconnected_sym. now apply H. Qed.
Lemma colliders_run : exists gc, pag_colliders dsepd obs sel = Ret gc /\ mixed m gc /\ tailless obs gc /\
  (forall i j, i < m -> j < m -> i <> j -> adj gc i j <-> mag_adjacent D obs sel (o i) (o j)) /\
  (forall i k, i < m -> k < m -> arrow_at gc i k <-> adj gc i k /\ exists j, j < m /\ i <> j /\ ~ adj gc i j /\ adj gc j k /\ outside k i j).
Proof.
  destruct (skeleton_spec dsepd obs sel) as (g & s & E & M & P).
  assert (AJ : forall i j, i < m -> j < m -> i <> j -> adj g i j <-> mag_adjacent D obs sel (o i) (o j)).
  { assert (K : forall i j, i < j -> j < m -> (gm g i j <> 0%Z <-> mag_adjacent D obs sel (o i) (o j)) /\ (gm g j i <> 0%Z <-> mag_adjacent D obs sel (o i) (o j))).
    { intros i j L1 L2. specialize (P i j L1 L2). unfold pair_state in P. rewrite <- (inseparable_iff i j) by lia. cbn [fst] in P.
      destruct (first_sep dsepd obs sel (m - 1) i j) as [Ts|]; destruct P as (-> & -> & _); split; split; auto; try discriminate; lia. }
    intros i j Hi Hj N. unfold adj. destruct (lt_dec i j) as [L|L]; [apply (K i j L Hj)|].
    destruct (K j i) as [K1 _]; [lia|lia|]. rewrite K1. split; apply mag_adjacent_sym. }
  assert (SY : forall x y, x < m -> y < m -> x <> y -> s x y = s y x).
  { assert (K : forall i j, i < j -> j < m -> s i j = s j i).
    { intros i j L1 L2. specialize (P i j L1 L2). unfold pair_state in P. cbn [snd] in P. destruct (first_sep dsepd obs sel (m - 1) i j); destruct P as (_ & _ & -> & ->); reflexivity. }
    intros x y Hx Hy N. destruct (lt_dec x y); [apply K; lia|]. symmetry. apply K; lia. }
  assert (RC : forall i j, i < m -> j < m -> i <> j -> ~ adj g i j -> exists i' j' Ts, ((i' = i /\ j' = j) \/ (i' = j /\ j' = i)) /\ first_sep dsepd obs sel (m - 1) i' j' = Some Ts /\ s i j = concat Ts).
  { assert (K : forall i j, i < j -> j < m -> ~ adj g i j -> exists Ts, first_sep dsepd obs sel (m - 1) i j = Some Ts /\ s i j = concat Ts).
    { intros i j L1 L2 NA. specialize (P i j L1 L2). unfold pair_state in P. cbn [fst snd] in P. destruct (first_sep dsepd obs sel (m - 1) i j) as [Ts|].
      - exists Ts. tauto.
      - exfalso. apply NA. unfold adj. destruct P as (_ & -> & _). discriminate. }
    intros i j Hi Hj N NA. destruct (lt_dec i j) as [L|L].
    - destruct (K i j L Hj NA) as (Ts & K1 & K2). exists i, j, Ts. auto.
    - destruct (K j i) as (Ts & K1 & K2); [lia|lia|intros Q; apply NA; unfold adj in *; intros Z0; apply Q; now apply (mx_zero m g M)|]. exists j, i, Ts. rewrite (SY i j) by lia. auto. }
  assert (TL : tailless obs g).
  { intros i j Hi Hj. unfold no_tail_code. destruct (Nat.eq_dec i j) as [->|N].
    - left. destruct (Z.eq_dec (gm g j j) 0) as [Q|Q]; [exact Q|]. now apply (mx_neq m g M j j Hj) in Q.
    - assert (K : forall i j, i < j -> j < m -> (gm g i j = 0 \/ gm g i j = 1 \/ gm g i j = 2)%Z /\ (gm g j i = 0 \/ gm g j i = 1 \/ gm g j i = 2)%Z).
      { intros a b L1 L2. specialize (P a b L1 L2). unfold pair_state in P. cbn [fst] in P. destruct (first_sep dsepd obs sel (m - 1) a b); destruct P as (-> & -> & _); auto 8. }
      destruct (lt_dec i j); [apply (K i j); lia|apply (K j i); lia]. }
  destruct (colliders_spec obs s SY g M TL) as (gc & EC & (MC & TC & SC) & (W & R) & Q).
  exists gc. split; [unfold pag_colliders; rewrite E; exact EC|]. split; [exact MC|]. split; [exact TC|]. split.
  { intros i j Hi Hj N. rewrite (SC i j Hi Hj). now apply AJ. }
  assert (RS : forall i k j, i < m -> k < m -> j < m -> reason obs s g i k j <-> i <> j /\ adj gc i k /\ adj gc j k /\ ~ adj gc i j /\ outside k i j).
  { intros i k j Hi Hk Hj. rewrite (reason_iff obs s SY g). split.
    - intros (_ & _ & N & J1 & J2 & J3 & NI). split; [exact N|]. rewrite (SC i k), (SC j k), (SC i j) by assumption. do 3 (split; [assumption|]).
      destruct (RC i j Hi Hj N J3) as (i' & j' & Ts & DD & F & ES). rewrite ES in NI.
      assert (Nik : k <> i) by (intros ->; now apply (mx_neq m g M i i Hi J1)). assert (Njk : k <> j) by (intros ->; now apply (mx_neq m g M j j Hj J2)).
      apply AJ in J1; auto. apply AJ in J2; auto. destruct DD as [[-> ->]|[-> ->]]; [|apply outside_sym]; apply unrecorded_outside with Ts; auto.
    - intros (N & J1 & J2 & J3 & O). rewrite (SC i k) in J1 by assumption. rewrite (SC j k) in J2 by assumption. rewrite (SC i j) in J3 by assumption.
      do 6 (split; [assumption|]). destruct (RC i j Hi Hj N J3) as (i' & j' & Ts & DD & F & ES). rewrite ES. intros HI.
      destruct DD as [[-> ->]|[-> ->]]; [apply (recorded_ancestors i j k Ts) in HI; auto|apply (recorded_ancestors j i k Ts) in HI; auto]. apply HI. now apply outside_sym. }
  intros i k Hi Hk. split.
  - intros Ar. assert (AK : adj gc i k) by (unfold arrow_at in Ar; unfold adj; rewrite Ar; discriminate). split; [exact AK|].
    destruct (R i k Hi Hk) as [EQ|(_ & _ & c & RE)].
    + exfalso. assert (G2 : gm g k i = 1%Z) by (unfold arrow_at in Ar; congruence).
      assert (Nik : i <> k) by (intros ->; apply (mx_neq m g M k k Hi); [rewrite G2; discriminate|reflexivity]).
      assert (K : forall i j, i < j -> j < m -> gm g i j <> 1%Z /\ gm g j i <> 1%Z).
      { intros a b L1 L2. specialize (P a b L1 L2). unfold pair_state in P. cbn [fst] in P. destruct (first_sep dsepd obs sel (m - 1) a b); destruct P as (-> & -> & _); split; discriminate. }
      destruct (lt_dec i k); [apply (K i k); [lia|lia|exact G2]|apply (proj1 (K k i ltac:(lia) ltac:(lia))); exact G2].
    + assert (Hc : c < m) by (destruct RE as (_ & Hc & _); exact Hc). apply (RS i k c Hi Hk Hc) in RE. exists c. tauto.
  - intros (J1 & j & Hj & N & J3 & J2 & O). apply (Q i j k Hi Hj Hk). apply RS; auto.
Qed.
Lemma pag_run so fuel : (forall l, Permutation (so l) l) -> 2 * m + m * m + 2 <= fuel ->
  exists gc g, pag_colliders dsepd obs sel = Ret gc /\ mixed m gc /\ dag2pag dsepd obs sel so fuel = Ret g /\ mixed m g /\ only_fills m gc g /\
    exists fuel', 2 * m < fuel' /\ pag_pass dsepd obs so fuel' g = Ret (g, false).
Proof.
  intros HP HF. destruct colliders_run as (gc & E & M & _). exists gc.
  assert (SO : forall l x, In x (so l) <-> In x l). { intros l x. split; apply Permutation_in; auto using Permutation_sym. }
  pose proof (ccount_bound m gc). destruct (pag_loop_adv dsepd obs so SO fuel gc) as (g & EL & MG & W & X); [lia|exact M|].
  exists g. split; [exact E|]. split; [exact M|]. split; [unfold dag2pag; rewrite E; exact EL|]. auto.
Qed.
End Main.
