(** Powers of nonnegative matrices, walks and cycles; the graph CALM builds. *)
From Verif Require Import Base GraphModel GraphSpec GraphProofs UtilsModel UtilsProofs BICModel BICProofs EffectModel VARModel VARProofs ChisqProps CALMModel.
From Coq Require Import Permutation Reals Lra.
Local Open Scope R_scope.

(** ** Simple paths and cycles *)
Inductive steps {A} (R : A -> A -> Prop) : nat -> A -> A -> Prop :=
| steps0 a : steps R 0 a a
| stepsS n a b c : steps R n a b -> R b c -> steps R (S n) a c.
Lemma steps_app {A} (R : A -> A -> Prop) n a b : steps R n a b -> forall m c, steps R m b c -> steps R (n + m) a c.
Proof. intros H m c K. induction K as [x|m x y z K IH E]; [now rewrite Nat.add_0_r|]. rewrite Nat.add_succ_r. econstructor; [now apply IH|exact E]. Qed.
Lemma steps_one {A} (R : A -> A -> Prop) a b : R a b -> steps R 1 a b. Proof. intros H. econstructor; [constructor|exact H]. Qed.
Fixpoint path {A} (R : A -> A -> Prop) (a : A) (l : list A) (b : A) : Prop := match l with [] => a = b | x :: l' => R a x /\ path R x l' b end.
Lemma path_steps {A} (R : A -> A -> Prop) l : forall a b, path R a l b -> steps R (length l) a b.
Proof. induction l as [|x l IH]; intros a b; cbn [path length]; [intros ->; constructor|]. intros [H K]. apply (steps_app R 1 a x); [now apply steps_one|now apply IH]. Qed.
Lemma path_cut {A} (R : A -> A -> Prop) l1 : forall a x l2 b, path R a (l1 ++ x :: l2) b -> path R a (l1 ++ [x]) x /\ path R x l2 b.
Proof. induction l1 as [|y l1 IH]; intros a x l2 b; cbn [app path]; [tauto|]. intros [H K]. apply IH in K. tauto. Qed.
Lemma simple_path (R : nat -> nat -> Prop) a b : reach R a b -> exists l, path R a l b /\ NoDup (a :: l).
Proof.
  induction 1 as [a|a b c H _ (l & P & N)]; [exists []; split; [reflexivity|repeat constructor; auto]|].
  destruct (in_dec Nat.eq_dec a (b :: l)) as [I|I].
  - destruct I as [->|I]; [exists l; auto|]. apply in_split in I. destruct I as (l1 & l2 & ->). apply path_cut in P. exists l2. split; [tauto|]. inversion N as [|? ? _ N2]; subst. clear - N2. induction l1 as [|x l1 IH]; [exact N2|]. inversion N2; auto.
  - exists (b :: l). split; [split; assumption|]. now constructor.
Qed.
(** A cycle contains a simple one, all of whose nodes return to themselves in as many steps as it has nodes. *)
Lemma simple_cycle (R : nat -> nat -> Prop) d v : (forall x y, R x y -> (x < d)%nat /\ (y < d)%nat) -> reach1 R v v ->
  exists p, NoDup p /\ p <> [] /\ (forall x, In x p -> (x < d)%nat) /\ (length p <= d)%nat /\ forall x, In x p -> steps R (length p) x x.
Proof.
  intros B (c & H & K). apply simple_path in K. destruct K as (l & P & N). exists (c :: l). split; [exact N|]. split; [discriminate|].
  assert (IN : forall x, In x (c :: l) -> (x < d)%nat).
  { intros x [<-|I]; [now apply (B v c)|]. apply in_split in I. destruct I as (l1 & l2 & ->). apply path_cut in P. destruct P as [P _]. apply path_steps in P. rewrite app_length in P. cbn [length] in P. rewrite Nat.add_1_r in P. inversion P as [|? ? y ? _ E]; subst. now apply (B y x). }
  split; [exact IN|]. split.
  { rewrite <- (seq_length d 0). apply NoDup_incl_length; [exact N|]. intros x I. apply in_seq0. now apply IN. }
  intros x [<-|I].
  - cbn [length]. econstructor; [apply path_steps; exact P|exact H].
  - apply in_split in I. destruct I as (l1 & l2 & ->). apply path_cut in P. destruct P as [P1 P2]. apply path_steps in P1, P2.
    rewrite app_length in P1. cbn [length] in P1. replace (length (c :: l1 ++ x :: l2)) with (length l2 + (1 + (length l1 + 1)))%nat by (cbn [length]; rewrite app_length; cbn [length]; lia).
    apply (steps_app R _ x v); [exact P2|]. apply (steps_app R 1 v c); [now apply steps_one|exact P1].
Qed.

(** ** Powers of I + A for nonnegative A *)
Section Pow.
Variable d : nat.
Variable A : rmat.
Hypothesis NN : forall i j, (i < d)%nat -> (j < d)%nat -> 0 <= A i j.
Notation P := (mpow d (fun i j => eye i j + A i j)).
Lemma eye_in i j : eye i j = eye j i. Proof. unfold eye. now rewrite Nat.eqb_sym. Qed.
Lemma eye_same i : eye i i = 1. Proof. unfold eye. now rewrite Nat.eqb_refl. Qed.
Lemma pow_S m i j : (j < d)%nat -> P (S m) i j = P m i j + rsum (fun k => P m i k * A k j) (seq 0 d).
Proof.
  intros Hj. cbn [mpow]. unfold mmul. rewrite (rsum_ext _ (fun k => eye j k * P m i k + P m i k * A k j)) by (intros; rewrite (eye_in j); lra).
  rewrite rsum_plus. f_equal. now apply rsum_eye.
Qed.
Lemma rsum_ge1 (f : nat -> R) k : (k < d)%nat -> (forall x, (x < d)%nat -> 0 <= f x) -> f k <= rsum f (seq 0 d).
Proof.
  intros Hk Hf. assert (I : In k (seq 0 d)) by (now apply in_seq0). apply in_split in I. destruct I as (l1 & l2 & E).
  assert (NF : forall x, In x (seq 0 d) -> 0 <= f x) by (intros x Q; apply Hf; now apply in_seq0). rewrite E in *.
  rewrite (rsum_perm f (l1 ++ k :: l2) (k :: l1 ++ l2)) by (symmetry; apply Permutation_middle). rewrite rsum_cons.
  pose proof (proj1 (rsum_nonneg f (l1 ++ l2) ltac:(intros x Q; apply NF; rewrite in_app_iff in *; cbn; tauto))). lra.
Qed.
Lemma pow_ge_eye m : forall i j, (i < d)%nat -> (j < d)%nat -> eye i j <= P m i j.
Proof.
  induction m as [|m IH]; intros i j Hi Hj; [cbn; lra|]. rewrite pow_S by exact Hj. pose proof (IH i j Hi Hj).
  assert (0 <= rsum (fun k => P m i k * A k j) (seq 0 d)); [|lra]. apply rsum_nonneg. intros k Q. apply in_seq0 in Q. apply Rmult_le_pos; [|now apply NN].
  pose proof (IH i k Hi Q). unfold eye in *. destruct (Nat.eqb i k); lra.
Qed.
Lemma pow_nonneg m i j : (i < d)%nat -> (j < d)%nat -> 0 <= P m i j.
Proof. intros Hi Hj. pose proof (pow_ge_eye m i j Hi Hj). unfold eye in *. destruct (Nat.eqb i j); lra. Qed.
Lemma pow_step m i j k : (i < d)%nat -> (j < d)%nat -> (k < d)%nat -> P m i j + P m i k * A k j <= P (S m) i j.
Proof.
  intros Hi Hj Hk. rewrite pow_S by exact Hj. assert (P m i k * A k j <= rsum (fun k => P m i k * A k j) (seq 0 d)); [|lra].
  apply (rsum_ge1 (fun k => P m i k * A k j)); [exact Hk|]. intros x Hx. apply Rmult_le_pos; [now apply pow_nonneg|now apply NN].
Qed.
Lemma pow_mono m i j : (i < d)%nat -> (j < d)%nat -> P m i j <= P (S m) i j.
Proof. intros Hi Hj. pose proof (pow_step m i j j Hi Hj Hj). assert (0 <= P m i j * A j j) by (apply Rmult_le_pos; [now apply pow_nonneg|now apply NN]). lra. Qed.

(** Entries along walks. *)
Definition support (x y : nat) : Prop := (x < d)%nat /\ (y < d)%nat /\ A x y <> 0.
Lemma steps_bound (E : nat -> nat -> Prop) n i j : (forall x y, E x y -> (x < d)%nat /\ (y < d)%nat) -> (i < d)%nat -> steps E n i j -> (j < d)%nat.
Proof. intros B Hi H. inversion H as [|? ? y ? _ Q]; subst; [exact Hi|]. now apply (B y j). Qed.
Lemma pow_support n i j : steps support n i j -> (i < d)%nat -> forall m, (n <= m)%nat -> 0 < P m i j.
Proof.
  intros H Hi. assert (B : forall x y, support x y -> (x < d)%nat /\ (y < d)%nat) by (unfold support; tauto).
  induction H as [a|n a b c H IH E]; intros m Hm.
  - pose proof (pow_ge_eye m a a Hi Hi) as Q. rewrite eye_same in Q. lra.
  - destruct m as [|m]; [lia|]. destruct E as (Hb & Hc & Nz). pose proof (pow_step m a c b Hi Hc Hb). pose proof (IH Hi m ltac:(lia)). pose proof (NN b c Hb Hc). pose proof (pow_nonneg m a c Hi Hc).
    assert (0 < P m a b * A b c) by (apply Rmult_lt_0_compat; lra). lra.
Qed.
Lemma pow_reach m i : (i < d)%nat -> forall j, (j < d)%nat -> P m i j <> 0 -> reach support i j.
Proof.
  intros Hi. induction m as [|m IH]; intros j Hj H.
  - cbn in H. unfold eye in H. destruct (Nat.eqb_spec i j) as [->|]; [constructor|lra].
  - rewrite pow_S in H by exact Hj. destruct (Req_EM_T (P m i j) 0) as [E|E]; [|now apply IH].
    assert (NZ : rsum (fun k => P m i k * A k j) (seq 0 d) <> 0) by lra.
    destruct (Classical_Prop.classic (forall k, In k (seq 0 d) -> P m i k * A k j = 0)) as [Q|Q]; [exfalso; apply NZ; rewrite (rsum_ext _ (fun _ => 0)) by exact Q; apply rsum_0|].
    apply Classical_Pred_Type.not_all_ex_not in Q. destruct Q as (k & Q). apply Classical_Prop.imply_to_and in Q. destruct Q as [Hk Q]. apply in_seq0 in Hk.
    apply reach_trans with k; [apply IH; [exact Hk|]; intros Z; apply Q; rewrite Z; lra|]. apply reach_one. repeat split; try assumption. intros Z; apply Q; rewrite Z; lra.
Qed.
Lemma pow_diag_acyclic m i : acyclic support -> (i < d)%nat -> P m i i = 1.
Proof.
  intros Ac Hi. induction m as [|m IH]; [cbn; unfold eye; now rewrite Nat.eqb_refl|]. rewrite pow_S, IH by exact Hi. rewrite (rsum_ext _ (fun _ => 0)), rsum_0; [lra|].
  intros k Hk. apply in_seq0 in Hk. destruct (Req_EM_T (P m i k) 0) as [Z|Z]; [rewrite Z; lra|]. destruct (Req_EM_T (A k i) 0) as [W|W]; [rewrite W; lra|]. exfalso. apply (Ac k).
  exists i. split; [repeat split; assumption|]. now apply (pow_reach m).
Qed.
(** The number of places for the n steps of a walk among m factors. *)
Variable c : R.
Variable E : nat -> nat -> Prop.
Hypothesis Epos : 0 <= c.
Hypothesis EB : forall x y, E x y -> (x < d)%nat /\ (y < d)%nat.
Hypothesis EC : forall x y, E x y -> c <= A x y.
Lemma C_0 m : C m 0 = 1. Proof. unfold C. rewrite Nat.sub_0_r. cbn [fact INR]. field. apply INR_fact_neq_0. Qed.
Lemma C_n m : C m m = 1. Proof. unfold C. rewrite Nat.sub_diag. cbn [fact INR]. field. apply INR_fact_neq_0. Qed.
Lemma C_pos m n : 0 < C m n.
Proof. unfold C. apply Rmult_lt_0_compat; [apply INR_fact_lt_0|]. apply Rinv_0_lt_compat, Rmult_lt_0_compat; apply INR_fact_lt_0. Qed.
Lemma pow_walk n i j : steps E n i j -> (i < d)%nat -> forall m, (n <= m)%nat -> C m n * c ^ n <= P m i j.
Proof.
  intros H Hi. induction H as [a|n a b e H IH Q]; intros m Hm.
  - rewrite C_0. pose proof (pow_ge_eye m a a Hi Hi) as W. rewrite eye_same in W. cbn [pow]. lra.
  - assert (HSn : steps E (S n) a e) by (econstructor; eassumption). destruct (EB b e Q) as [Hb He].
    induction m as [|m IHm]; [lia|]. pose proof (pow_step m a e b Hi He Hb) as ST. pose proof (IH Hi m ltac:(lia)) as I1. pose proof (EC b e Q) as CE.
    assert (0 <= C m n * c ^ n) by (apply Rmult_le_pos; [pose proof (C_pos m n); lra|now apply pow_le]).
    assert (L1 : C m n * c ^ n * c <= P m a b * A b e) by (apply Rmult_le_compat; assumption). cbn [pow].
    destruct (Nat.eq_dec n m) as [->|Ne].
    + rewrite !C_n in *. pose proof (pow_nonneg m a e Hi He). lra.
    + pose proof (IHm ltac:(lia)) as I2. cbn [pow] in I2. rewrite <- pascal by lia. lra.
Qed.
Lemma pow_cycle n i : steps E (S n) i i -> (i < d)%nat -> forall m, (S n <= m)%nat -> 1 + C m (S n) * c ^ S n <= P m i i.
Proof.
  intros H Hi. inversion H as [|? ? b ? H1 Q]; subst. destruct (EB b i Q) as [Hb _]. induction m as [|m IHm]; intros Hm; [lia|].
  pose proof (pow_step m i i b Hi Hi Hb) as ST. pose proof (pow_walk n i b H1 Hi m ltac:(lia)) as I1. pose proof (EC b i Q) as CE.
  assert (0 <= C m n * c ^ n) by (apply Rmult_le_pos; [pose proof (C_pos m n); lra|now apply pow_le]).
  assert (L1 : C m n * c ^ n * c <= P m i b * A b i) by (apply Rmult_le_compat; assumption). cbn [pow].
  destruct (Nat.eq_dec n m) as [->|Ne].
  - rewrite !C_n in *. pose proof (pow_ge_eye m i i Hi Hi) as W. rewrite eye_same in W. lra.
  - pose proof (IHm ltac:(lia)) as I2. cbn [pow] in I2. rewrite <- pascal by lia. lra.
Qed.
Lemma rsum_const {X} (l : list X) r : rsum (fun _ => r) l = INR (length l) * r.
Proof. induction l as [|x l IH]; [cbn; lra|]. rewrite rsum_cons, IH. cbn [length]. rewrite S_INR. lra. Qed.
Lemma trace_cycle p : NoDup p -> (forall x, In x p -> (x < d)%nat) -> (length p <= d)%nat -> (forall x, In x p -> steps E (length p) x x) ->
  INR d + INR (length p) * (C d (length p) * c ^ length p) <= rsum (fun i => P d i i) (seq 0 d).
Proof.
  intros ND IN LE ST. set (q := C d (length p) * c ^ length p).
  assert (G : rsum (fun i => 1 + if memb i p then q else 0) (seq 0 d) <= rsum (fun i => P d i i) (seq 0 d)).
  { assert (Q : forall l, (forall x, In x l -> (x < d)%nat) -> rsum (fun i => 1 + if memb i p then q else 0) l <= rsum (fun i => P d i i) l); [|apply Q; intros; now apply in_seq0].
    induction l as [|x l IH]; intros HL; [cbn; lra|]. rewrite !rsum_cons. apply Rplus_le_compat; [|apply IH; intros; apply HL; now right]. specialize (HL x (or_introl eq_refl)).
    destruct (memb x p) eqn:M.
    - apply memb_In in M. unfold q. destruct (length p) as [|n] eqn:EL; [destruct p; [destruct M|discriminate]|]. apply (pow_cycle n x); [now apply ST|exact HL|lia].
    - pose proof (pow_ge_eye d x x HL HL) as W. rewrite eye_same in W. lra. }
  rewrite rsum_plus, rsum_const, seq_length in G. rewrite (rsum_support d (fun i => if memb i p then q else 0) p ND IN) in G by (intros a Na; apply memb_not_In in Na; now rewrite Na).
  rewrite (rsum_ext _ (fun _ => q)), rsum_const in G by (intros x Hx; apply memb_In in Hx; now rewrite Hx). lra.
Qed.
End Pow.

(** ** The graph *)
Lemma inner_fold (bin : nat -> nat -> bool) i l : bin i i = false -> forall g, NoDup l -> let g' := fold_left (fun g j => if bin i j then add_directed_edge g i j else g) l g in
  gn g' = gn g /\ forall a b, gm g' a b = if (Nat.eqb a i && memb b l && bin a b)%bool then (-1)%Z else if (Nat.eqb b i && memb a l && bin b a)%bool then 1%Z else gm g a b.
Proof.
  intros B0. induction l as [|j l IH]; intros g ND g'; unfold g'; cbn [fold_left].
  - split; [reflexivity|]. intros a b. cbn [memb existsb]. now rewrite !andb_false_r.
  - inversion ND as [|? ? N1 N2]; subst. destruct (IH (if bin i j then add_directed_edge g i j else g) N2) as [H1 H2].
    split; [rewrite H1; now destruct (bin i j)|]. intros a b. rewrite H2.
    assert (MC : forall x, memb x (j :: l) = (Nat.eqb x j || memb x l)%bool) by (intros x; unfold memb; cbn [existsb]; reflexivity). rewrite !MC.
    assert (NJ : memb j l = false) by (now apply memb_not_In).
    assert (V : gm (if bin i j then add_directed_edge g i j else g) a b = if bin i j then (if (Nat.eqb a i && Nat.eqb b j)%bool then (-1)%Z else if (Nat.eqb a j && Nat.eqb b i)%bool then 1%Z else gm g a b) else gm g a b) by (destruct (bin i j); reflexivity).
    rewrite V. clear V H2. destruct (bin i j) eqn:Bij.
    + assert (NE : i <> j) by (intros ->; congruence).
      destruct (Nat.eqb_spec a i) as [Ea|Na]; destruct (Nat.eqb_spec b j) as [Eb|Nb]; destruct (Nat.eqb_spec b i) as [Ec|Nc]; destruct (Nat.eqb_spec a j) as [Ed|Nd]; subst;
        try congruence; rewrite ?NJ, ?Bij, ?B0; cbn [andb orb]; try reflexivity; rewrite ?andb_false_r, ?andb_true_r; try reflexivity;
        repeat match goal with |- context [Nat.eqb ?x ?y] => destruct (Nat.eqb_spec x y); [congruence|] end; cbn [andb orb]; rewrite ?NJ, ?andb_false_r; try reflexivity; try congruence.
    + destruct (Nat.eqb_spec a i) as [Ea|Na]; destruct (Nat.eqb_spec b j) as [Eb|Nb]; destruct (Nat.eqb_spec b i) as [Ec|Nc]; destruct (Nat.eqb_spec a j) as [Ed|Nd]; subst;
        rewrite ?NJ, ?Bij, ?B0; cbn [andb orb]; rewrite ?NJ, ?Bij, ?B0, ?andb_false_r; cbn [andb orb]; try reflexivity; try congruence.
Qed.
(** After the rows 0 .. k-1. *)
Lemma graph_rows d bin : (forall i, bin i i = false) -> forall k, (k <= d)%nat -> let g := fold_left (fun g i => fold_left (fun g j => if bin i j then add_directed_edge g i j else g) (seq 0 d) g) (seq 0 k) (empty_graph d) in
  gn g = d /\ forall a b, (a < d)%nat -> (b < d)%nat -> gm g a b =
    if ((Nat.ltb a k && bin a b) && negb (Nat.ltb b k && bin b a && Nat.ltb a b))%bool then (-1)%Z
    else if ((Nat.ltb b k && bin b a))%bool then 1%Z else 0%Z.
Proof.
  intros B0. induction k as [|k IH]; intros Hk g; unfold g; [split; [reflexivity|]; intros a b Ha Hb; reflexivity|].
  rewrite seq_S, fold_left_app. cbn [fold_left Nat.add]. destruct (IH ltac:(lia)) as [I1 I2]. set (g0 := fold_left _ (seq 0 k) _) in *.
  destruct (inner_fold bin k (seq 0 d) (B0 k) g0 (seq_NoDup d 0)) as [H1 H2]. split; [now rewrite H1|]. intros a b Ha Hb. rewrite H2, (I2 a b Ha Hb).
  assert (Ma : memb a (seq 0 d) = true) by (apply memb_In; now apply in_seq0). assert (Mb : memb b (seq 0 d) = true) by (apply memb_In; now apply in_seq0). rewrite Ma, Mb, !andb_true_r.
  destruct (Nat.eqb_spec a k) as [->|Na]; destruct (Nat.eqb_spec b k) as [->|Nb]; rewrite ?B0;
  repeat match goal with |- context [Nat.ltb ?x ?y] => destruct (Nat.ltb_spec x y); try lia end; cbn [andb negb];
  repeat match goal with |- context [bin ?x ?y] => destruct (bin x y) end; cbn [andb negb]; try reflexivity; try lia.
Qed.
Lemma calm_graph_spec d bin : (forall i, bin i i = false) -> gn (calm_graph d bin) = d /\ forall a b, (a < d)%nat -> (b < d)%nat -> gm (calm_graph d bin) a b =
  if (bin a b && negb (bin b a && Nat.ltb a b))%bool then (-1)%Z else if bin b a then 1%Z else 0%Z.
Proof.
  intros B0. destruct (graph_rows d bin B0 d (le_n d)) as [H1 H2]. split; [exact H1|]. intros a b Ha Hb. unfold calm_graph. rewrite (H2 a b Ha Hb).
  rewrite (proj2 (Nat.ltb_lt a d) Ha), (proj2 (Nat.ltb_lt b d) Hb). reflexivity.
Qed.
