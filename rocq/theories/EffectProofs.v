(** Interventions in linear models: propagation, paths, orders. *)
From Verif Require Import Base UtilsModel UtilsProofs GraphSpec BICModel BICProofs LingamModel LingamSpec LingamProofs LingamProps BootSpec EffectModel EffectSpec.
From Coq Require Import Permutation Reals Lra.
Local Open Scope R_scope.

Lemma vset_same e i x : vset e i x i = x. Proof. unfold vset. now rewrite Nat.eqb_refl. Qed.
Lemma vset_other e i x j : j <> i -> vset e i x j = e j. Proof. intros H. unfold vset. now rewrite (proj2 (Nat.eqb_neq j i) H). Qed.
Lemma follows_rank n B order : follows n B order -> forall i j, (i < n)%nat -> (j < n)%nat -> B i j <> 0 -> (LingamProofs.pos order j < LingamProofs.pos order i)%nat.
Proof. intros [HP HB] i j Hi Hj H. apply before_pos; [now apply perm_NoDup in HP|auto]. Qed.
Lemma follows_triangular n B order : follows n B order -> triangular n B.
Proof. intros H. exists (LingamProofs.pos order). now apply follows_rank. Qed.
Lemma R0_dec (x : R) : {x = 0} + {x <> 0}. Proof. destruct (Req_EM_T x 0); auto. Qed.

(** ** Uniqueness and existence of the intervened expectations *)
Lemma intervened_unique n B En k v e e' : triangular n B -> intervened n B En k v e -> intervened n B En k v e' -> forall i, (i < n)%nat -> e i = e' i.
Proof.
  intros (r & Hr) H H'. assert (G : forall m i, (r i < m)%nat -> (i < n)%nat -> e i = e' i).
  { induction m as [|m IH]; [lia|]. intros i Hm Hi. rewrite H, H' by exact Hi. destruct (Nat.eqb i k); [reflexivity|]. f_equal. apply rsum_ext. intros j Hj. apply in_seq0 in Hj.
    destruct (R0_dec (B i j)) as [->|N]; [lra|]. f_equal. apply IH; [specialize (Hr i j Hi Hj N); lia|exact Hj]. }
  intros i Hi. apply (G (S (r i))); [lia|exact Hi].
Qed.
Lemma propagated_solves n B order En k v : follows n B order -> intervened n B En k v (propagated_effects n B order En k v).
Proof.
  intros F. pose proof (follows_rank n B order F) as HR. destruct F as [HP HB]. pose proof (perm_NoDup n order HP) as ND.
  unfold propagated_effects. set (step := fun e i => vset e i (if Nat.eqb i k then v else rdot n (B i) e + En i)).
  assert (G : forall l1 l2 e, order = l1 ++ l2 -> (forall i, In i l1 -> e i = if Nat.eqb i k then v else rdot n (B i) e + En i) ->
     forall i, In i order -> fold_left step l2 e i = if Nat.eqb i k then v else rdot n (B i) (fold_left step l2 e) + En i).
  { intros l1 l2. revert l1. induction l2 as [|t l2 IH]; intros l1 e E H i Hi; [cbn [fold_left]; apply H; rewrite app_nil_r in E; now subst|]. cbn [fold_left].
    apply (IH (l1 ++ [t])); [now rewrite <- app_assoc| |exact Hi]. intros a Ha.
    assert (Ht : (t < n)%nat) by (apply (perm_in n order t HP); rewrite E; apply in_or_app; right; now left).
    assert (NT : ~ In t l1) by (rewrite E in ND; apply NoDup_remove_2 in ND; intros I; apply ND, in_or_app; now left).
    assert (HA : (a < n)%nat) by (apply (perm_in n order a HP); rewrite E; apply in_app_or in Ha; apply in_or_app; destruct Ha as [Ha|[<-|[]]]; [now left|right; now left]).
    assert (B0 : B a t = 0).
    { destruct (R0_dec (B a t)) as [Q|Q]; [exact Q|exfalso]. pose proof (HR a t HA Ht Q) as L. apply in_app_or in Ha. destruct Ha as [Ha|[<-|[]]]; [|lia].
      assert (bef : before order a t) by (rewrite E; apply in_split in Ha; destruct Ha as (u & w & ->); exists u, w, l2; rewrite <- app_assoc; reflexivity).
      apply before_pos in bef; [lia|exact ND]. }
    assert (RD : rdot n (B a) (step e t) = rdot n (B a) e).
    { apply rsum_ext. intros j _. unfold step. destruct (Nat.eq_dec j t) as [->|N]; [rewrite B0; lra|now rewrite vset_other]. }
    rewrite RD. apply in_app_or in Ha. destruct Ha as [Ha|[<-|[]]].
    - unfold step. rewrite vset_other by (intros ->; contradiction). now apply H.
    - unfold step. now rewrite vset_same. }
  intros i Hi. unfold rdot in G. apply (G [] order (fun _ => 0)); [reflexivity|intros ? []|now apply (perm_in n order i HP)].
Qed.

(** ** Paths *)
Lemma path_ends (Rel : nat -> nat -> Prop) a b p : path_from Rel a b p -> exists q, p = q ++ [b].
Proof. induction 1 as [a|a b c p H _ (q & ->)]; [now exists []|]. now exists (a :: q). Qed.
Lemma path_snoc (Rel : nat -> nat -> Prop) a b c q : path_from Rel a b q -> Rel b c -> path_from Rel a c (q ++ [c]).
Proof. induction 1 as [a|a x b p H _ IH]; intros K; cbn; [apply path_step with c; [exact K|constructor]|]. apply path_step with x; auto. Qed.
Lemma path_unsnoc (Rel : nat -> nat -> Prop) a c p : path_from Rel a c p -> (p = [a] /\ a = c) \/ exists b q, path_from Rel a b q /\ Rel b c /\ p = q ++ [c].
Proof.
  induction 1 as [a|a b c p H P IH]; [now left|]. right. destruct IH as [[-> <-]|(b' & q & P' & K & ->)].
  - exists a, [a]. split; [constructor|]. auto.
  - exists b', (a :: q). split; [now apply path_step with b|]. auto.
Qed.
Lemma path_rank (Rel : nat -> nat -> Prop) (r : nat -> nat) : (forall a b, Rel a b -> (r a < r b)%nat) -> forall a b p, path_from Rel a b p -> (r a <= r b)%nat.
Proof. intros H a b p P. induction P as [|a b c p Q _ IH]; [lia|]. apply H in Q. lia. Qed.
Lemma path_weight_cons B a b q : path_weight B (a :: b :: q) = B b a * path_weight B (b :: q). Proof. reflexivity. Qed.
Lemma path_weight_snoc B q x b : path_weight B ((q ++ [x]) ++ [b]) = path_weight B (q ++ [x]) * B b x.
Proof.
  induction q as [|a q IH]; [cbn; lra|]. destruct q as [|a' q]; [cbn; lra|].
  change (((a :: a' :: q) ++ [x]) ++ [b]) with (a :: (a' :: (q ++ [x]) ++ [b])). change ((a :: a' :: q) ++ [x]) with (a :: a' :: q ++ [x]). rewrite !path_weight_cons.
  change ((a' :: q) ++ [x]) with (a' :: q ++ [x]) in IH. change ((a' :: q ++ [x]) ++ [b]) with (a' :: (q ++ [x]) ++ [b]) in IH. rewrite IH. lra.
Qed.
Lemma rsum_app {A} (f : A -> R) l m : rsum f (l ++ m) = rsum f l + rsum f m.
Proof. induction l as [|a l IH]; [change (rsum f ([] ++ m)) with (rsum f m); change (rsum f []) with 0; lra|]. cbn [app]. rewrite !rsum_cons, IH. lra. Qed.
Lemma rsum_flat {A B} (f : B -> R) (g : A -> list B) l : rsum f (flat_map g l) = rsum (fun a => rsum f (g a)) l.
Proof. induction l as [|a l IH]; [reflexivity|]. cbn [flat_map]. now rewrite rsum_app, rsum_cons, IH. Qed.
Lemma rsum_mapf {A B} (f : B -> R) (g : A -> B) l : rsum f (map g l) = rsum (fun a => f (g a)) l.
Proof. unfold rsum. now rewrite map_map. Qed.
Lemma rsum_filter_0 {A} (f : A -> R) (c : A -> bool) l : (forall a, In a l -> c a = false -> f a = 0) -> rsum f (filter c l) = rsum f l.
Proof.
  induction l as [|a l IH]; intros H; [reflexivity|]. cbn [filter]. rewrite rsum_cons, <- IH by (intros b Hb; apply H; now right). destruct (c a) eqn:E; [apply rsum_cons|].
  rewrite (H a (or_introl eq_refl) E). lra.
Qed.
Lemma pick {A} (P : nat -> A -> Prop) (d : A) l : (forall j, In j l -> exists x, P j x) -> exists f, forall j, In j l -> P j (f j).
Proof.
  induction l as [|j l IH]; intros H; [now exists (fun _ => d)|]. destruct IH as [f Hf]; [intros i Hi; apply H; now right|]. destruct (H j (or_introl eq_refl)) as [x Hx].
  exists (fun i => if Nat.eqb i j then x else f i). intros i Hi. destruct (Nat.eqb_spec i j) as [->|N]; [exact Hx|]. apply Hf. destruct Hi as [<-|Hi]; [contradiction|exact Hi].
Qed.
Lemma NoDup_flat {A B} (f : A -> list B) l : NoDup l -> (forall a, In a l -> NoDup (f a)) -> (forall a b x, In a l -> In b l -> In x (f a) -> In x (f b) -> a = b) -> NoDup (flat_map f l).
Proof.
  intros ND. induction ND as [|a l N ND IH]; intros H1 H2; [constructor|]. cbn.
  assert (IHl : NoDup (flat_map f l)) by (apply IH; [intros b Hb; apply H1; now right|intros b c x Hb Hc; apply H2; now right]).
  assert (DJ : forall x, In x (f a) -> ~ In x (flat_map f l)).
  { intros x Hx K. apply in_flat_map in K. destruct K as (b & Hb & K). apply N. rewrite (H2 a b x); auto; [now left|now right]. }
  specialize (H1 a (or_introl eq_refl)). clear - H1 IHl DJ. induction H1 as [|y m M1 M2 IHm]; cbn; [exact IHl|]. constructor; [rewrite in_app_iff; intros [I|I]; [auto|apply (DJ y); [now left|exact I]]|]. apply IHm. intros x Hx. apply DJ. now right.
Qed.
Lemma NoDup_inj {A B} (f : A -> B) l : (forall x y, f x = f y -> x = y) -> NoDup l -> NoDup (map f l).
Proof. intros I H. induction H as [|a l N _ IH]; cbn; constructor; auto. rewrite in_map_iff. intros (x & E & Hx). apply I in E. now subst. Qed.
Lemma nonzero_iff x : nonzerob x = true <-> x <> 0.
Proof.
  unfold nonzerob. destruct (Rlt_dec 0 (Rabs x)) as [L|L]; split; auto.
  - intros _ ->. rewrite Rabs_R0 in L. lra.
  - discriminate.
  - intros N. exfalso. apply L. now apply Rabs_pos_lt.
Qed.
Lemma in_row_parents n B k q : In q (row_parents n B k) <-> (q < n)%nat /\ B k q <> 0.
Proof. unfold row_parents. now rewrite filter_In, in_seq0, nonzero_iff. Qed.
(** The unit response of an intervention is the total effect. *)
Lemma response_paths n B a T : triangular n B -> (a < n)%nat -> intervened n B (fun _ => 0) a 1 T -> forall b, (b < n)%nat -> total_effect n B a b (T b).
Proof.
  intros (r & Hr) Ha HT. assert (HC : forall x y, causes n B x y -> (r x < r y)%nat) by (intros x y (Hx & Hy & N); now apply Hr).
  assert (G : forall m b, (r b < m)%nat -> (b < n)%nat -> total_effect n B a b (T b)).
  { induction m as [|m IH]; [lia|]. intros b Hm Hb. destruct (Nat.eq_dec b a) as [->|N].
    - exists [[a]]. split; [repeat constructor; auto|]. split.
      + intros p. split; [intros [<-|[]]; constructor|]. intros P. inversion P as [|? c ? q K P']; subst; [now left|]. apply HC in K. pose proof (path_rank _ r HC _ _ _ P'). lia.
      + rewrite HT by exact Hb. rewrite Nat.eqb_refl. unfold rsum. cbn. lra.
    - destruct (pick (fun j ps => NoDup ps /\ (forall p, In p ps <-> path_from (causes n B) a j p) /\ T j = rsum (path_weight B) ps) [] (row_parents n B b)) as [f Hf].
      { intros j Hj. apply in_row_parents in Hj. destruct Hj as [Hj Nj]. apply IH; [specialize (Hr b j Hb Hj Nj); lia|exact Hj]. }
      exists (flat_map (fun j => map (fun q => q ++ [b]) (f j)) (row_parents n B b)). split; [|split].
      + apply NoDup_flat; [apply NoDup_filter, seq_NoDup| |].
        * intros j Hj. apply NoDup_inj; [intros x y E; now apply app_inj_tail in E|]. now destruct (Hf j Hj).
        * intros j j' p Hj Hj' I I'. apply in_map_iff in I, I'. destruct I as (q & <- & Hq), I' as (q' & E & Hq'). apply app_inj_tail in E. destruct E as [-> _].
          apply (Hf j Hj) in Hq. apply (Hf j' Hj') in Hq'. apply path_ends in Hq, Hq'. destruct Hq as (u & ->), Hq' as (u' & E). now apply app_inj_tail in E.
      + intros p. rewrite in_flat_map. split.
        * intros (j & Hj & I). apply in_map_iff in I. destruct I as (q & <- & Hq). apply (Hf j Hj) in Hq. apply path_snoc with j; [exact Hq|]. apply in_row_parents in Hj. destruct Hj. repeat split; auto.
        * intros P. destruct (path_unsnoc _ _ _ _ P) as [[_ E]|(j & q & P' & (Hj & _ & Nj) & ->)]; [congruence|]. assert (I : In j (row_parents n B b)) by (now apply in_row_parents). exists j. split; [exact I|].
          apply in_map_iff. exists q. split; [reflexivity|]. now apply (Hf j I).
      + rewrite HT by exact Hb. rewrite (proj2 (Nat.eqb_neq b a) N). rewrite rsum_flat. rewrite <- (rsum_filter_0 _ (fun q => nonzerob (B b q))).
        * change (filter (fun q => nonzerob (B b q)) (seq 0 n)) with (row_parents n B b). rewrite Rplus_0_r. apply rsum_ext. intros j Hj. rewrite rsum_mapf. destruct (Hf j Hj) as (_ & H2 & ->). rewrite <- rsum_mult. apply rsum_ext. intros q Hq.
          apply H2, path_ends in Hq. destruct Hq as (u & ->). rewrite path_weight_snoc. lra.
        * intros j _ E. destruct (R0_dec (B b j)) as [->|K]; [lra|]. apply nonzero_iff in K. congruence. }
  intros b Hb. apply (G (S (r b))); [lia|exact Hb].
Qed.
Lemma total_effect_unique n B a b t t' : total_effect n B a b t -> total_effect n B a b t' -> t = t'.
Proof. intros (ps & N & H & ->) (ps' & N' & H' & ->). apply rsum_perm, NoDup_Permutation; auto. intros p. now rewrite H, H'. Qed.

(** ** The order of a matrix *)
Lemma small_row_zero tol n B idx i : sharp tol n B -> (i < n)%nat -> (forall j, In j idx -> (j < n)%nat) -> small_row tol B idx i = true <-> forall j, In j idx -> B i j = 0.
Proof.
  intros [T0 HS] Hi Hidx. unfold small_row. destruct (Rlt_dec (rsum (fun j => Rabs (B i j)) idx) tol) as [L|L].
  - split; [|reflexivity]. intros _ j Hj. destruct (HS i j Hi (Hidx j Hj)) as [Q|Q]; [exact Q|exfalso].
    assert (K : Rabs (B i j) <= rsum (fun j => Rabs (B i j)) idx).
    { clear - Hj. induction idx as [|a l IH]; [destruct Hj|]. rewrite rsum_cons.
      assert (P : 0 <= rsum (fun j => Rabs (B i j)) l) by (clear; induction l as [|b l IH]; [unfold rsum; cbn; lra|rewrite rsum_cons; pose proof (Rabs_pos (B i b)); lra]).
      destruct Hj as [->|Hj]; [lra|]. pose proof (Rabs_pos (B i a)). specialize (IH Hj). lra. }
    lra.
  - split; [discriminate|]. intros H. exfalso. apply L. rewrite (rsum_ext _ (fun _ => 0)); [rewrite rsum_0; exact T0|]. intros j Hj. rewrite H by exact Hj. apply Rabs_R0.
Qed.
Lemma filter_out_length (l : list nat) t : NoDup l -> In t l -> S (length (filter (fun j => negb (Nat.eqb j t)) l)) = length l.
Proof. intros ND H. symmetry. exact (others_length l t ND H). Qed.
Lemma matrix_order_spec tol n B : sharp tol n B -> forall s idx order, NoDup idx -> length idx = s -> (forall j, In j idx -> (j < n)%nat) -> Permutation (order ++ idx) (seq 0 n) ->
  (forall i j, In i order -> (j < n)%nat -> B i j <> 0 -> before order j i) ->
  (forall o, matrix_order tol B s idx order = Some o -> follows n B o) /\
  (triangular n B -> exists o, matrix_order tol B s idx order = Some o).
Proof.
  intros HS. induction s as [|s IH]; intros idx order ND HL Hidx HP HB.
  - destruct idx; [|discriminate]. rewrite app_nil_r in HP. cbn. split; [|eauto]. intros o E. injection E as <-. split; [exact HP|]. intros i j Hi Hj. apply HB; [|exact Hj]. now apply (perm_in n order i HP).
  - cbn [matrix_order]. destruct (filter (small_row tol B idx) idx) as [|t l] eqn:E.
    + split; [discriminate|]. intros (r & Hr). exfalso. destruct (min_exists r idx) as (m & Hm & Hmin); [intros ->; discriminate|].
      assert (I : In m (filter (small_row tol B idx) idx)).
      { apply filter_In. split; [exact Hm|]. apply (small_row_zero tol n B idx m HS (Hidx m Hm) Hidx). intros j Hj. destruct (R0_dec (B m j)) as [Q|Q]; [exact Q|]. specialize (Hr m j (Hidx m Hm) (Hidx j Hj) Q). specialize (Hmin j Hj). lia. }
      rewrite E in I. destruct I.
    + assert (It : In t idx /\ small_row tol B idx t = true) by (apply filter_In; rewrite E; now left). destruct It as [It Zt].
      rewrite (small_row_zero tol n B idx t HS (Hidx t It) Hidx) in Zt. apply IH.
      * now apply NoDup_filter.
      * pose proof (filter_out_length idx t ND It). lia.
      * intros j Hj. apply filter_In in Hj. now apply Hidx.
      * rewrite <- app_assoc. etransitivity; [|exact HP]. apply Permutation_app_head. cbn [app]. exact (Permutation_sym (others_perm idx t ND It)).
      * intros i j Hi Hj N. apply in_app_or in Hi. destruct Hi as [Hi|[<-|[]]]; [now apply before_app_l, HB|]. apply before_last.
        assert (Ij : In j (order ++ idx)) by (apply (Permutation_in _ (Permutation_sym HP)); now apply in_seq0). apply in_app_or in Ij. destruct Ij as [Ij|Ij]; [exact Ij|]. exfalso. apply N. now apply Zt.
Qed.

(** ** The optimal intervention *)
Section Optimal.
Variables (n : nat) (B : rmat) (Ex : rvec) (x : nat) (order : list nat).
Hypothesis F : follows n B order.
Let En := noise_means n B Ex.
Let P (c : R) := propagated_effects n B order En x c.
Definition good (st : ostate) : Prop :=
  (forall i, In i (o_s st) -> (i < n)%nat /\ i <> x) /\ o_ex st x = 0 /\ o_alpha st x = 1 /\
  forall i c, (i < n)%nat -> ~ In i (o_s st) -> o_ex st i + o_alpha st i * c = P c i.
Lemma good_round st k : good st -> good (opt_round n B (vset En x 0) x st k).
Proof.
  intros (G1 & G2 & G3 & G4). unfold opt_round. destruct (memb k (o_s st)) eqn:E; [|now repeat split; auto; apply G1]. apply memb_In in E.
  destruct (forallb (fun q => negb (memb q (o_s st))) (row_parents n B k)) eqn:Q; [|now repeat split; auto; apply G1]. rewrite forallb_forall in Q. destruct (G1 k E) as [Hk Nk].
  unfold good. cbn [o_s o_ex o_alpha]. split; [intros i Hi; apply filter_In in Hi; now apply G1|]. rewrite !vset_other by auto. split; [exact G2|]. split; [exact G3|].
  intros i c Hi Ni. destruct (Nat.eq_dec i k) as [->|N].
  - rewrite !vset_same. pose proof (propagated_solves n B order En x c F k Hk) as HS. fold (P c) in HS. rewrite HS. rewrite (proj2 (Nat.eqb_neq k x) Nk).
    rewrite rsum_filter_0 by (intros q _ Hq; apply negb_false_iff, Nat.eqb_eq in Hq; subst q; rewrite G2; lra).
    assert (K : rsum (fun q => B k q * P c q) (seq 0 n) = rsum (fun q => B k q * o_ex st q) (row_parents n B k) + c * rsum (fun q => B k q * o_alpha st q) (row_parents n B k)).
    { rewrite <- (rsum_filter_0 _ (fun q => nonzerob (B k q))).
      - change (filter (fun q => nonzerob (B k q)) (seq 0 n)) with (row_parents n B k). rewrite <- rsum_mult, <- rsum_plus. apply rsum_ext. intros q Hq. pose proof (Q q Hq) as NQ. apply negb_true_iff in NQ. apply in_row_parents in Hq.
        rewrite <- (G4 q c); [lra|tauto|]. intros I. apply memb_In in I. congruence.
      - intros j _ Z0. destruct (R0_dec (B k j)) as [->|Y]; [lra|]. apply nonzero_iff in Y. congruence. }
    rewrite K. lra.
  - rewrite !vset_other by exact N. apply G4; [exact Hi|]. intros I. apply Ni. apply filter_In. split; [exact I|]. apply negb_true_iff. now apply Nat.eqb_neq.
Qed.
Lemma good_run choices st : good st -> good (fold_left (opt_round n B (vset En x 0) x) choices st).
Proof. revert st. induction choices as [|k l IH]; intros st H; [exact H|]. cbn [fold_left]. now apply IH, good_round. Qed.
Lemma good_start : (forall i, (i < n)%nat -> rsum (B i) (seq 0 n) = 0 -> forall j, (j < n)%nat -> B i j = 0) ->
  good (mkO (filter (fun i => negb (root_var n B i)) (filter (fun i => negb (Nat.eqb i x)) (seq 0 n))) (vset Ex x 0) (vset (fun _ => 0) x 1)).
Proof.
  intros HC. unfold good. cbn [o_s o_ex o_alpha]. rewrite !vset_same. split; [|split; [reflexivity|split; [reflexivity|]]].
  - intros i Hi. apply filter_In in Hi. destruct Hi as [Hi _]. apply filter_In in Hi. destruct Hi as [Hi N]. apply negb_true_iff, Nat.eqb_neq in N. apply in_seq0 in Hi. auto.
  - intros i c Hi Ni. pose proof (propagated_solves n B order En x c F i Hi) as HS. fold (P c) in HS. destruct (Nat.eq_dec i x) as [->|N].
    + rewrite !vset_same, HS, Nat.eqb_refl. lra.
    + rewrite !vset_other by exact N. rewrite HS, (proj2 (Nat.eqb_neq i x) N). assert (RV : root_var n B i = true).
      { destruct (root_var n B i) eqn:E; [reflexivity|exfalso]. apply Ni. apply filter_In. split; [apply filter_In; split; [now apply in_seq0|now apply negb_true_iff, Nat.eqb_neq]|now rewrite E]. }
      unfold root_var in RV. destruct (Req_EM_T (rsum (B i) (seq 0 n)) 0) as [Q|]; [|discriminate]. pose proof (HC i Hi Q) as Z0.
      assert (ZZ : forall e, rsum (fun j => B i j * e j) (seq 0 n) = 0) by (intros e; rewrite (rsum_ext _ (fun _ => 0)); [apply rsum_0|intros j Hj; apply in_seq0 in Hj; rewrite Z0 by exact Hj; lra]).
      rewrite ZZ. unfold En, noise_means, rdot. rewrite ZZ. lra.
Qed.
(** As long as the loop runs, some choice makes progress. *)
Lemma progress st : good st -> o_s st <> [] -> exists k, In k (o_s st) /\ (length (o_s (opt_round n B (vset En x 0) x st k)) < length (o_s st))%nat.
Proof.
  intros (G1 & _) N. destruct (min_exists (LingamProofs.pos order) (o_s st) N) as (k & Hk & Hmin). exists k. split; [exact Hk|]. unfold opt_round. rewrite (proj2 (memb_In _ _) Hk).
  assert (Q : forallb (fun q => negb (memb q (o_s st))) (row_parents n B k) = true).
  { apply forallb_forall. intros q Hq. apply negb_true_iff. destruct (memb q (o_s st)) eqn:E; [|reflexivity]. apply memb_In in E. apply in_row_parents in Hq. destruct Hq as [Hq Nq].
    pose proof (follows_rank n B order F k q (proj1 (G1 k Hk)) Hq Nq). specialize (Hmin q E). lia. }
  rewrite Q. cbn [o_s]. clear - Hk. induction (o_s st) as [|a l IH]; [destruct Hk|]. cbn [filter]. destruct (Nat.eqb_spec a k) as [->|N]; cbn [negb length].
  - apply Nat.lt_succ_r. clear. induction l as [|b l IH]; cbn [filter length]; [lia|]. destruct (negb (Nat.eqb b k)); cbn [length]; lia.
  - destruct Hk as [->|Hk]; [contradiction|]. specialize (IH Hk). lia.
Qed.
Lemma some_schedule : forall m st, good st -> (length (o_s st) <= m)%nat -> exists choices, o_s (fold_left (opt_round n B (vset En x 0) x) choices st) = [].
Proof.
  induction m as [|m IH]; intros st G L.
  - exists []. cbn. destruct (o_s st); [reflexivity|cbn in L; lia].
  - destruct (o_s st) as [|a l] eqn:E; [exists []; exact E|]. destruct (progress st G) as (k & Hk & LT); [rewrite E; discriminate|].
    destruct (IH (opt_round n B (vset En x 0) x st k)) as (ch & H); [now apply good_round|rewrite E in LT; cbn [length] in LT, L; lia|]. exists (k :: ch). exact H.
Qed.
End Optimal.
