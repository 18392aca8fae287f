(** FCI: what the marks mean when the test is d-separation in a DAG with latent variables. *)
From Verif Require Import Base EdgeModel EdgeProofs GraphModel GraphSpec GraphProofs DsepSpec DsepProofs DsepTheory SkelModel SkelSpec SkelProofs SkelSep PCModel MeekProofs
  UtilsModel UtilsProofs FCIModel FCISpec FCIProofs FCIRules FCILoops FCIFront.
Local Open Scope Z_scope.

Section Collider.
Variable D : ggraph.
Hypothesis HD : dag D.
Lemma dconn_arrives x b T : dconnected D x b T -> exists u, arrives D x T u b.
Proof.
  intros (m & _ & HA). destruct (@exists_last _ (x :: m)) as (l & u & E); [discriminate|]. exists u, m. split; [exact HA|]. exists l. exact E.
Qed.
(** Joining two connections at b. *)
Lemma joined_walks a b c T : a <> c -> dconnected D a b T -> dconnected D b c T ->
  (forall u w, adjacent D u b -> adjacent D b w -> opens D T u b w) -> dconnected D a c T.
Proof.
  intros N (m1 & _ & A1) (m2 & _ & A2) HO.
  assert (W : active D T ((a :: m1) ++ b :: m2 ++ [c])).
  { apply (active_join D T (a :: m1) b (m2 ++ [c])); [exact A1|exact A2|]. intros l' u w r' E1 E2. apply HO.
    - destruct A1 as [A1 _]. apply (A1 l' u b []). change (a :: m1 ++ [b]) with ((a :: m1) ++ [b]). rewrite E1, <- app_assoc. reflexivity.
    - destruct A2 as [A2 _]. apply (A2 [] b w r'). now rewrite E2. }
  apply (walk_to_path D T (dag_asym D HD) (length (m1 ++ b :: m2)) (m1 ++ b :: m2) a c); auto.
  cbn [app] in W. rewrite <- app_assoc. exact W.
Qed.
(** An unshielded triple whose middle node is outside a separating set of its ends. *)
Lemma collider_not_ancestor a b c T : a <> c -> dconnected D a b T -> dconnected D b c T -> ~ dconnected D a c T -> ~ In b T ->
  ~ reach (dedge D) b a /\ ~ reach (dedge D) b c.
Proof.
  intros N C1 C2 S NB.
  assert (AW : away D T b).
  { destruct (away_dec D HD T b) as [H|(z & Hz & R)]; [exact H|]. exfalso. apply S. apply (joined_walks a b c T N C1 C2).
    intros u w Hu Hw. destruct (dedge_dec D u b) as [E1|E1], (dedge_dec D w b) as [E2|E2]; [left|right|right|right]; try tauto.
    split; [exact E1|]. split; [exact E2|]. exists z. auto. }
  split; intros R; apply S.
  - apply (dconnected_sym D). destruct (dconn_arrives c b T) as (u & Hu); [now apply dconnected_sym|]. apply (go_down D HD c a T (fun e => N (eq_sym e)) b R u Hu AW).
  - destruct (dconn_arrives a b T C1) as (u & Hu). apply (go_down D HD a c T N b R u Hu AW).
Qed.
End Collider.

Section Latent.
Variable n : nat.
Variable D : ggraph.
Variable ind : nat -> nat -> list nat -> bool.
Hypothesis HO : latent_oracle n D ind.
Lemma lo_dag : dag D. Proof. apply HO. Qed.
Lemma lo_ind x y T : (x < n)%nat -> (y < n)%nat -> x <> y -> conditioning n x y T -> ind x y T = true <-> ~ dconnected D x y T.
Proof. destruct HO as (_ & _ & H). auto. Qed.
Lemma latent_order_free : order_free n ind.
Proof.
  intros x y T T' Hx Hy N HC HP. assert (HC' : conditioning n x y T').
  { destruct HC as [C1 C2]. split; [eapply Permutation.Permutation_NoDup; eauto|]. intros z Hz. apply C2. eapply Permutation.Permutation_in; [apply Permutation.Permutation_sym; exact HP|exact Hz]. }
  assert (E : dconnected D x y T <-> dconnected D x y T').
  { assert (G : forall S1 S2, (forall z, In z S1 <-> In z S2) -> dconnected D x y S1 -> dconnected D x y S2).
    { intros S1 S2 E (m & H1 & H2 & H3). exists m. split; [exact H1|]. split; [exact H2|]. intros l a b c r Q. destruct (H3 l a b c r Q) as [(K1 & K2 & z & K3 & K4)|[K1 K2]].
      - left. split; [exact K1|]. split; [exact K2|]. exists z. split; [now apply E|exact K4].
      - right. split; [exact K1|]. now rewrite <- E. }
    split; apply G; intros z; split; apply Permutation.Permutation_in; auto using Permutation.Permutation_sym. }
  pose proof (lo_ind x y T Hx Hy N HC) as A. pose proof (lo_ind x y T' Hx Hy N HC') as B. destruct (ind x y T), (ind x y T'); auto.
  - symmetry. apply B. rewrite <- E. now apply A.
  - apply A. rewrite E. now apply B.
Qed.
Lemma latent_minimal x y T : (x < n)%nat -> (y < n)%nat -> x <> y -> minimal_separator n ind x y T ->
  forall z, In z T -> reach (dedge D) z x \/ reach (dedge D) z y.
Proof.
  intros Hx Hy N (HC & Hi & Hm) z Hz. pose proof lo_dag as HD.
  destruct (reach_dec D HD z x) as [R|R1]; [auto|]. destruct (reach_dec D HD z y) as [R|R2]; [auto|]. exfalso.
  set (f := fun v => if reach_dec D HD v x then true else if reach_dec D HD v y then true else false).
  assert (Hf : forall v, f v = true <-> reach (dedge D) v x \/ reach (dedge D) v y).
  { intros v. unfold f. destruct (reach_dec D HD v x), (reach_dec D HD v y); split; auto; try discriminate; tauto. }
  assert (F : ind x y (filter f T) = false).
  { apply Hm.
    - apply NoDup_filter, HC.
    - intros v Hv. apply filter_In in Hv. apply Hv.
    - apply filter_shorter with (x := z); [exact Hz|]. apply not_true_iff_false. rewrite Hf. tauto. }
  assert (CF : conditioning n x y (filter f T)).
  { destruct HC as [C1 C2]. split; [now apply NoDup_filter|]. intros v Hv. apply filter_In in Hv. now apply C2. }
  apply (lo_ind x y T Hx Hy N HC) in Hi. assert (ind x y (filter f T) = true); [|congruence]. apply lo_ind; auto.
  intros C. apply Hi. apply (restrict_to_ancestors D x y T (filter f T)); [|exact C]. intros v. rewrite filter_In, Hf. reflexivity.
Qed.
(** ** What a recorded set means *)
(** U contains a set that separates x and y, and consists of ancestors of x or y. *)
Definition good_set (x y : nat) (U : list nat) : Prop :=
  (exists T, incl T U /\ conditioning n x y T /\ ~ dconnected D x y T) /\ forall z, In z U -> reach (dedge D) z x \/ reach (dedge D) z y.
Lemma union_good x y Ts U : (x < n)%nat -> (y < n)%nat -> x <> y -> Ts <> [] -> union_of Ts U ->
  (forall T, In T Ts -> minimal_separator n ind x y T \/ minimal_separator n ind y x T) -> good_set x y U.
Proof.
  intros Hx Hy N Ne [U1 U2] HT. split.
  - destruct Ts as [|T Ts]; [congruence|]. exists T. split; [intros z Hz; apply U2; exists T; cbn; auto|].
    destruct (HT T (or_introl eq_refl)) as [(C & I & _)|(C & I & _)].
    + split; [exact C|]. now apply lo_ind in I.
    + split; [now apply cond_sym|]. apply lo_ind in I; auto. intros K. apply I. now apply dconnected_sym.
  - intros z Hz. apply U2 in Hz. destruct Hz as (T & K1 & K2). destruct (HT T K1) as [M|M].
    + now apply (latent_minimal x y T).
    + destruct (latent_minimal y x T Hy Hx (fun e => N (eq_sym e)) M z K2); auto.
Qed.
(** ** Soundness of marks *)
(** An arrow at y says y is not an ancestor of x, a tail that it is. *)
Definition sound (g : ggraph) : Prop := forall x y, (x < n)%nat -> (y < n)%nat ->
  (arrow_at g x y -> ~ reach (dedge D) y x) /\ (tail_at g x y -> reach (dedge D) y x).
(** Unshielded triples are marked as colliders, or their middle node is an ancestor of an end. *)
Definition triples_told (g : ggraph) : Prop := forall a b c, (a < n)%nat -> (b < n)%nat -> (c < n)%nat -> a <> c -> adj g a b -> adj g c b -> ~ adj g a c ->
  (arrow_at g a b /\ arrow_at g c b) \/ reach (dedge D) b a \/ reach (dedge D) b c.
Definition faithful (g : ggraph) : Prop := sound g /\ triples_told g.
Definition seps_good (g : ggraph) (sep : sepsets) : Prop := forall x y, (x < n)%nat -> (y < n)%nat -> x <> y -> ~ adj g x y -> exists U, sep x y = Some U /\ good_set x y U.
Definition adjacencies_right (g : ggraph) : Prop := forall x y, (x < n)%nat -> (y < n)%nat -> adj g x y -> inseparable n D x y.

(** A change of marks that keeps adjacencies, keeps arrows and is sound. *)
Lemma told_mono g g' : same_adj n g g' -> (forall x y, (x < n)%nat -> (y < n)%nat -> arrow_at g x y -> arrow_at g' x y) -> triples_told g -> triples_told g'.
Proof.
  intros SA HA H a b c Ha Hb Hc N J1 J2 J3. destruct (H a b c Ha Hb Hc N) as [[A1 A2]|K]; auto.
  - now apply SA.
  - now apply SA.
  - intros J. apply J3. now apply SA.
Qed.
Lemma fills_arrows g g' : only_fills n g g' -> forall x y, (x < n)%nat -> (y < n)%nat -> arrow_at g x y -> arrow_at g' x y.
Proof. intros F x y Hx Hy A. destruct (F x y Hx Hy) as [K _]. unfold arrow_at, circle_at in *. rewrite K; lia. Qed.
Lemma acyc a b : a <> b -> reach (dedge D) a b -> ~ reach (dedge D) b a.
Proof.
  intros N R1 R2. pose proof lo_dag as (_ & AC & _). destruct R1 as [u|u v w E R1]; [congruence|]. apply (AC u). exists v. split; [exact E|]. eapply reach_trans; eauto.
Qed.
(** Rule 0 *)
Lemma rule0_sound (sep : sepsets) g gk gc : mixed n g -> mixed n gk -> mixed n gc -> adjacencies_right g -> seps_good g sep -> same_adj n g gk ->
  (forall i j, (i < n)%nat -> (j < n)%nat -> gm gk i j = 0 \/ gm gk i j = 2) -> r0_rel sep n gk gk gc ->
  (forall a b c, (b < n)%nat -> collider_reason sep n gk a b c -> arrow_at gc a b) -> faithful gc.
Proof.
  intros HM Mk Mc HR HS SA HC [RF RR] ALL.
  assert (SC : same_adj n gk gc) by (eapply same_adj_fills; [|exact RF]; intros ? ? _ _; reflexivity).
  assert (AD : forall x y, (x < n)%nat -> (y < n)%nat -> adj gc x y <-> adj g x y) by (intros x y Hx Hy; rewrite (SC x y Hx Hy); now apply SA).
  split.
  - intros x y Hx Hy. split.
    + intros A. unfold arrow_at in A. destruct (RR x y Hx Hy) as [E|(_ & _ & c & Hr)]; [destruct (HC y x Hy Hx); lia|].
      destruct Hr as (_ & Hc & N & J1 & J2 & J3 & s & ES & Hs).
      assert (Ja : adj g x y) by now apply (SA x y). assert (Jc : adj g c y) by now apply (SA c y). assert (Jn : ~ adj g x c) by (intros J; apply J3; now apply (SA x c)).
      assert (Jn' : ~ adj g c x) by (intros J; apply Jn; intros Q; apply J; unfold adj in *; now apply (mx_zero n g HM)).
      assert (G : exists T, incl T s /\ conditioning n x c T /\ ~ dconnected D x c T).
      { destruct (Nat.lt_ge_cases x c) as [L|L].
        - rewrite Nat.min_l, Nat.max_r in ES by lia. destruct (HS x c Hx Hc N Jn) as (U & EU & (G & _)). assert (U = s) by congruence. now subst.
        - rewrite Nat.min_r, Nat.max_l in ES by lia. destruct (HS c x Hc Hx (fun e => N (eq_sym e)) Jn') as (U & EU & ((T & G1 & G2 & G3) & _)). assert (U = s) by congruence. subst.
          exists T. split; [exact G1|]. split; [now apply cond_sym|]. intros K. apply G3. now apply dconnected_sym. }
      destruct G as (T & G1 & G2 & G3).
      assert (NY : ~ In y T) by (intros Hy'; apply Hs; auto).
      assert (Nx : x <> y) by (intros ->; apply Ja; now apply (mx_diag n g HM)). assert (Ncy : c <> y) by (intros ->; apply Jc; now apply (mx_diag n g HM)).
      destruct G2 as [G2 G2']. refine (proj1 (collider_not_ancestor D lo_dag x y c T N _ _ G3 NY)).
      * apply (HR x y Hx Hy Ja). split; [exact G2|]. intros z Hz. destruct (G2' z Hz) as (? & ? & ?). split; [assumption|]. split; [assumption|]. intros ->. contradiction.
      * apply dconnected_sym. apply (HR c y Hc Hy Jc). split; [exact G2|]. intros z Hz. destruct (G2' z Hz) as (? & ? & ?). split; [assumption|]. split; [assumption|]. intros ->. contradiction.
    + intros T. unfold tail_at in T. destruct (RR x y Hx Hy) as [E|(E & _)]; [destruct (HC y x Hy Hx); lia|lia].
  - intros a b c Ha Hb Hc N J1 J2 J3.
    assert (Jn : ~ adj g a c) by (intros J; apply J3; now apply AD).
    assert (Jn' : ~ adj g c a) by (intros J; apply Jn; intros Q; apply J; unfold adj in *; now apply (mx_zero n g HM)).
    assert (KR : forall s, sep (Nat.min a c) (Nat.max a c) = Some s -> ~ In b s -> arrow_at gc a b /\ arrow_at gc c b).
    { intros s ES Hs. assert (R : collider_reason sep n gk a b c).
      { unfold collider_reason. do 3 (split; [assumption|]). split; [now apply (SC a b)|]. split; [now apply (SC c b)|]. split; [intros J; apply J3; now apply (SC a c)|]. eauto. }
      split; [eapply ALL; eauto|]. eapply ALL; [exact Hb|]. apply reason_sym; [exact Mk|exact R]. }
    destruct (Nat.lt_ge_cases a c) as [L|L].
    + rewrite Nat.min_l, Nat.max_r in KR by lia. destruct (HS a c Ha Hc N Jn) as (U & EU & (_ & G)). destruct (in_dec Nat.eq_dec b U) as [I|I]; [right; now apply G|left; eauto].
    + rewrite Nat.min_r, Nat.max_l in KR by lia. destruct (HS c a Hc Ha (fun e => N (eq_sym e)) Jn') as (U & EU & (_ & G)). destruct (in_dec Nat.eq_dec b U) as [I|I]; [destruct (G b I); auto|left; eauto].
Qed.
(** ** The rules *)
(** The other end of an edge with a tail has an arrow. *)
Definition tailed (g : ggraph) : Prop := forall x y, (x < n)%nat -> (y < n)%nat -> tail_at g x y -> arrow_at g y x.
Definition keep (g0 g : ggraph) : Prop := mixed n g /\ same_adj n g0 g /\ (faithful g /\ tailed g).
(** A mark that is kept, or replaces a circle and is sound (the mark at x on the edge x - y). *)
Definition sound_mark (old new : Z) (x y : nat) : Prop :=
  new = old \/ (old = 2 /\ ((new = 1 /\ ~ reach (dedge D) x y) \/ (new = -1 /\ reach (dedge D) x y))).
Lemma mark_keep g0 g g' x y u v : keep g0 g -> (x < n)%nat -> (y < n)%nat -> x <> y -> mixed n g' -> marked g g' x y u v ->
  sound_mark (gm g x y) u x y -> sound_mark (gm g y x) v y x -> (u = -1 -> v = 1) -> (v = -1 -> u = 1) -> keep g0 g'.
Proof.
  intros (HM & SA & (HS & HT) & TL) Hx Hy N M' MK S1 S2 T1 T2.
  assert (F : only_fills n g g') by (apply (marked_fills n g g' x y u v HM Hx Hy N MK); unfold sound_mark in *; [destruct S1 as [E|(E & [[E2 _]|[E2 _]])]|destruct S2 as [E|(E & [[E2 _]|[E2 _]])]]; auto; right; auto).
  split; [exact M'|]. split; [eapply same_adj_fills; eauto|]. split; [split|].
  - intros a b Ha Hb. destruct MK as (E1 & E2 & FR). unfold arrow_at, tail_at. destruct (HS a b Ha Hb) as [K1 K2]. unfold arrow_at, tail_at in K1, K2.
    assert (C : (b = x /\ a = y) \/ (b = y /\ a = x) \/ (~ (b = x /\ a = y) /\ ~ (b = y /\ a = x))) by lia.
    destruct C as [[-> ->]|[[-> ->]|[C1 C2]]].
    + rewrite E1. destruct S1 as [E|(E & [[E3 E4]|[E3 E4]])]; [rewrite E; auto| |]; (split; intros Q; [|]); try assumption; lia.
    + rewrite E2. destruct S2 as [E|(E & [[E3 E4]|[E3 E4]])]; [rewrite E; auto| |]; (split; intros Q; [|]); try assumption; lia.
    + rewrite FR by assumption. auto.
  - apply (told_mono g g'); [eapply same_adj_fills; [intros ? ? _ _; reflexivity|exact F]|now apply fills_arrows|exact HT].
  - intros a b Ha Hb. destruct MK as (E1 & E2 & FR). unfold arrow_at, tail_at.
    assert (C : (b = x /\ a = y) \/ (b = y /\ a = x) \/ (~ (b = x /\ a = y) /\ ~ (b = y /\ a = x))) by lia.
    destruct C as [[-> ->]|[[-> ->]|[C1 C2]]]; [rewrite E1, E2; exact T1|rewrite E1, E2; exact T2|]. rewrite !FR by tauto. apply TL; auto.
Qed.
Lemma ret_inj {A} (o : outcome A) x y : o = Ret x -> o = Ret y -> x = y.
Proof. congruence. Qed.
Lemma R1_keep forb g0 a b c s s' : keep g0 (fst s) -> (a < n)%nat -> (b < n)%nat -> (c < n)%nat -> a <> c -> adj (fst s) a b -> adj (fst s) c b ->
  ruleR1 forb a b c s = Ret s' -> keep g0 (fst s').
Proof.
  intros K Ha Hb Hc N J1 J2 E. pose proof K as (HM & SA & (HS & HT) & TL). unfold ruleR1 in E. destruct (is_adjacent_to (fst s) a c) eqn:NA; [injection E as <-; exact K|].
  destruct (_ && _) eqn:G; [|injection E as <-; exact K]. apply andb_true_iff in G. destruct G as [G G3]. apply andb_true_iff in G. destruct G as [G1 G2].
  apply (epis_iff n _ HM) in G1; [|apply mkA|exact Ha|exact Hb]. apply (epis_iff n _ HM) in G2; [|apply mkC|exact Hc|exact Hb]. cbn [ev] in G1, G2.
  apply (allowed_iff n _ HM) in G3; auto. apply adj_no in NA.
  assert (Ncb : gm (fst s) c b <> 0) by (intros Q; apply (mx_zero n _ HM) in Q; auto; lia). pose proof (mx_neq n _ HM c b Hc Ncb) as Nq.
  assert (R : reach (dedge D) b c).
  { destruct (HT a b c Ha Hb Hc N) as [[_ A2]|[R|R]]; auto.
    - unfold arrow_at in A2. lia.
    - exfalso. apply (proj1 (HS a b Ha Hb)) in R; [exact R|exact G1]. }
  destruct (reedge_const n _ HM c b ARROW TAIL Hc Hb Ncb st_AT) as (g' & Eg & M' & MK). rewrite Eg in E. injection E as <-. cbn [fst]. cbn [ev] in MK.
  apply (mark_keep g0 (fst s) g' c b 1 (-1) K Hc Hb Nq M' MK).
  - destruct G3 as [G3|[G3 _]]; [left; congruence|]. right. split; [exact G3|]. left. split; [reflexivity|]. apply acyc; auto.
  - right. split; [exact G2|]. right. auto.
  - discriminate.
  - reflexivity.
Qed.
Lemma R2_keep forb g0 a b c s s' : keep g0 (fst s) -> (a < n)%nat -> (b < n)%nat -> (c < n)%nat ->
  ruleR2 forb a b c s = Ret s' -> keep g0 (fst s').
Proof.
  intros K Ha Hb Hc E. pose proof K as (HM & SA & (HS & HT) & TL). unfold ruleR2 in E.
  destruct (is_adjacent_to (fst s) a c && epis (fst s) a c CIRCLE && epis (fst s) a b ARROW && epis (fst s) b c ARROW && (epis (fst s) b a TAIL || epis (fst s) c b TAIL) && allowed forb (fst s) a c) eqn:G; [|injection E as <-; exact K].
  apply andb_true_iff in G. destruct G as [G _]. apply andb_true_iff in G. destruct G as [G G5]. apply andb_true_iff in G. destruct G as [G G4]. apply andb_true_iff in G. destruct G as [G G3].
  apply andb_true_iff in G. destruct G as [_ G2]. apply orb_true_iff in G5.
  apply (epis_iff n _ HM) in G2; [|apply mkC|exact Ha|exact Hc]. apply (epis_iff n _ HM) in G3; [|apply mkA|exact Ha|exact Hb]. apply (epis_iff n _ HM) in G4; [|apply mkA|exact Hb|exact Hc]. cbn [ev] in *.
  rewrite (epis_iff n _ HM b a TAIL mkT Hb Ha), (epis_iff n _ HM c b TAIL mkT Hc Hb) in G5. cbn [ev] in G5.
  assert (Nac : gm (fst s) a c <> 0) by (intros Q; apply (mx_zero n _ HM) in Q; auto; lia). pose proof (mx_neq n _ HM a c Ha Nac) as Nq.
  destruct (reedge_left n _ HM a c ARROW Ha Hc Nac mkA) as (g' & Eg & M' & MK); [intros []; discriminate|]. rewrite Eg in E. injection E as <-. cbn [fst]. cbn [ev] in MK.
  apply (mark_keep g0 (fst s) g' a c (gm (fst s) a c) 1 K Ha Hc Nq M' MK); [now left| |reflexivity|discriminate]. right. split; [exact G2|]. left. split; [reflexivity|].
  intros R. pose proof (proj1 (HS a b Ha Hb) G3) as A1. pose proof (proj1 (HS b c Hb Hc) G4) as A2. destruct G5 as [T|T].
  - apply A2. apply (proj2 (HS b a Hb Ha)) in T. eapply reach_trans; eauto.
  - apply A1. apply (proj2 (HS c b Hc Hb)) in T. eapply reach_trans; eauto.
Qed.
Lemma keep_adj g0 g x y : keep g0 g -> (x < n)%nat -> (y < n)%nat -> adj g x y <-> adj g0 x y.
Proof. intros (_ & SA & _) Hx Hy. now apply SA. Qed.
Lemma upairs_neq l a c : NoDup l -> In (a, c) (upairs l) -> a <> c.
Proof.
  induction 1 as [|x l Nx HN IH]; cbn [upairs]; [easy|]. intros H. apply in_app_or in H. destruct H as [H|H]; [|auto].
  apply in_map_iff in H. destruct H as (y & [= <- <-] & Hy). intros ->. contradiction.
Qed.
Lemma adjn_NoDup g v : NoDup (get_adjacent_nodes g v).
Proof. unfold get_adjacent_nodes. apply NoDup_filter, seq_NoDup. Qed.
Lemma into_NoDup g v p : NoDup (get_nodes_into g v p).
Proof. unfold get_nodes_into. apply NoDup_filter, seq_NoDup. Qed.
Lemma R12_keep forb g0 s s' : keep g0 (fst s) -> rulesR1R2 forb s = Ret s' -> keep g0 (fst s').
Proof.
  intros K E. unfold rulesR1R2 in E. revert E. rewrite (mx_n _ _ (proj1 K)). apply (foldO_keep _ (fun s => keep g0 (fst s))); [exact K|]. clear s s' K.
  intros s1 b s2 Hb K. apply in_seq0 in Hb. pose proof K as (HM & _).
  assert (HP : forall a c, In (a, c) (upairs (get_adjacent_nodes (fst s1) b)) -> (a < n)%nat /\ (c < n)%nat /\ a <> c /\ adj g0 a b /\ adj g0 c b).
  { intros a c H. pose proof (upairs_neq _ _ _ (adjn_NoDup _ _) H) as N. apply in_upairs in H. rewrite !(in_adjn n _ HM) in H by assumption. destruct H as [[Ha J1] [Hc J2]].
    do 3 (split; [assumption|]). split; apply (keep_adj g0 (fst s1)); auto. }
  revert HP. generalize (upairs (get_adjacent_nodes (fst s1) b)) as l. intros l HP. apply (foldO_keep _ (fun s => keep g0 (fst s))); [exact K|].
  intros s3 (a, c) s4 Hac K3 E. destruct (HP a c Hac) as (Ha & Hc & N & J1 & J2). unfold r12_step in E.
  assert (OB : forall A B (o : outcome A) (k : A -> outcome B) r, obind o k = Ret r -> exists a, o = Ret a /\ k a = Ret r) by (intros A B [x| |] k r H; cbn in H; try discriminate; eauto).
  apply OB in E. destruct E as (s5 & E5 & E). assert (K5 : keep g0 (fst s5)) by (refine (R1_keep _ g0 a b c s3 s5 K3 Ha Hb Hc N _ _ E5); apply (keep_adj g0 (fst s3)); auto).
  apply OB in E. destruct E as (s6 & E6 & E). assert (K6 : keep g0 (fst s6)) by (refine (R1_keep _ g0 c b a s5 s6 K5 Hc Hb Ha (fun e => N (eq_sym e)) _ _ E6); apply (keep_adj g0 (fst s5)); auto).
  apply OB in E. destruct E as (s7 & E7 & E). pose proof (R2_keep _ g0 a b c s6 s7 K6 Ha Hb Hc E7) as K7. exact (R2_keep _ g0 c b a s7 s4 K7 Hc Hb Ha E).
Qed.
Lemma R3_keep forb sep g0 s s' : seps_good g0 sep -> keep g0 (fst s) -> ruleR3 forb sep s = Ret s' -> keep g0 (fst s').
Proof.
  intros SG K E. unfold ruleR3 in E. revert E. rewrite (mx_n _ _ (proj1 K)). apply (foldO_keep _ (fun s => keep g0 (fst s))); [exact K|]. clear s s' K.
  intros s0 b s0' Hb K0. apply in_seq0 in Hb. cbn zeta. pose proof K0 as (M0 & _).
  assert (HA : forall x, In x (get_nodes_into (fst s0) b ARROW) -> (x < n)%nat /\ ~ reach (dedge D) b x).
  { intros x H. apply (in_into n _ M0) in H; [|apply mkA|exact Hb]. destruct H as [Hx Ex]. split; [exact Hx|]. destruct K0 as (_ & _ & (HS & _) & _). apply (proj1 (HS x b Hx Hb)). exact Ex. }
  assert (HC : forall x, In x (get_nodes_into (fst s0) b CIRCLE) -> (x < n)%nat) by (intros x H; apply (in_into n _ M0) in H; [tauto|apply mkC|exact Hb]).
  assert (HU : forall a c, In (a, c) (upairs (get_nodes_into (fst s0) b ARROW)) -> (a < n)%nat /\ (c < n)%nat /\ a <> c /\ ~ reach (dedge D) b a /\ ~ reach (dedge D) b c).
  { intros a c H. pose proof (upairs_neq _ _ _ (into_NoDup _ _ _) H) as N. apply in_upairs in H. destruct H as [H1 H2]. destruct (HA a H1), (HA c H2). auto. }
  revert HC HU. generalize (upairs (get_nodes_into (fst s0) b ARROW)) as ps. generalize (get_nodes_into (fst s0) b CIRCLE) as cs. intros cs ps HC HU.
  apply (foldO_keep _ (fun s => keep g0 (fst s))); [exact K0|]. intros s1 d s2 Hd K1. apply HC in Hd. apply (foldO_keep _ (fun s => keep g0 (fst s))); [exact K1|].
  intros s3 (a, c) s4 Hac K3 E. destruct (HU a c Hac) as (Ha & Hc & N & R1 & R2). pose proof K3 as (HM & SA & (HS & HT) & TL). unfold r3_step in E. cbn zeta in E.
  destruct (is_adjacent_to (fst s3) a c) eqn:NA; [injection E as <-; exact K3|]. destruct (negb _ || negb _); [injection E as <-; exact K3|].
  destruct (is_noncollider sep a d c) eqn:G1; [|injection E as <-; exact K3]. destruct (epis (fst s3) a d CIRCLE); [|injection E as <-; exact K3]. destruct (epis (fst s3) c d CIRCLE); [|injection E as <-; exact K3].
  destruct (allowed forb (fst s3) d b) eqn:G4; [|injection E as <-; exact K3]. cbn [andb] in E.
  apply (allowed_iff n _ HM) in G4; auto. assert (N' : gm (fst s3) b d <> 0) by lia. assert (Ndb : gm (fst s3) d b <> 0) by (intros Q; apply (mx_zero n _ HM) in Q; auto).
  pose proof (mx_neq n _ HM d b Hd Ndb) as Nq. destruct (reedge_left n _ HM d b ARROW Hd Hb Ndb mkA) as (g' & Eg & M' & MK); [intros []; discriminate|]. rewrite Eg in E. injection E as <-. cbn [fst]. cbn [ev] in MK.
  apply (mark_keep g0 (fst s3) g' d b (gm (fst s3) d b) 1 K3 Hd Hb Nq M' MK); [now left| |reflexivity|discriminate]. destruct G4 as [G4|[G4 _]]; [left; congruence|]. right. split; [exact G4|]. left. split; [reflexivity|].
  intros R. unfold is_noncollider in G1. destruct (SG a c Ha Hc N) as (U & EU & (_ & GU)).
  - intros J. apply adj_no in NA. apply (proj2 (keep_adj g0 (fst s3) a c K3 Ha Hc)) in J. contradiction.
  - rewrite EU in G1. apply memb_In in G1. destruct (GU d G1) as [Q|Q]; [apply R1|apply R2]; eapply reach_trans; eauto.
Qed.
(** Setting a --> c where a o-> c stood and a is an ancestor of c. *)
Lemma point_keep g0 g a c s' : keep g0 g -> (a < n)%nat -> (c < n)%nat -> gm g a c = 2 -> gm g c a = 1 -> reach (dedge D) a c ->
  changed (reedge g a c (mk TAIL) (mk ARROW)) = Ret s' -> keep g0 (fst s').
Proof.
  intros K Ha Hc E1 E2 R E. pose proof K as (HM & _). assert (N : gm g a c <> 0) by lia.
  destruct (reedge_const n _ HM a c TAIL ARROW Ha Hc N st_TA) as (g' & Eg & M' & MK). rewrite Eg in E. injection E as <-. cbn [fst]. cbn [ev] in MK.
  apply (mark_keep g0 g g' a c (-1) 1 K Ha Hc (mx_neq n _ HM a c Ha N) M' MK); [right; auto|now left|reflexivity|discriminate].
Qed.
Lemma R8_keep g0 s s' : keep g0 (fst s) -> rule8 s = Ret s' -> keep g0 (fst s').
Proof.
  intros K E. unfold rule8 in E. revert E. rewrite (mx_n _ _ (proj1 K)). apply (foldO_keep _ (fun s => keep g0 (fst s))); [exact K|]. clear s s' K.
  intros s1 b s2 Hb K. apply in_seq0 in Hb. pose proof K as (HM & _).
  assert (HP : forall a c, In (a, c) (upairs (get_adjacent_nodes (fst s1) b)) -> (a < n)%nat /\ (c < n)%nat).
  { intros a c H. apply in_upairs in H. rewrite !(in_adjn n _ HM) in H by assumption. tauto. }
  revert HP. generalize (upairs (get_adjacent_nodes (fst s1) b)) as l. intros l HP. apply (foldO_keep _ (fun s => keep g0 (fst s))); [exact K|].
  intros s3 (a, c) s4 Hac K3 E. destruct (HP a c Hac) as (Ha & Hc). unfold r8_step in E. cbn zeta in E.
  destruct (_ || _) eqn:G; [|injection E as <-; exact K3]. pose proof K3 as (M3 & _ & (HS & _) & _).
  assert (Q : gm (fst s3) a b = -1 /\ gm (fst s3) b c = -1 /\ gm (fst s3) c a = 1 /\ gm (fst s3) a c = 2).
  { apply orb_true_iff in G. destruct G; bools; rewrite (epis_iff n _ M3) in * by auto with fci; cbn [ev] in *; auto. }
  destruct Q as (Q1 & Q2 & Q3 & Q4). apply (point_keep g0 (fst s3) a c s4 K3 Ha Hc Q4 Q3); [|exact E].
  eapply reach_trans; [apply (proj2 (HS b a Hb Ha)); exact Q1|apply (proj2 (HS c b Hc Hb)); exact Q2].
Qed.
End Latent.
