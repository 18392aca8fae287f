(** Proofs about the IAMB model. *)
From Verif Require Import Base EdgeModel GraphModel GraphSpec GraphProofs UtilsModel UtilsProofs DsepSpec DsepProofs DsepTheory MBModel MBSpec.
From Coq Require Import Permutation.

Section General.
Variable pv : nat -> nat -> list nat -> Z.
Variable alpha : Z.
Variable d t : nat.

Lemma in_candidates mb x : In x (candidates d t mb) <-> x < d /\ x <> t /\ ~ In x mb.
Proof.
  unfold candidates. rewrite filter_In, in_seq, andb_true_iff, !negb_true_iff, Nat.eqb_neq.
  split; intros H.
  - destruct H as [H1 [H2 H3]]. split; [lia|]. split; [exact H2|]. intros K. apply memb_In in K. congruence.
  - destruct H as [H1 [H2 H3]]. split; [lia|]. split; [exact H2|].
    destruct (memb x mb) eqn:E; [|reflexivity]. apply memb_In in E. contradiction.
Qed.

(** the selected variable: dependent given mb, with the smallest p-value *)
Lemma best_fold mb l : forall b,
  match fold_left (best_step pv alpha t mb) l b with
  | None => b = None /\ forall x, In x l -> (alpha < pv t x mb)%Z
  | Some (p, y) => (b = Some (p, y) \/ (In y l /\ p = pv t y mb /\ (p <= alpha)%Z)) /\
      (forall x, In x l -> (pv t x mb <= alpha)%Z -> (p <= pv t x mb)%Z) /\ (forall q z, b = Some (q, z) -> (p <= q)%Z)
  end.
Proof.
  induction l as [|a l IH]; intros b; cbn [fold_left].
  - destruct b as [[p y]|]; [split; [auto|split]; [intros x []|intros q z K; injection K as -> ->; lia]|split; [reflexivity|intros x []]].
  - specialize (IH (best_step pv alpha t mb b a)).
    destruct (fold_left (best_step pv alpha t mb) l (best_step pv alpha t mb b a)) as [[p y]|].
    + destruct IH as [I1 [I2 I3]]. unfold best_step in I1, I3. destruct (Z.leb_spec (pv t a mb) alpha) as [La|La].
      * destruct b as [[m z]|].
        -- destruct (Z.ltb_spec (pv t a mb) m) as [Lm|Lm].
           ++ specialize (I3 _ _ eq_refl). split; [|split].
              ** destruct I1 as [I1|I1]; [injection I1 as <- <-; right; split; [left; reflexivity|split; [reflexivity|exact La]]|right; destruct I1; split; [right; assumption|assumption]].
              ** intros x [<-|Hx] Lx; [exact I3|apply I2; assumption].
              ** intros q z' K. injection K as -> ->. lia.
           ++ specialize (I3 _ _ eq_refl). split; [|split].
              ** destruct I1 as [I1|I1]; [left; exact I1|right; destruct I1; split; [right; assumption|assumption]].
              ** intros x [<-|Hx] Lx; [lia|apply I2; assumption].
              ** intros q z' K. injection K as -> ->. lia.
        -- specialize (I3 _ _ eq_refl). split; [|split].
           ++ destruct I1 as [I1|I1]; [injection I1 as <- <-; right; split; [left; reflexivity|split; [reflexivity|exact La]]|right; destruct I1; split; [right; assumption|assumption]].
           ++ intros x [<-|Hx] Lx; [exact I3|apply I2; assumption].
           ++ intros q z K. discriminate.
      * split; [|split].
        -- destruct I1 as [I1|I1]; [left; exact I1|right; destruct I1; split; [right; assumption|assumption]].
        -- intros x [<-|Hx] Lx; [lia|apply I2; assumption].
        -- exact I3.
    + destruct IH as [I1 I2]. unfold best_step in I1. destruct (Z.leb_spec (pv t a mb) alpha) as [La|La].
      * destruct b as [[m z]|]; [destruct (pv t a mb <? m)%Z|]; discriminate.
      * split; [exact I1|]. intros x [<-|Hx]; [exact La|apply I2, Hx].
Qed.

Lemma best_none mb : best_candidate pv alpha d t mb = None <-> forall x, x < d -> x <> t -> ~ In x mb -> (alpha < pv t x mb)%Z.
Proof.
  unfold best_candidate. pose proof (best_fold mb (candidates d t mb) None) as H.
  destruct (fold_left _ _ None) as [[p y]|]; split; intros K.
  - discriminate.
  - destruct H as [[H|[H1 [H2 H3]]] _]; [discriminate|]. apply in_candidates in H1. destruct H1 as [A [B C]].
    specialize (K y A B C). lia.
  - intros x A B C. apply (proj2 H), in_candidates. auto.
  - reflexivity.
Qed.

Lemma best_some mb y : best_candidate pv alpha d t mb = Some y -> y < d /\ y <> t /\ ~ In y mb /\ (pv t y mb <= alpha)%Z /\
  forall x, x < d -> x <> t -> ~ In x mb -> (pv t y mb <= pv t x mb)%Z.
Proof.
  unfold best_candidate. pose proof (best_fold mb (candidates d t mb) None) as H.
  destruct (fold_left _ _ None) as [[p z]|]; [|discriminate]. intros K. injection K as ->.
  destruct H as [[H|[H1 [H2 H3]]] [H4 _]]; [discriminate|]. apply in_candidates in H1. destruct H1 as [A [B C]].
  rewrite <- H2. repeat split; auto. intros x X1 X2 X3. destruct (Z.leb_spec (pv t x mb) alpha) as [L|L]; [|lia].
  apply H4; [apply in_candidates; auto|exact L].
Qed.

(** lists of distinct variables other than the target *)
Definition good_list (mb : list nat) : Prop := NoDup mb /\ (forall x, In x mb -> x < d /\ x <> t).

Lemma good_length mb : t < d -> good_list mb -> length mb < d.
Proof.
  intros Ht [N B]. assert (L : length (t :: mb) <= length (seq 0 d)).
  { apply NoDup_incl_length; [constructor; [intros K; apply B in K; tauto|exact N]|].
    intros x [<-|Hx]; apply in_seq; [lia|apply B in Hx; lia]. }
  rewrite seq_length in L. cbn in L. lia.
Qed.

Lemma good_snoc mb y : good_list mb -> y < d -> y <> t -> ~ In y mb -> good_list (mb ++ [y]).
Proof.
  intros [N B] H1 H2 H3. split.
  - apply (Permutation_NoDup (l := y :: mb)); [apply Permutation_cons_append|constructor; assumption].
  - intros x Hx. apply in_app_or in Hx. destruct Hx as [Hx|[<-|[]]]; [apply B, Hx|auto].
Qed.

Lemma candidates_length mb : t < d -> good_list mb -> length (candidates d t mb) + length mb + 1 = d.
Proof.
  intros Ht [N B].
  assert (P : Permutation (candidates d t mb ++ t :: mb) (seq 0 d)).
  { apply NoDup_Permutation.
    - assert (NoDup (candidates d t mb)) as N1 by (apply NoDup_filter, seq_NoDup).
      assert (NoDup (t :: mb)) as N2 by (constructor; [intros K; apply B in K; tauto|exact N]).
      assert (D : forall x, In x (candidates d t mb) -> ~ In x (t :: mb)).
      { intros x Hx. apply in_candidates in Hx. intros [<-|K]; tauto. }
      revert N1 D. generalize (candidates d t mb) as l. induction l as [|a l IH]; intros N1 D; [exact N2|].
      inversion N1; subst. cbn. constructor.
      + intros K. apply in_app_or in K. destruct K as [K|K]; [contradiction|apply (D a); [left; reflexivity|exact K]].
      + apply IH; [assumption|intros x Hx; apply D; right; exact Hx].
    - apply seq_NoDup.
    - intros x. split; intros H.
      + apply in_app_or in H. destruct H as [H|[<-|H]]; apply in_seq; [apply in_candidates in H; lia|lia|apply B in H; lia].
      + apply in_seq in H. apply in_or_app. destruct (Nat.eq_dec x t) as [->|X]; [right; left; reflexivity|].
        destruct (in_dec Nat.eq_dec x mb) as [I|I]; [right; right; exact I|left; apply in_candidates; lia || (split; [lia|auto])]. }
  apply Permutation_length in P. rewrite app_length, seq_length in P. cbn in P. lia.
Qed.

(** the forward loop *)
Lemma forward_spec fuel : forall mb num, t < d -> good_list mb -> d - length mb <= fuel ->
  exists mb' num', forward pv alpha d fuel t mb num = Ret (mb', num') /\ good_list mb' /\ (exists r, mb' = mb ++ r) /\
    (forall x, x < d -> x <> t -> ~ In x mb' -> (alpha < pv t x mb')%Z) /\
    (forall l y r, mb' = l ++ y :: r -> length mb <= length l -> (pv t y l <= alpha)%Z /\
       forall x, x < d -> x <> t -> ~ In x l -> (pv t y l <= pv t x l)%Z) /\
    num' = num + list_sum (map (fun j => d - 1 - j) (seq (length mb) (length mb' - length mb + 1))).
Proof.
  induction fuel as [|k IH]; intros mb num Ht G F.
  { pose proof (good_length mb Ht G). lia. }
  cbn [forward]. pose proof (good_length mb Ht G) as L0. pose proof (candidates_length mb Ht G) as Lc.
  destruct (best_candidate pv alpha d t mb) as [y|] eqn:E.
  - destruct (best_some _ _ E) as [Y1 [Y2 [Y3 [Y4 Y5]]]].
    assert (G' := good_snoc mb y G Y1 Y2 Y3).
    assert (L' : length (mb ++ [y]) = S (length mb)) by (rewrite app_length; cbn; lia).
    destruct (IH (mb ++ [y]) (num + length (candidates d t mb)) Ht G') as [mb' [num' [R [Gm [[r Er] [I1 [I2 I3]]]]]]]; [lia|].
    exists mb', num'. split; [exact R|]. split; [exact Gm|]. split; [exists (y :: r); rewrite Er, <- app_assoc; reflexivity|].
    split; [exact I1|]. split.
    + intros l z r' Hl Le. destruct (Nat.eq_dec (length l) (length mb)) as [Q|Q].
      * assert (l = mb /\ z = y) as [-> ->].
        { rewrite Er, <- app_assoc in Hl. cbn in Hl.
          assert (HH : forall (u v a b : list nat), length u = length v -> u ++ a = v ++ b -> u = v /\ a = b).
          { clear. induction u as [|p u IH]; intros [|q v] a b Hl He; try discriminate; [split; [reflexivity|exact He]|].
            cbn in He. injection He as -> He. injection Hl as Hl. destruct (IH v a b Hl He) as [-> ->]. split; reflexivity. }
          destruct (HH mb l (y :: r) (z :: r') (eq_sym Q) Hl) as [-> K]. injection K as -> _. split; reflexivity. }
        split; [exact Y4|exact Y5].
      * apply I2 with r'; [exact Hl|lia].
    + rewrite I3, L'. assert (Le : length (mb ++ [y]) <= length mb') by (rewrite Er, (app_length (mb ++ [y]) r); lia). rewrite L' in Le.
      replace (length mb' - length mb + 1) with (S (length mb' - S (length mb) + 1)) by lia. cbn [seq map list_sum fold_right].
      change (fold_right Init.Nat.add 0) with list_sum. lia.
  - assert (N := proj1 (best_none mb) E). exists mb, (num + length (candidates d t mb)).
    split; [reflexivity|]. split; [exact G|]. split; [exists []; rewrite app_nil_r; reflexivity|].
    split; [exact N|]. split.
    + intros l y r Hl Le. rewrite Hl, app_length in Le. cbn in Le. lia.
    + rewrite Nat.sub_diag. cbn. lia.
Qed.
End General.

Lemma list_remove_nodup x l : NoDup l -> forall v, In v (list_remove x l) <-> In v l /\ v <> x.
Proof.
  induction 1 as [|a l Na Nl IH]; intros v; cbn [list_remove]; [cbn; tauto|].
  destruct (Nat.eqb_spec a x) as [->|X].
  - split; intros H; [split; [right; exact H|intros ->; contradiction]|destruct H as [[<-|H] K]; [congruence|exact H]].
  - cbn [In]. rewrite IH. split; intros H.
    + destruct H as [<-|[H K]]; [split; [left; reflexivity|exact X]|split; [right; exact H|exact K]].
    + destruct H as [[H|H] K]; [left; exact H|right; split; assumption].
Qed.
Lemma list_remove_NoDup x l : NoDup l -> NoDup (list_remove x l).
Proof.
  induction 1 as [|a l Na Nl IH]; cbn [list_remove]; [constructor|]. destruct (Nat.eqb_spec a x) as [->|X]; [exact Nl|].
  constructor; [|exact IH]. intros K. apply list_remove_nodup in K; [tauto|exact Nl].
Qed.

Section Backward.
Variable pv : nat -> nat -> list nat -> Z.
Variable alpha : Z.
Variable t : nat.
Lemma backward_step_in mb x v : NoDup mb -> In v (backward_step pv alpha t mb x) -> In v mb.
Proof.
  intros N. unfold backward_step. destruct (_ >? _)%Z; [|auto]. intros H. apply list_remove_nodup in H; tauto.
Qed.
Lemma backward_step_NoDup mb x : NoDup mb -> NoDup (backward_step pv alpha t mb x).
Proof. intros N. unfold backward_step. destruct (_ >? _)%Z; [apply list_remove_NoDup, N|exact N]. Qed.
Lemma backward_fold l : forall mb, NoDup mb -> NoDup (fold_left (backward_step pv alpha t) l mb) /\
  forall v, In v (fold_left (backward_step pv alpha t) l mb) -> In v mb.
Proof.
  induction l as [|a l IH]; intros mb N; cbn [fold_left]; [auto|].
  destruct (IH (backward_step pv alpha t mb a) (backward_step_NoDup mb a N)) as [I1 I2]. split; [exact I1|].
  intros v Hv. apply (backward_step_in mb a); [exact N|apply I2, Hv].
Qed.
End Backward.

(** the blanket screens the target off, given any superset of it *)
Section Oracle.
Variable g : ggraph.
Hypothesis Dg : dag g.

Lemma blanket_bound t x : blanket g t x -> x < gn g.
Proof.
  intros [_ [H|[H|[c [_ H]]]]]; apply (dag_dedge g Dg) in H; tauto.
Qed.

Lemma blanket_screens t x Z : x <> t -> (forall v, blanket g t v -> In v Z) -> ~ In x Z -> ~ dconnected g t x Z.
Proof.
  intros Xt B Nx [m [N A]]. destruct m as [|v m].
  - destruct A as [A _]. specialize (A [] t x [] eq_refl). apply Nx, B. split; [exact Xt|]. destruct A; auto.
  - destruct A as [A1 A2]. pose proof (A1 [] t v (m ++ [x]) eq_refl) as Atv.
    assert (Vt : v <> t) by (intros ->; inversion N; subst; apply H1; left; reflexivity).
    assert (Vx : v <> x).
    { intros ->. inversion N as [|? ? _ N']; subst. inversion N' as [|? ? K _]; subst. apply K, in_or_app. right. left. reflexivity. }
    assert (Vb : blanket g t v) by (split; [exact Vt|destruct Atv; auto]).
    destruct m as [|w m].
    + pose proof (A2 [] t v x [] eq_refl) as O. destruct O as [[O1 [O2 _]]|[_ O]]; [|apply O, B, Vb].
      apply Nx, B. split; [exact Xt|]. right. right. exists v. auto.
    + pose proof (A2 [] t v w (m ++ [x]) eq_refl) as O. destruct O as [[O1 [O2 _]]|[_ O]]; [|apply O, B, Vb].
      assert (Wt : w <> t).
      { intros ->. inversion N as [|? ? K _]; subst. apply K. right. left. reflexivity. }
      assert (Wb : blanket g t w) by (split; [exact Wt|right; right; exists v; auto]).
      assert (O' : exists c, opens g Z v w c).
      { destruct m as [|u m]; [exists x; exact (A2 [t] v w x [] eq_refl)|exists u; exact (A2 [t] v w u (m ++ [x]) eq_refl)]. }
      destruct O' as [c [[O3 _]|[_ O3]]]; [apply (dag_asym g Dg _ _ O2 O3)|apply O3, B, Wb].
Qed.

(** every member of the blanket depends on the target, given the rest of the blanket or more *)
Lemma blanket_depends t x Z : blanket g t x -> (forall v, blanket g t v -> v <> x -> In v Z) -> dconnected g t x Z.
Proof.
  intros [Xt H] B. destruct H as [H|[H|[c [H1 H2]]]].
  - exists []. split; [constructor; [intros [K|[]]; congruence|constructor; [intros []|constructor]]|]. split.
    + intros l a b r E. destruct l as [|? [|? [|]]]; try discriminate. injection E as <- <- _. right. exact H.
    + intros l a b e r E. apply (f_equal (@length nat)) in E. rewrite app_length in E. cbn in E. lia.
  - exists []. split; [constructor; [intros [K|[]]; congruence|constructor; [intros []|constructor]]|]. split.
    + intros l a b r E. destruct l as [|? [|? [|]]]; try discriminate. injection E as <- <- _. left. exact H.
    + intros l a b e r E. apply (f_equal (@length nat)) in E. rewrite app_length in E. cbn in E. lia.
  - assert (Ct : c <> t) by (intros ->; apply (dag_asym g Dg _ _ H1 H1)).
    assert (Cx : c <> x) by (intros ->; apply (dag_asym g Dg _ _ H2 H2)).
    exists [c]. cbn [app]. split.
    { constructor; [intros [K|[K|[]]]; congruence|constructor; [intros [K|[]]; congruence|constructor; [intros []|constructor]]]. }
    split.
    + intros l a b r E. destruct l as [|? [|? [|? [|]]]]; try discriminate; injection E; intros; subst; [left|right]; assumption.
    + intros l a b e r E. destruct l as [|? l]; [|apply (f_equal (@length nat)) in E; cbn in E; rewrite app_length in E; cbn in E; lia].
      injection E as <- <- <- _. left. split; [exact H1|split; [exact H2|]]. exists c. split; [|constructor].
      apply B; [split; [exact Ct|auto]|exact Cx].
Qed.

Variable pv : nat -> nat -> list nat -> Z.
Variable alpha : Z.
Hypothesis O : dsep_test g pv alpha.
Variable t : nat.
Hypothesis Ht : t < gn g.

Lemma forward_covers mb : good_list (gn g) t mb ->
  (forall x, x < gn g -> x <> t -> ~ In x mb -> (alpha < pv t x mb)%Z) -> forall v, blanket g t v -> In v mb.
Proof.
  intros [N B] F.
  assert (In_adj : forall v, v <> t -> dedge g v t \/ dedge g t v -> In v mb).
  { intros v Vt A. destruct (in_dec Nat.eq_dec v mb) as [I|I]; [exact I|exfalso].
    assert (Vb : v < gn g) by (destruct A as [A|A]; apply (dag_dedge g Dg) in A; tauto).
    specialize (F v Vb Vt I).
    assert (K : dconnected g t v mb).
    { exists []. split; [constructor; [intros [K|[]]; congruence|constructor; [intros []|constructor]]|]. split.
      + intros l a b r E. destruct l as [|? [|? [|]]]; try discriminate. injection E as <- <- _. destruct A; [right|left]; assumption.
      + intros l a b e r E. apply (f_equal (@length nat)) in E. rewrite app_length in E. cbn in E. lia. }
    apply O in K; auto; [lia|intros Q; apply B in Q; tauto|intros z Hz; apply B in Hz; tauto]. }
  intros v [Vt [H|[H|[c [H1 H2]]]]]; [apply In_adj; auto|apply In_adj; auto|].
  destruct (in_dec Nat.eq_dec v mb) as [I|I]; [exact I|exfalso].
  assert (Vb : v < gn g) by (apply (dag_dedge g Dg) in H2; tauto). specialize (F v Vb Vt I).
  assert (Ct : c <> t) by (intros ->; apply (dag_asym g Dg _ _ H1 H1)).
  assert (Cx : c <> v) by (intros ->; apply (dag_asym g Dg _ _ H2 H2)).
  assert (K : dconnected g t v mb).
  { exists [c]. cbn [app]. split.
    { constructor; [intros [K|[K|[]]]; congruence|constructor; [intros [K|[]]; congruence|constructor; [intros []|constructor]]]. }
    split.
    + intros l a b r E. destruct l as [|? [|? [|? [|]]]]; try discriminate; injection E; intros; subst; [left|right]; assumption.
    + intros l a b e r E. destruct l as [|? l]; [|apply (f_equal (@length nat)) in E; cbn in E; rewrite app_length in E; cbn in E; lia].
      injection E as <- <- <- _. left. split; [exact H1|split; [exact H2|]]. exists c. split; [|constructor]. apply In_adj; auto. }
  apply O in K; auto; [lia|intros Q; apply B in Q; tauto|intros z Hz; apply B in Hz; tauto].
Qed.

Lemma backward_exact l : forall mb, good_list (gn g) t mb -> (forall v, blanket g t v -> In v mb) ->
  (forall x, In x l -> In x mb) -> NoDup l -> (forall v, In v mb -> In v l \/ blanket g t v) ->
  forall v, In v (fold_left (backward_step pv alpha t) l mb) <-> blanket g t v.
Proof.
  induction l as [|x l IH]; intros mb [N B] C L Nl E v; cbn [fold_left].
  { split; intros H; [destruct (E v H) as [[]|K]; exact K|apply C, H]. }
  inversion Nl as [|? ? Nx Nl']; subst.
  set (cond := filter (fun i => negb (Nat.eqb i x)) mb).
  assert (Cin : forall v, In v cond <-> In v mb /\ v <> x).
  { intros u. unfold cond. rewrite filter_In, negb_true_iff, Nat.eqb_neq. reflexivity. }
  assert (Xm : In x mb) by (apply L; left; reflexivity). destruct (B x Xm) as [Xb Xt].
  assert (T : (pv t x cond <= alpha)%Z <-> dconnected g t x cond).
  { apply O; auto; [intros K; apply Cin in K; destruct K as [K _]; apply B in K; tauto|intros K; apply Cin in K; tauto|].
    intros z K. apply Cin in K. apply B. tauto. }
  unfold backward_step at 2. fold cond. rewrite Z.gtb_ltb. destruct (Z.ltb_spec alpha (pv t x cond)) as [La|La].
  - assert (NB : ~ blanket g t x).
    { intros K. apply (Zlt_not_le _ _ La), T, blanket_depends; [exact K|]. intros u Hu Ux. apply Cin. auto. }
    apply IH.
    + split; [apply list_remove_NoDup, N|]. intros u Hu. apply list_remove_nodup in Hu; [apply B; tauto|exact N].
    + intros u Hu. apply list_remove_nodup; [exact N|]. split; [apply C, Hu|intros ->; contradiction].
    + intros u Hu. apply list_remove_nodup; [exact N|]. split; [apply L; right; exact Hu|intros ->; contradiction].
    + exact Nl'.
    + intros u Hu. apply list_remove_nodup in Hu; [|exact N]. destruct (E u (proj1 Hu)) as [[K|K]|K]; [symmetry in K; tauto|auto|auto].
  - assert (Bx : blanket g t x).
    { destruct (in_dec Nat.eq_dec x cond) as [I|I]; [apply Cin in I; tauto|].
      assert (DB : blanket g t x \/ ~ blanket g t x).
      { destruct (adjacent_dec g x t) as [[A|A]|A]; [left; split; auto|left; split; auto|].
        assert (Dc : forall k, (exists c, c < k /\ dedge g t c /\ dedge g x c) \/ ~ exists c, c < k /\ dedge g t c /\ dedge g x c).
        { induction k as [|k [K|K]]; [right; intros [c [Q _]]; lia|left; destruct K as [c [K1 K2]]; exists c; split; [lia|exact K2]|].
          assert (D1 : forall a, dedge g a k \/ ~ dedge g a k).
          { intros a. destruct (adjacent_dec g a k) as [[A1|A1]|A1]; [left; exact A1|right; intros Q; apply (dag_asym g Dg _ _ A1 Q)|right; intros Q; apply A1; left; exact Q]. }
          destruct (D1 t) as [D2|D2]; [destruct (D1 x) as [D3|D3]|].
          - left. exists k. split; [lia|auto].
          - right. intros [c [Q1 [Q2 Q3]]]. destruct (Nat.eq_dec c k) as [->|Q]; [contradiction|apply K; exists c; split; [lia|auto]].
          - right. intros [c [Q1 [Q2 Q3]]]. destruct (Nat.eq_dec c k) as [->|Q]; [contradiction|apply K; exists c; split; [lia|auto]]. }
        destruct (Dc (gn g)) as [[c [_ K]]|K]; [left; split; [exact Xt|right; right; exists c; exact K]|].
        right. intros [_ [Q|[Q|[c [Q1 Q2]]]]]; [apply A; left; exact Q|apply A; right; exact Q|].
        apply K. exists c. split; [apply (dag_dedge g Dg) in Q1; tauto|auto]. }
      destruct DB as [DB|DB]; [exact DB|exfalso]. apply T in La. revert La. apply blanket_screens; auto.
      intros u Hu. apply Cin. split; [apply C, Hu|intros ->; contradiction]. }
    apply IH; auto.
    + split; assumption.
    + intros u Hu. apply L. right. exact Hu.
    + intros u Hu. destruct (E u Hu) as [[<-|K]|K]; auto.
Qed.
End Oracle.
