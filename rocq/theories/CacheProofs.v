(** Injectivity of cache keys and canonical forms. *)
From Verif Require Import Base CacheModel.
From Coq Require Import Ascii String Decimal DecimalNat Sorted.
Local Open Scope Z_scope.

Definition same_set (l l' : list nat) : Prop := forall x, In x l <-> In x l'.

(* ---- decimal strings ---- *)
Lemma uint_chars_inj u : forall v, uint_chars u = uint_chars v -> u = v.
Proof. induction u; intros [| v | v | v | v | v | v | v | v | v | v]; cbn; intros H; try discriminate; try reflexivity; injection H as H; f_equal; auto. Qed.
Lemma dec_inj n m : dec n = dec m -> n = m.
Proof. intros H. apply Unsigned.to_uint_inj. now apply uint_chars_inj. Qed.
Lemma dec_nonempty n : dec n <> [].
Proof.
  unfold dec. rewrite <- (Unsigned.of_to n), Unsigned.to_of. intros H.
  change (@nil ascii) with (uint_chars Nil) in H. apply uint_chars_inj in H.
  unfold unorm in H. destruct (nzhead (Nat.to_uint n)); discriminate.
Qed.
Definition is_sep (c : ascii) : Prop := c = "."%char \/ c = ";"%char \/ c = "|"%char.
Lemma dec_no_sep n c : is_sep c -> ~ In c (dec n).
Proof.
  unfold dec. intros H. induction (Nat.to_uint n) as [|u IH|u IH|u IH|u IH|u IH|u IH|u IH|u IH|u IH|u IH]; cbn; [tauto|..];
  intros [E|K]; auto; subst c; unfold is_sep in H; decompose [or] H; discriminate.
Qed.

Lemma split_at {A} (c : A) a r a' r' : ~ In c a -> ~ In c a' -> a ++ c :: r = a' ++ c :: r' -> a = a' /\ r = r'.
Proof.
  revert a'. induction a as [|x a IH]; intros [|y a'] H H' E; cbn in E.
  - injection E as E. auto.
  - injection E as E _. exfalso. apply H'. now left.
  - injection E as E _. exfalso. apply H. now left.
  - injection E as -> E. destruct (IH a') as [-> ->]; auto; intros K; [apply H|apply H']; now right.
Qed.

Lemma strlst_no_sep l c : c = ";"%char \/ c = "|"%char -> ~ In c (strlst l).
Proof.
  intros H. induction l as [|x l IH]; [cbn; tauto|]. assert (D : ~ In c (dec x)) by (apply dec_no_sep; unfold is_sep; tauto).
  destruct l as [|y l]; [exact D|]. change (strlst (x :: y :: l)) with (dec x ++ "."%char :: strlst (y :: l)).
  rewrite in_app_iff. intros [K|[K|K]]; auto. subst c. destruct H; discriminate.
Qed.

Lemma strlst_inj l : forall m, strlst l = strlst m -> l = m.
Proof.
  induction l as [|x l IH]; intros [|y m] E.
  - reflexivity.
  - exfalso. assert (D := dec_nonempty y). destruct m; cbn -[dec] in E; destruct (dec y); cbn in E; congruence.
  - exfalso. assert (D := dec_nonempty x). destruct l; cbn -[dec] in E; destruct (dec x); cbn in E; congruence.
  - assert (Dx : ~ In "."%char (dec x)) by (apply dec_no_sep; unfold is_sep; tauto).
    assert (Dy : ~ In "."%char (dec y)) by (apply dec_no_sep; unfold is_sep; tauto).
    destruct l as [|x2 l], m as [|y2 m].
    + cbn in E. apply dec_inj in E. now subst.
    + exfalso. change (dec x = dec y ++ "."%char :: strlst (y2 :: m)) in E. apply Dx. rewrite E. apply in_or_app. right. now left.
    + exfalso. change (dec x ++ "."%char :: strlst (x2 :: l) = dec y) in E. apply Dy. rewrite <- E. apply in_or_app. right. now left.
    + change (dec x ++ "."%char :: strlst (x2 :: l) = dec y ++ "."%char :: strlst (y2 :: m)) in E.
      apply split_at in E; auto. destruct E as [E1 E2]. apply dec_inj in E1. apply IH in E2. congruence.
Qed.

Lemma stringize_inj a b c a' b' c' : stringize a b c = stringize a' b' c' -> a = a' /\ b = b' /\ c = c'.
Proof.
  assert (N1 : forall l, ~ In ";"%char (strlst l)) by (intros; apply strlst_no_sep; auto).
  assert (N2 : forall l, ~ In "|"%char (strlst l)) by (intros; apply strlst_no_sep; auto).
  unfold stringize. intros E. destruct c as [|x c], c' as [|x' c']; apply split_at in E; auto; destruct E as [E1 E2]; apply strlst_inj in E1; subst a'.
  - apply strlst_inj in E2. auto.
  - exfalso. apply (N2 b). rewrite E2. apply in_or_app. right. now left.
  - exfalso. apply (N2 b'). rewrite <- E2. apply in_or_app. right. now left.
  - apply split_at in E2; auto. destruct E2 as [E2 E3]. apply strlst_inj in E2, E3. subst. auto.
Qed.
Lemma stringize_semicolon a b c : In ";"%char (stringize a b c).
Proof. unfold stringize. destruct c; apply in_or_app; right; now left. Qed.

(* ---- sorted sets ---- *)
Lemma sins_In x l y : In y (sins x l) <-> y = x \/ In y l.
Proof.
  induction l as [|z l IH]; cbn [sins]; [cbn; intuition|].
  destruct (Nat.ltb_spec x z); [cbn; intuition|]. destruct (Nat.eqb_spec x z) as [->|]; [cbn; intuition|].
  cbn [In]. rewrite IH. intuition.
Qed.
Lemma sins_sorted x l : StronglySorted lt l -> StronglySorted lt (sins x l).
Proof.
  induction 1 as [|z l S IH F]; cbn [sins]; [repeat constructor|]. rewrite Forall_forall in F.
  destruct (Nat.ltb_spec x z); [|destruct (Nat.eqb_spec x z) as [->|N]].
  - constructor; [constructor; [exact S|now apply Forall_forall]|]. apply Forall_forall. intros y [<-|Hy]; [lia|]. specialize (F y Hy). lia.
  - constructor; [exact S|now apply Forall_forall].
  - constructor; [exact IH|]. apply Forall_forall. intros y Hy. apply sins_In in Hy. destruct Hy as [->|Hy]; [lia|auto].
Qed.
Lemma sort_set_In l y : In y (sort_set l) <-> In y l.
Proof. induction l as [|x l IH]; cbn [sort_set fold_right]; [reflexivity|]. fold (sort_set l). rewrite sins_In, IH. cbn. intuition. Qed.
Lemma sort_set_sorted l : StronglySorted lt (sort_set l).
Proof. induction l as [|x l IH]; cbn; [constructor|]. now apply sins_sorted. Qed.
Lemma sorted_unique l : forall m, StronglySorted lt l -> StronglySorted lt m -> same_set l m -> l = m.
Proof.
  induction l as [|x l IH]; intros [|y m] Sl Sm E.
  - reflexivity.
  - exfalso. apply (E y). now left.
  - exfalso. apply (E x). now left.
  - inversion_clear Sl as [|? ? Sl' Fl]. inversion_clear Sm as [|? ? Sm' Fm]. rewrite Forall_forall in Fl, Fm.
    assert (x = y).
    { destruct (proj1 (E x) (or_introl eq_refl)) as [|H1]; [congruence|]. destruct (proj2 (E y) (or_introl eq_refl)) as [|H2]; [congruence|].
      specialize (Fl y H2). specialize (Fm x H1). lia. }
    subst y. f_equal. apply IH; auto. intros z. split; intros Hz.
    + destruct (proj1 (E z) (or_intror Hz)) as [->|]; [|assumption]. specialize (Fl z Hz). lia.
    + destruct (proj2 (E z) (or_intror Hz)) as [->|]; [|assumption]. specialize (Fm z Hz). lia.
Qed.
Lemma sort_set_eq l m : sort_set l = sort_set m <-> same_set l m.
Proof.
  split.
  - intros E x. now rewrite <- (sort_set_In l), <- (sort_set_In m), E.
  - intros E. apply sorted_unique; try apply sort_set_sorted. intros x. now rewrite !sort_set_In.
Qed.

(* ---- Python's list order ---- *)
Lemma list_ltb_asym a : forall b, list_ltb a b = true -> list_ltb b a = false.
Proof.
  induction a as [|x a IH]; intros [|y b]; cbn [list_ltb]; try discriminate; auto.
  destruct (Nat.ltb_spec x y), (Nat.ltb_spec y x), (Nat.eqb_spec x y), (Nat.eqb_spec y x); try lia; auto; discriminate.
Qed.
Lemma list_ltb_total a : forall b, list_ltb a b = false -> list_ltb b a = false -> a = b.
Proof.
  induction a as [|x a IH]; intros [|y b]; cbn [list_ltb]; try discriminate; auto.
  destruct (Nat.ltb_spec x y), (Nat.ltb_spec y x), (Nat.eqb_spec x y), (Nat.eqb_spec y x); try lia; try discriminate.
  intros H1 H2. subst. f_equal. auto.
Qed.
Definition canon (a b : list nat) : list nat * list nat := if list_ltb a b then (a, b) else (b, a).
Lemma canon_comm a b : canon a b = canon b a.
Proof.
  unfold canon. destruct (list_ltb a b) eqn:E, (list_ltb b a) eqn:F; auto.
  - apply list_ltb_asym in E. congruence.
  - now rewrite (list_ltb_total a b E F).
Qed.
Lemma canon_inj a b a' b' : canon a b = canon a' b' -> (a = a' /\ b = b') \/ (a = b' /\ b = a').
Proof. unfold canon. destruct (list_ltb a b), (list_ltb a' b'); intros [= -> ->]; auto. Qed.
