(** Proofs about the combination generators. *)
From Verif Require Import Base ChoiceModel ChoiceSpec.
From Coq Require Import Sorted.
Local Open Scope Z_scope.

Lemma lset_length {A} (l : list A) i v : length (lset l i v) = length l.
Proof. revert i. induction l as [|a l IH]; intros [|i]; cbn; auto. Qed.
Lemma lset_nth {A} (l : list A) i v d j : (i < length l)%nat -> nth j (lset l i v) d = if Nat.eqb j i then v else nth j l d.
Proof.
  revert i j. induction l as [|a l IH]; intros [|i] [|j] H; cbn in *; try lia; auto. apply IH. lia.
Qed.

Lemma fill_loop c0 i m : (i + m < length c0)%nat ->
  let c := fold_left (fun c i => lset c i (nth (i - 1) c 0 + 1)) (seq (S i) m) c0 in
  length c = length c0 /\
  forall j, nth j c 0 = if (Nat.leb i j && Nat.leb j (i + m))%bool then nth i c0 0 + Z.of_nat (j - i) else nth j c0 0.
Proof.
  induction m as [|m IH]; intros H.
  - cbn. split; [reflexivity|]. intros j. destruct (Nat.leb_spec i j), (Nat.leb_spec j (i + 0)); cbn; try reflexivity.
    replace j with i by lia. replace (i - i)%nat with O by lia. lia.
  - rewrite seq_S, fold_left_app. cbn [fold_left]. destruct IH as [IH1 IH2]; [lia|].
    match goal with |- context [fold_left ?f ?l ?c] => set (cc := fold_left f l c) in * end.
    split; [now rewrite lset_length|]. intros j. rewrite lset_nth by (rewrite IH1; lia).
    destruct (Nat.eqb_spec j (S i + m)) as [->|N].
    + rewrite IH2. replace (Nat.leb i (S i + m - 1)) with true by (symmetry; apply Nat.leb_le; lia).
      replace (Nat.leb (S i + m - 1) (i + m)) with true by (symmetry; apply Nat.leb_le; lia).
      replace (Nat.leb i (S i + m)) with true by (symmetry; apply Nat.leb_le; lia).
      replace (Nat.leb (S i + m) (i + S m)) with true by (symmetry; apply Nat.leb_le; lia). cbn [andb]. lia.
    + rewrite IH2. destruct (Nat.leb_spec i j), (Nat.leb_spec j (i + m)), (Nat.leb_spec j (i + S m)); cbn; try reflexivity; lia.
Qed.

Lemma fill_spec b c i : length c = b -> (i < b)%nat ->
  length (fill b c i) = b /\
  forall j, (j < b)%nat -> nth j (fill b c i) 0 = if Nat.ltb j i then nth j c 0 else nth i c 0 + 1 + Z.of_nat (j - i).
Proof.
  intros Hl Hi. unfold fill.
  destruct (fill_loop (lset c i (nth i c 0 + 1)) i (b - S i)) as [H1 H2]; [rewrite lset_length; lia|].
  split; [rewrite H1; now rewrite lset_length|]. intros j Hj. rewrite H2, !lset_nth by lia.
  replace (Nat.leb j (i + (b - S i))) with true by (symmetry; apply Nat.leb_le; lia).
  destruct (Nat.leb_spec i j), (Nat.ltb_spec j i), (Nat.eqb_spec j i); cbn [andb]; rewrite ?Nat.eqb_refl; try lia; reflexivity.
Qed.

Lemma copy_into_id b src dst : length src = b -> length dst = b -> copy_into b src dst = src.
Proof.
  intros H1 H2. unfold copy_into.
  assert (K : forall m, (m <= b)%nat ->
    let d := fold_left (fun d j => lset d j (nth j src 0)) (seq 0 m) dst in
    length d = b /\ forall j, nth j d 0 = if Nat.ltb j m then nth j src 0 else nth j dst 0).
  { induction m as [|m IH]; intros Hm; [cbn; auto|]. rewrite seq_S, fold_left_app. cbn [fold_left].
    destruct IH as [IH1 IH2]; [lia|]. split; [now rewrite lset_length|]. intros j. rewrite lset_nth by (rewrite IH1; lia).
    rewrite IH2. destruct (Nat.eqb_spec j (0 + m)) as [E|N].
    - rewrite E. cbn [Nat.add]. destruct (Nat.ltb_spec m (S m)); [reflexivity|lia].
    - destruct (Nat.ltb_spec j m), (Nat.ltb_spec j (S m)); try lia; reflexivity. }
  destruct (K b (le_n b)) as [K1 K2]. apply nth_ext with (d := 0) (d' := 0); [lia|].
  intros j Hj. rewrite K2. destruct (Nat.ltb_spec j b); [reflexivity|lia].
Qed.

Lemma scan_ok c diff b : (b <= length c)%nat ->
  match scan c diff b with
  | Raise => False
  | Ok (Some i) => (i < b)%nat /\ nth i c 0 < Z.of_nat i + diff /\ forall j, (i < j < b)%nat -> Z.of_nat j + diff <= nth j c 0
  | Ok None => forall j, (j < b)%nat -> Z.of_nat j + diff <= nth j c 0
  end.
Proof.
  induction b as [|b IH]; intros H; cbn [scan]; [intros; lia|].
  rewrite (nth_error_nth' c 0) by lia. destruct (Z.ltb_spec (nth b c 0) (Z.of_nat b + diff)).
  - split; [lia|]. split; [assumption|]. intros; lia.
  - specialize (IH ltac:(lia)). destruct (scan c diff b) as [[i|]|]; [|intros j Hj; destruct (Nat.eq_dec j b) as [->|]; [assumption|apply IH; lia]|exact IH].
    destruct IH as (A & B & C). split; [lia|]. split; [exact B|]. intros j Hj. destruct (Nat.eq_dec j b) as [->|]; [assumption|apply C; lia].
Qed.

(* ---- combinations through nth ---- *)
Definition comb_nth (a b : nat) (c : list Z) : Prop :=
  length c = b /\ (forall i j, (i < j < b)%nat -> nth i c 0 < nth j c 0) /\ (forall j, (j < b)%nat -> 0 <= nth j c 0 < Z.of_nat a).

Lemma sorted_nth c : StronglySorted Z.lt c <-> forall i j, (i < j < length c)%nat -> nth i c 0 < nth j c 0.
Proof.
  split.
  - induction 1 as [|x c S IH F]; intros i j H; cbn in H; [lia|].
    destruct j as [|j]; [lia|]. destruct i as [|i]; cbn.
    + rewrite Forall_forall in F. apply F, nth_In. lia.
    + apply IH. lia.
  - induction c as [|x c IH]; intros H; constructor.
    + apply IH. intros i j Hij. apply (H (S i) (S j)). cbn. lia.
    + rewrite Forall_forall. intros y Hy. apply (In_nth _ _ 0) in Hy. destruct Hy as (j & Hj & <-). apply (H O (S j)). cbn. lia.
Qed.
Lemma comb_nth_iff a b c : combination a b c <-> comb_nth a b c.
Proof.
  unfold combination, comb_nth. rewrite sorted_nth. split; intros (H1 & H2 & H3); subst b; (split; [reflexivity|split; [exact H2|]]).
  - intros j Hj. now apply H3, nth_In.
  - intros x Hx. apply (In_nth _ _ 0) in Hx. destruct Hx as (j & Hj & <-). now apply H3.
Qed.

Lemma comb_bounds a b c : comb_nth a b c -> forall j, (j < b)%nat -> Z.of_nat j <= nth j c 0 <= Z.of_nat j + (Z.of_nat a - Z.of_nat b).
Proof.
  intros (H1 & H2 & H3).
  assert (L : forall j, (j < b)%nat -> Z.of_nat j <= nth j c 0).
  { induction j as [|j IH]; intros Hj; [specialize (H3 O Hj); lia|].
    specialize (IH ltac:(lia)). specialize (H2 j (S j) ltac:(lia)). lia. }
  assert (U : forall m j, (j + m + 1 = b)%nat -> nth j c 0 <= Z.of_nat j + (Z.of_nat a - Z.of_nat b)).
  { induction m as [|m IH]; intros j Hj; [specialize (H3 j ltac:(lia)); lia|].
    specialize (IH (S j) ltac:(lia)). specialize (H2 j (S j) ltac:(lia)). lia. }
  intros j Hj. split; [now apply L|]. apply (U (b - j - 1)%nat). lia.
Qed.
Lemma comb_gap a b c : comb_nth a b c -> forall i m, (i + m < b)%nat -> nth i c 0 + Z.of_nat m <= nth (i + m) c 0.
Proof.
  intros (H1 & H2 & H3) i m. induction m as [|m IH]; intros H; [replace (i + 0)%nat with i by lia; lia|].
  specialize (IH ltac:(lia)). specialize (H2 (i + m)%nat (i + S m)%nat ltac:(lia)). lia.
Qed.

(* ---- lexicographic order through nth ---- *)
Lemma lex_nth c : forall d, length c = length d ->
  (lexlt c d <-> exists k, (k < length c)%nat /\ nth k c 0 < nth k d 0 /\ forall j, (j < k)%nat -> nth j c 0 = nth j d 0).
Proof.
  induction c as [|x c IH]; intros [|y d] H; cbn in H; try discriminate; cbn [lexlt].
  - split; [intros []|]. intros (k & Hk & _). cbn in Hk. lia.
  - injection H as H. split.
    + intros [L|[-> L]].
      * exists O. cbn. split; [lia|]. split; [exact L|]. intros; lia.
      * apply IH in L; [|exact H]. destruct L as (k & Hk & L & E). exists (S k). cbn. split; [lia|]. split; [exact L|].
        intros [|j] Hj; [reflexivity|]. apply E. lia.
    + intros (k & Hk & L & E). destruct k as [|k]; [left; exact L|]. right. split; [apply (E O); lia|].
      apply IH; [exact H|]. exists k. cbn in Hk. split; [lia|]. split; [exact L|]. intros j Hj. apply (E (S j)). lia.
Qed.
Lemma lex_pointwise c : forall d, length c = length d -> (forall j, (j < length c)%nat -> nth j c 0 <= nth j d 0) -> c = d \/ lexlt c d.
Proof.
  induction c as [|x c IH]; intros [|y d] H P; cbn in H; try discriminate; [now left|]. injection H as H.
  pose proof (P O ltac:(cbn; lia)) as P0. cbn in P0. destruct (Z.eq_dec x y) as [->|N].
  - destruct (IH d H) as [->|L]; [intros j Hj; apply (P (S j)); cbn; lia|now left|]. right. cbn. auto.
  - right. cbn. left. lia.
Qed.
Lemma lex_trans c : forall d e, lexlt c d -> lexlt d e -> lexlt c e.
Proof.
  induction c as [|x c IH]; intros [|y d] [|z e]; cbn; try tauto.
  intros [H|[-> H]] [K|[-> K]]; try (left; lia). right. split; [reflexivity|]. eapply IH; eauto.
Qed.
Lemma lex_irrefl c : ~ lexlt c c.
Proof. induction c as [|x c IH]; cbn; [tauto|]. intros [H|[_ H]]; [lia|tauto]. Qed.

(* ---- one step ---- *)
Definition pre (b : nat) (c : list Z) : Prop :=
  length c = b /\ (forall i j, (i < j < b)%nat -> nth i c 0 <= nth j c 0) /\
  (forall i j, (i < j)%nat -> (S j < b)%nat -> nth i c 0 < nth j c 0) /\
  (forall j, (S j < b)%nat -> 0 <= nth j c 0) /\ (forall j, (j < b)%nat -> -1 <= nth j c 0).

Lemma comb_pre a b c : comb_nth a b c -> pre b c.
Proof.
  intros (H1 & H2 & H3). repeat split; auto.
  - intros i j H. specialize (H2 i j H). lia.
  - intros i j H K. apply H2. lia.
  - intros j H. specialize (H3 j ltac:(lia)). lia.
  - intros j H. specialize (H3 j ltac:(lia)). lia.
Qed.

Definition diff (a b : nat) : Z := Z.of_nat a - Z.of_nat b.

Lemma step_some a b c i : pre b c -> scan c (diff a b) b = Ok (Some i) ->
  let c' := fill b c i in
  comb_nth a b c' /\ lexlt c c' /\ forall d, comb_nth a b d -> lexlt c d -> d = c' \/ lexlt c' d.
Proof.
  intros (P1 & P2 & P3 & P4 & P5) Hs c'. pose proof (scan_ok c (diff a b) b ltac:(lia)) as S. rewrite Hs in S.
  destruct S as (Hi & Hlt & Hge). destruct (fill_spec b c i P1 Hi) as [F1 F2]. fold c' in F1, F2.
  assert (C : comb_nth a b c').
  { split; [exact F1|]. split.
    - intros x y Hxy. rewrite !F2 by lia. destruct (Nat.ltb_spec x i), (Nat.ltb_spec y i); try lia.
      + apply P3; lia.
      + specialize (P2 x i ltac:(lia)). lia.
    - intros j Hj. rewrite F2 by lia. unfold diff in Hlt. destruct (Nat.ltb_spec j i).
      + specialize (P4 j ltac:(lia)). specialize (P2 j i ltac:(lia)). lia.
      + specialize (P5 i Hi). lia. }
  split; [exact C|]. split.
  - apply lex_nth; [congruence|]. exists i. split; [lia|]. split.
    + rewrite F2 by lia. rewrite Nat.ltb_irrefl. lia.
    + intros j Hj. rewrite F2 by lia. destruct (Nat.ltb_spec j i); [reflexivity|lia].
  - intros d Hd L. pose proof Hd as (D1 & D2 & D3). apply lex_nth in L; [|congruence]. destruct L as (k & Hk & Lk & Ek).
    assert (Hki : (k <= i)%nat).
    { destruct (Nat.le_gt_cases k i) as [|G]; [assumption|]. exfalso.
      specialize (Hge k ltac:(lia)). pose proof (comb_bounds a b d Hd k ltac:(lia)). unfold diff in *. lia. }
    destruct (Nat.eq_dec k i) as [->|Hn].
    + assert (Q : c' = d \/ lexlt c' d); [|destruct Q; auto]. apply lex_pointwise; [congruence|]. intros j Hj. rewrite F1 in Hj.
      rewrite F2 by lia. destruct (Nat.ltb_spec j i) as [L|L].
      * rewrite (Ek j L). lia.
      * pose proof (comb_gap a b d Hd i (j - i) ltac:(lia)) as G. replace (i + (j - i))%nat with j in G by lia. lia.
    + right. apply lex_nth; [congruence|]. exists k. split; [lia|]. split.
      * rewrite F2 by lia. destruct (Nat.ltb_spec k i); [exact Lk|lia].
      * intros j Hj. rewrite F2 by lia. destruct (Nat.ltb_spec j i); [now apply Ek|lia].
Qed.

Lemma step_none a b c : length c = b -> scan c (diff a b) b = Ok None -> forall d, comb_nth a b d -> ~ lexlt c d.
Proof.
  intros Hl Hs d Hd L. pose proof (scan_ok c (diff a b) b ltac:(lia)) as S. rewrite Hs in S.
  pose proof Hd as (D1 & _). apply lex_nth in L; [|congruence]. destruct L as (k & Hk & Lk & _). rewrite Hl in Hk.
  specialize (S k Hk). pose proof (comb_bounds a b d Hd k Hk). unfold diff in *. lia.
Qed.

(* ---- the initial array ---- *)
Lemma init_length b : length (init_choice b) = b.
Proof. unfold init_choice. rewrite app_length, map_length, seq_length. destruct b; cbn; lia. Qed.
Lemma init_nth b j : (j < b)%nat -> nth j (init_choice b) 0 = if Nat.ltb (S j) b then Z.of_nat j else Z.of_nat b - 2.
Proof.
  intros H. unfold init_choice. replace (Nat.ltb 0 b) with true by (symmetry; apply Nat.ltb_lt; lia).
  destruct (Nat.ltb_spec (S j) b).
  - rewrite app_nth1 by (rewrite map_length, seq_length; lia). change 0 with (Z.of_nat 0). rewrite map_nth, seq_nth by lia. reflexivity.
  - rewrite app_nth2; rewrite map_length, seq_length; [|lia]. replace (j - (b - 1))%nat with O by lia. reflexivity.
Qed.
Lemma init_pre b : pre b (init_choice b).
Proof.
  repeat split; [apply init_length| | | | ].
  - intros i j H. rewrite !init_nth by lia. destruct (Nat.ltb_spec (S i) b), (Nat.ltb_spec (S j) b); lia.
  - intros i j H K. rewrite !init_nth by lia. destruct (Nat.ltb_spec (S i) b), (Nat.ltb_spec (S j) b); lia.
  - intros j H. rewrite init_nth by lia. destruct (Nat.ltb_spec (S j) b); lia.
  - intros j H. rewrite init_nth by lia. destruct (Nat.ltb_spec (S j) b); lia.
Qed.
Lemma init_below a b d : (0 < b)%nat -> comb_nth a b d -> lexlt (init_choice b) d.
Proof.
  intros Hb Hd. pose proof Hd as (D1 & _). destruct (lex_pointwise (init_choice b) d) as [E|L]; [now rewrite init_length| |exfalso|exact L].
  - rewrite init_length. intros j Hj. rewrite init_nth by lia. pose proof (comb_bounds a b d Hd j Hj).
    destruct (Nat.ltb_spec (S j) b); lia.
  - subst d. pose proof (comb_bounds a b _ Hd (b - 1)%nat ltac:(lia)) as K. rewrite init_nth in K by lia.
    destruct (Nat.ltb_spec (S (b - 1)) b); lia.
Qed.
Lemma init_scan a b : (0 < b <= a)%nat -> exists i, scan (init_choice b) (diff a b) b = Ok (Some i).
Proof.
  intros H. pose proof (scan_ok (init_choice b) (diff a b) b) as S. rewrite init_length in S. specialize (S (le_n _)).
  destruct (scan (init_choice b) (diff a b) b) as [[i|]|]; [eauto| |destruct S].
  specialize (S (b - 1)%nat ltac:(lia)). rewrite init_nth in S by lia. unfold diff in S. destruct (Nat.ltb_spec (Datatypes.S (b - 1)) b); lia.
Qed.

(* ---- the chain of successors ---- *)
Inductive chain (a b : nat) : list Z -> list (list Z) -> list Z -> Prop :=
| chain_end c : scan c (diff a b) b = Ok None -> chain a b c [] c
| chain_step c i l e : scan c (diff a b) b = Ok (Some i) -> chain a b (fill b c i) l e -> chain a b c (fill b c i :: l) e.

(** Base-(a+2) value, to bound the number of steps. *)
Fixpoint val (B : Z) (c : list Z) : Z :=
  match c with [] => 0 | x :: r => (x + 1) * B ^ Z.of_nat (length r) + val B r end.
Lemma val_bound B c : 0 < B -> (forall x, In x c -> -1 <= x /\ x + 1 < B) -> 0 <= val B c < B ^ Z.of_nat (length c).
Proof.
  intros HB. induction c as [|x c IH]; intros H; cbn [val length]; [cbn; lia|].
  specialize (IH (fun y K => H y (or_intror K))). destruct (H x (or_introl eq_refl)) as [Hx Hx'].
  rewrite Nat2Z.inj_succ, Z.pow_succ_r by lia. set (p := B ^ Z.of_nat (length c)) in *. nia.
Qed.
Lemma val_lex B c : 0 < B -> forall d, length c = length d -> (forall x, In x c -> -1 <= x /\ x + 1 < B) ->
  (forall x, In x d -> -1 <= x /\ x + 1 < B) -> lexlt c d -> val B c < val B d.
Proof.
  intros HB. induction c as [|x c IH]; intros [|y d] Hl Hc Hd L; cbn in L; try tauto. injection Hl as Hl. cbn [val]. rewrite Hl.
  assert (Vc := val_bound B c HB (fun z K => Hc z (or_intror K))). assert (Vd := val_bound B d HB (fun z K => Hd z (or_intror K))).
  rewrite Hl in Vc. set (p := B ^ Z.of_nat (length d)) in *. destruct L as [L|[-> L]].
  - nia.
  - specialize (IH d Hl (fun z K => Hc z (or_intror K)) (fun z K => Hd z (or_intror K)) L). lia.
Qed.

Lemma chain_exists a b c : pre b c -> (forall x, In x c -> x < Z.of_nat a) ->
  exists l e, chain a b c l e /\ length e = b /\ StronglySorted lexlt l /\
    (forall d, In d l <-> comb_nth a b d /\ lexlt c d).
Proof.
  set (B := Z.of_nat a + 2). intros Hp Hb.
  remember (Z.to_nat (B ^ Z.of_nat b - val B c)) as m eqn:Hm. revert c Hp Hb Hm.
  induction m as [m IH] using lt_wf_ind. intros c Hp Hb Hm. pose proof Hp as (P1 & P2 & P3 & P4 & P5).
  pose proof (scan_ok c (diff a b) b ltac:(lia)) as S. destruct (scan c (diff a b) b) as [[i|]|] eqn:E; [| |destruct S].
  - destruct (step_some a b c i Hp E) as (C & L & Min). set (c' := fill b c i) in *. pose proof C as (C1 & C2 & C3).
    assert (Rc : forall x, In x c -> -1 <= x /\ x + 1 < B).
    { intros x Hx. split; [|specialize (Hb x Hx); unfold B; lia]. apply (In_nth _ _ 0) in Hx. destruct Hx as (j & Hj & <-). apply P5. lia. }
    assert (Rc' : forall x, In x c' -> -1 <= x /\ x + 1 < B).
    { intros x Hx. apply (In_nth _ _ 0) in Hx. destruct Hx as (j & Hj & <-). specialize (C3 j ltac:(lia)). unfold B. lia. }
    assert (HB : 0 < B) by (unfold B; lia).
    assert (V := val_lex B c HB c' ltac:(congruence) Rc Rc' L). assert (V1 := val_bound B c HB Rc). assert (V2 := val_bound B c' HB Rc').
    rewrite P1 in V1. rewrite C1 in V2.
    destruct (IH (Z.to_nat (B ^ Z.of_nat b - val B c'))) with (c := c') as (l & e & H1 & H2 & H3 & H4).
    + subst m. lia.
    + now apply (comb_pre a).
    + intros x Hx. apply (In_nth _ _ 0) in Hx. destruct Hx as (j & Hj & <-). apply C3. lia.
    + reflexivity.
    + exists (c' :: l), e. split; [now econstructor|]. split; [exact H2|]. split.
      * constructor; [exact H3|]. apply Forall_forall. intros d Hd. now apply H4 in Hd.
      * intros d. cbn. rewrite H4. split.
        -- intros [<-|[Hd Ld]]; [auto|]. split; [exact Hd|]. eapply lex_trans; eauto.
        -- intros [Hd Ld]. destruct (Min d Hd Ld) as [->|]; auto.
  - exists [], c. split; [now constructor|]. split; [exact P1|]. split; [constructor|]. intros d. split; [intros []|].
    intros [Hd Ld]. exact (step_none a b c P1 E d Hd Ld).
Qed.

Lemma init_small a b : (b <= a)%nat -> forall x, In x (init_choice b) -> x < Z.of_nat a.
Proof.
  intros H x Hx. apply (In_nth _ _ 0) in Hx. destruct Hx as (j & Hj & <-). rewrite init_length in Hj. rewrite init_nth by lia.
  destruct (Nat.ltb_spec (S j) b); lia.
Qed.

(** All combinations, in order, from the initial array (b > 0). *)
Lemma chain_init a b : (0 < b <= a)%nat -> exists l e, chain a b (init_choice b) l e /\ length e = b /\
  StronglySorted lexlt l /\ (forall d, In d l <-> combination a b d).
Proof.
  intros H. destruct (chain_exists a b (init_choice b) (init_pre b) (init_small a b ltac:(lia))) as (l & e & H1 & H2 & H3 & H4).
  exists l, e. split; [exact H1|]. split; [exact H2|]. split; [exact H3|]. intros d. rewrite H4, comb_nth_iff. split; [tauto|].
  intros Hd. split; [exact Hd|]. apply init_below with a; [lia|exact Hd].
Qed.
Lemma chain_length a b c l e : chain a b c l e -> length c = b -> length e = b.
Proof.
  induction 1 as [c H|c i l e H K IH]; intros Hl; [exact Hl|]. apply IH.
  pose proof (scan_ok c (diff a b) b ltac:(lia)) as S. rewrite H in S. apply fill_spec; [exact Hl|lia].
Qed.
