(** The count tables of the chi-square and G-square tests. *)
From Verif Require Import Base BICModel BICProofs ChisqModel ChisqSpec.
From Coq Require Import Permutation Reals Lra Sorted.
Local Open Scope nat_scope.

(* ---------- np.unique and positions ---------- *)
Section Unique.
Context {A : Type} (ltb : A -> A -> bool).
Hypothesis irr : forall x, ltb x x = false.
Hypothesis tri : forall x y, ltb x y = false -> ltb y x = false -> x = y.
Hypothesis trans : forall x y z, ltb x y = true -> ltb y z = true -> ltb x z = true.
Lemma in_uinsert x l z : In z (uinsert ltb x l) <-> z = x \/ In z l.
Proof.
  induction l as [|y l IH]; cbn [uinsert In]; [intuition|]. destruct (ltb x y) eqn:E1; [cbn [In]; intuition|].
  destruct (ltb y x) eqn:E2; cbn [In]; [rewrite IH; intuition|]. rewrite (tri x y E1 E2). intuition.
Qed.
Lemma sorted_uinsert x l : StronglySorted (fun a b => ltb a b = true) l -> StronglySorted (fun a b => ltb a b = true) (uinsert ltb x l).
Proof.
  induction l as [|y l IH]; intros H; cbn [uinsert]; [repeat constructor|]. apply StronglySorted_inv in H. destruct H as [H1 H2].
  destruct (ltb x y) eqn:E1.
  - constructor; [now constructor|]. constructor; [exact E1|]. eapply Forall_impl; [|exact H2]. cbn. intros a Ha. eapply trans; eauto.
  - destruct (ltb y x) eqn:E2; [|now constructor]. constructor; [now apply IH|]. apply Forall_forall. intros z Hz. apply in_uinsert in Hz.
    destruct Hz as [->|Hz]; [exact E2|]. rewrite Forall_forall in H2. now apply H2.
Qed.
Lemma in_unique l z : In z (np_unique ltb l) <-> In z l.
Proof. induction l as [|a l IH]; cbn [np_unique fold_right]; [tauto|]. rewrite in_uinsert. unfold np_unique in IH. rewrite IH. cbn [In]. intuition. Qed.
Lemma nodup_unique l : NoDup (np_unique ltb l).
Proof.
  assert (H : StronglySorted (fun a b => ltb a b = true) (np_unique ltb l)).
  { induction l as [|a l IH]; cbn [np_unique fold_right]; [constructor|]. apply sorted_uinsert. exact IH. }
  induction H as [|a m H IH F]; constructor; [|exact IH]. intros Ha. rewrite Forall_forall in F. specialize (F a Ha). cbn in F. rewrite irr in F. discriminate.
Qed.
End Unique.
Section Position.
Context {A : Type} (eqb : A -> A -> bool) (d : A).
Hypothesis eqb_spec : forall x y, eqb x y = true <-> x = y.
Lemma position_in x l : In x l -> position eqb x l < length l /\ nth (position eqb x l) l d = x.
Proof.
  induction l as [|y l IH]; intros H; [destruct H|]. cbn [position length nth]. destruct (eqb x y) eqn:E.
  - apply eqb_spec in E. subst. split; [lia|reflexivity].
  - destruct H as [->|H]; [|destruct (IH H); split; [lia|assumption]]. exfalso. assert (eqb x x = true) by (now apply eqb_spec). congruence.
Qed.
Lemma position_inj x y l : In x l -> In y l -> position eqb x l = position eqb y l -> x = y.
Proof. intros Hx Hy E. destruct (position_in x l Hx) as [_ <-]. rewrite E. now apply position_in. Qed.
Lemma position_seq l : NoDup l -> map (fun x => position eqb x l) l = seq 0 (length l).
Proof.
  intros N. induction l as [|a l IH]; [reflexivity|]. apply NoDup_cons_iff in N. destruct N as [Na N]. cbn [length seq map].
  assert (Ea : position eqb a (a :: l) = 0). { cbn [position]. destruct (eqb a a) eqn:E; [reflexivity|]. exfalso. assert (eqb a a = true) by (now apply eqb_spec). congruence. }
  rewrite Ea. f_equal. rewrite <- seq_shift, <- (IH N), map_map. apply map_ext_in. intros x Hx. cbn [position]. destruct (eqb x a) eqn:E; [|reflexivity].
  apply eqb_spec in E. subst. contradiction.
Qed.
End Position.
Lemma zeqb_spec x y : Z.eqb x y = true <-> x = y. Proof. apply Z.eqb_eq. Qed.
Lemma neqb_spec x y : Nat.eqb x y = true <-> x = y. Proof. apply Nat.eqb_eq. Qed.
Lemma in_zunique l z : In z (np_unique Z.ltb l) <-> In z l. Proof. apply in_unique; intros; lia. Qed.
Lemma nodup_zunique l : NoDup (np_unique Z.ltb l). Proof. apply nodup_unique; intros; lia. Qed.
Lemma ltb_tri x y : Nat.ltb x y = false -> Nat.ltb y x = false -> x = y. Proof. rewrite !Nat.ltb_ge. lia. Qed.
Lemma ltb_tra x y z : Nat.ltb x y = true -> Nat.ltb y z = true -> Nat.ltb x z = true. Proof. rewrite !Nat.ltb_lt. lia. Qed.
Lemma in_nunique l z : In z (np_unique Nat.ltb l) <-> In z l. Proof. apply in_unique. exact ltb_tri. Qed.
Lemma nodup_nunique l : NoDup (np_unique Nat.ltb l). Proof. apply nodup_unique; [apply Nat.ltb_irrefl|exact ltb_tri|exact ltb_tra]. Qed.

(* ---------- counting ---------- *)
Definition cnt {A} (p : A -> bool) (l : list A) : nat := length (filter p l).
Lemma cnt_ext {A} (p q : A -> bool) l : (forall x, In x l -> p x = q x) -> cnt p l = cnt q l.
Proof. intros H. unfold cnt. f_equal. now apply filter_ext_in. Qed.
Lemma cnt_cons {A} (p : A -> bool) a l : cnt p (a :: l) = (if p a then 1 else 0) + cnt p l.
Proof. unfold cnt. cbn [filter]. destruct (p a); reflexivity. Qed.
Lemma cnt_map {A B} (f : A -> B) p l : cnt p (map f l) = cnt (fun x => p (f x)) l.
Proof. induction l as [|a l IH]; [reflexivity|]. cbn [map]. rewrite !cnt_cons. now rewrite IH. Qed.
Lemma cnt_filter {A} (p q : A -> bool) l : cnt p (filter q l) = cnt (fun x => q x && p x) l.
Proof. induction l as [|a l IH]; [reflexivity|]. cbn [filter]. rewrite cnt_cons. destruct (q a) eqn:E; rewrite ?cnt_cons, <- IH; reflexivity. Qed.
Lemma cnt_zero {A} (p : A -> bool) l : cnt p l = 0 <-> forall x, In x l -> p x = false.
Proof.
  induction l as [|a l IH]; [split; [intros _ x []|reflexivity]|]. rewrite cnt_cons. split.
  - intros H x [<-|Hx]; [destruct (p a); [lia|reflexivity]|]. apply IH; auto. lia.
  - intros H. rewrite (H a (or_introl eq_refl)). cbn. apply IH. intros; apply H; now right.
Qed.
Lemma count_occ_cnt {A} (f : A -> nat) l k : count_occ Nat.eq_dec (map f l) k = cnt (fun s => Nat.eqb (f s) k) l.
Proof.
  induction l as [|a l IH]; [reflexivity|]. cbn [map count_occ]. rewrite cnt_cons, <- IH. destruct (Nat.eq_dec (f a) k) as [E|N].
  - apply Nat.eqb_eq in E. now rewrite E.
  - apply Nat.eqb_neq in N. now rewrite N.
Qed.
Lemma nsum_S f n : nsum f (S n) = nsum f n + f n.
Proof. unfold nsum. rewrite seq_S, map_app, fold_right_app. cbn. generalize (f n). intros k. induction (map f (seq 0 n)) as [|a l IH]; cbn; lia. Qed.
Lemma nsum_ext f g n : (forall i, i < n -> f i = g i) -> nsum f n = nsum g n.
Proof. induction n as [|n IH]; intros H; [reflexivity|]. rewrite !nsum_S, IH, H by (auto; lia). reflexivity. Qed.
(** Adding up over the values of [f]. *)
Lemma nsum_cnt {A} (f : A -> nat) (p : A -> bool) n l : (forall x, In x l -> f x < n) -> nsum (fun i => cnt (fun x => p x && Nat.eqb (f x) i) l) n = cnt p l.
Proof.
  induction l as [|a l IH]; intros H.
  - unfold nsum, cnt. cbn. induction (seq 0 n) as [|x s IHs]; [reflexivity|exact IHs].
  - assert (E : forall k, nsum (fun i => if p a && Nat.eqb (f a) i then 1 else 0) k = if p a && Nat.ltb (f a) k then 1 else 0).
    { induction k as [|k IHk]; [cbn; now rewrite andb_false_r|]. rewrite nsum_S, IHk.
      destruct (p a); cbn [andb]; [|reflexivity]. destruct (Nat.ltb_spec (f a) k), (Nat.ltb_spec (f a) (S k)), (Nat.eqb_spec (f a) k); lia. }
    transitivity (nsum (fun i => if p a && Nat.eqb (f a) i then 1 else 0) n + nsum (fun i => cnt (fun x => p x && Nat.eqb (f x) i) l) n).
    + clear. induction n as [|n IH]; [reflexivity|]. rewrite !nsum_S, IH, cnt_cons. lia.
    + rewrite E, IH by (intros; apply H; now right). rewrite cnt_cons. specialize (H a (or_introl eq_refl)). apply Nat.ltb_lt in H. rewrite H, andb_true_r. reflexivity.
Qed.

(* ---------- bincount, reshape, radix ---------- *)
Lemma bincount_ok l m : (forall x, In x l -> x < m) -> bincount l m = map (count_occ Nat.eq_dec l) (seq 0 m).
Proof.
  intros H. unfold bincount. f_equal. f_equal. destruct l as [|a l]; [lia|]. 
  assert (list_max (a :: l) < m); [|lia]. assert (list_max (a :: l) <= m - 1).
  { apply list_max_le. apply Forall_forall. intros x Hx. specialize (H x Hx). lia. }
  specialize (H a (or_introl eq_refl)). lia.
Qed.
Lemma flat_lt w i j k m n : w < k -> i < m -> j < n -> w * (m * n) + i * n + j < k * m * n.
Proof.
  intros H1 H2 H3. assert (A : i * n + j < m * n) by nia. rewrite <- Nat.mul_assoc.
  pose proof (Nat.mul_le_mono_r (S w) k (m * n) H1). lia.
Qed.
Lemma flat_inj w i j w' i' j' m n : i < m -> j < n -> i' < m -> j' < n -> w * (m * n) + i * n + j = w' * (m * n) + i' * n + j' -> w = w' /\ i = i' /\ j = j'.
Proof.
  intros Hi Hj Hi' Hj' E. assert (B : i * n + j < m * n) by nia. assert (B' : i' * n + j' < m * n) by nia. assert (A : w = w').
  { destruct (Nat.lt_trichotomy w w') as [L|[L|L]]; [|exact L|].
    - pose proof (Nat.mul_le_mono_r (S w) w' (m * n) L). lia.
    - pose proof (Nat.mul_le_mono_r (S w') w (m * n) L). lia. }
  subst w'. assert (i = i') by (destruct (Nat.lt_trichotomy i i') as [L|[L|L]]; [nia|exact L|nia]). subst i'. split; [reflexivity|]. split; [reflexivity|lia].
Qed.
Lemma nth_map_seq {B} (f : nat -> B) k q d : q < k -> nth q (map f (seq 0 k)) d = f q.
Proof.
  intros H. rewrite nth_indep with (d' := f 0) by (now rewrite map_length, seq_length). rewrite (map_nth f), seq_nth by exact H. reflexivity.
Qed.
Lemma reshape_bincount (d : list sample) (w : sample -> nat) (idx : sample -> nat) k m n :
  (forall s, In s d -> w s < k /\ snd (fst s) < m /\ snd s < n /\ idx s = w s * (m * n) + snd (fst s) * n + snd s) ->
  exists ls, reshape k m n (bincount (map idx d) (k * m * n)) = Ok ls /\ length ls = k /\
    forall q i j, q < k -> i < m -> j < n -> nth q ls (fun _ _ => 0) i j = cnt (fun s => Nat.eqb (w s) q && (Nat.eqb (snd (fst s)) i && Nat.eqb (snd s) j)) d.
Proof.
  intros H. rewrite bincount_ok.
  2: { intros x Hx. apply in_map_iff in Hx. destruct Hx as (s & <- & Hs). destruct (H s Hs) as (H1 & H2 & H3 & ->). now apply flat_lt. }
  unfold reshape. rewrite map_length, seq_length, Nat.eqb_refl. eexists. split; [reflexivity|]. split; [now rewrite map_length, seq_length|].
  intros q i j Hq Hi Hj. rewrite (nth_map_seq (fun w i j => nth (w * (m * n) + i * n + j) (map (count_occ Nat.eq_dec (map idx d)) (seq 0 (k * m * n))) 0)) by exact Hq.
  pose proof (flat_lt q i j k m n Hq Hi Hj) as L. rewrite nth_map_seq by exact L. rewrite count_occ_cnt. apply cnt_ext. intros s Hs. destruct (H s Hs) as (H1 & H2 & H3 & ->).
  destruct (Nat.eqb_spec (w s * (m * n) + snd (fst s) * n + snd s) (q * (m * n) + i * n + j)) as [E|E].
  - apply flat_inj in E; auto. destruct E as (-> & -> & ->). now rewrite !Nat.eqb_refl.
  - destruct (Nat.eqb_spec (w s) q), (Nat.eqb_spec (snd (fst s)) i), (Nat.eqb_spec (snd s) j); cbn; try reflexivity. subst. congruence.
Qed.
Lemma prod_app a b : prod (a ++ b) = prod a * prod b.
Proof. unfold prod. induction a as [|x a IH]; cbn [app fold_right]; [lia|]. rewrite IH. nia. Qed.
Definition fits (cs vs : list nat) : Prop := Forall2 lt vs cs.
Lemma radix_app cs vs m n i j : length vs = length cs -> radix (cs ++ [m; n]) (vs ++ [i; j]) = radix cs vs * (m * n) + i * n + j.
Proof.
  revert vs. induction cs as [|c cs IH]; intros [|v vs] L; try discriminate L.
  - cbn. lia.
  - cbn [app radix]. rewrite IH by (now injection L). rewrite prod_app. unfold prod at 2. cbn [fold_right]. nia.
Qed.
Lemma radix_lt cs vs : fits cs vs -> radix cs vs < prod cs.
Proof. induction 1 as [|v c vs cs H1 H2 IH]; [cbn; lia|]. cbn [radix]. change (prod (c :: cs)) with (c * prod cs). nia. Qed.
Lemma radix_inj cs vs vs' : fits cs vs -> fits cs vs' -> radix cs vs = radix cs vs' -> vs = vs'.
Proof.
  intros H. revert vs'. induction H as [|v c vs cs H1 H2 IH]; intros vs' H' E; [now inversion H'|].
  inversion H' as [|v' c' vs2 cs' H3 H4]; subst. cbn [radix] in E. pose proof (radix_lt _ _ H2). pose proof (radix_lt _ _ H4).
  assert (v = v') by (destruct (Nat.lt_trichotomy v v') as [L|[L|L]]; [nia|exact L|nia]). subst. f_equal. apply IH; auto. lia.
Qed.

(* ---------- the three ways of counting give the tables of the strata ---------- *)
Definition tab (d : list sample) : table :=
  {| t_joint := fun i j => cnt (fun s => Nat.eqb (snd (fst s)) i && Nat.eqb (snd s) j) d; t_total := length d;
     t_row := fun i => cnt (fun s => Nat.eqb (snd (fst s)) i) d; t_col := fun j => cnt (fun s => Nat.eqb (snd s) j) d |}.
Definition agree (m n : nat) (t t' : table) : Prop :=
  t_total t = t_total t' /\ (forall i, i < m -> t_row t i = t_row t' i) /\ (forall j, j < n -> t_col t j = t_col t' j) /\
  (forall i j, i < m -> j < n -> t_joint t i j = t_joint t' i j).
Definition sidx (cs : list nat) (s : sample) : nat := radix cs (fst (fst s)).
Definition strat (cs : list nat) (d : list sample) (w : nat) : list sample := filter (fun s => Nat.eqb (sidx cs s) w) d.
Definition valid (cs : list nat) (m n : nat) (d : list sample) : Prop :=
  forall s, In s d -> fits cs (fst (fst s)) /\ snd (fst s) < m /\ snd s < n.

(** The row, column and grand totals follow from the joint counts. *)
Lemma strat_joint cs d w i j : t_joint (tab (strat cs d w)) i j = cnt (fun s => Nat.eqb (sidx cs s) w && (Nat.eqb (snd (fst s)) i && Nat.eqb (snd s) j)) d.
Proof. cbn [tab t_joint]. apply cnt_filter. Qed.
Lemma tab_row cs m n d w (l : layer) i : valid cs m n d -> (forall i j, i < m -> j < n -> l i j = t_joint (tab (strat cs d w)) i j) -> i < m ->
  nsum (l i) n = t_row (tab (strat cs d w)) i.
Proof.
  intros V H Hi. rewrite (nsum_ext _ (fun j => cnt (fun s => Nat.eqb (snd (fst s)) i && Nat.eqb (snd s) j) (strat cs d w)) n) by (intros j Hj; now rewrite H).
  cbn [tab t_row]. apply (nsum_cnt (fun s : sample => snd s) (fun s => Nat.eqb (snd (fst s)) i)). intros s Hs. apply filter_In in Hs. now apply V.
Qed.
Lemma tab_col cs m n d w (l : layer) j : valid cs m n d -> (forall i j, i < m -> j < n -> l i j = t_joint (tab (strat cs d w)) i j) -> j < n ->
  nsum (fun i => l i j) m = t_col (tab (strat cs d w)) j.
Proof.
  intros V H Hj. rewrite (nsum_ext _ (fun i => cnt (fun s => Nat.eqb (snd s) j && Nat.eqb (snd (fst s)) i) (strat cs d w)) m).
  2: { intros i Hi. rewrite H by auto. cbn [tab t_joint]. apply cnt_ext. intros. apply andb_comm. }
  cbn [tab t_col]. apply (nsum_cnt (fun s : sample => snd (fst s)) (fun s => Nat.eqb (snd s) j)). intros s Hs. apply filter_In in Hs. now apply V.
Qed.
Lemma cnt_true {A} (l : list A) : cnt (fun _ => true) l = length l.
Proof. induction l as [|a l IH]; [reflexivity|]. rewrite cnt_cons, IH. reflexivity. Qed.
Lemma tab_total cs m n d w (l : layer) : valid cs m n d -> (forall i j, i < m -> j < n -> l i j = t_joint (tab (strat cs d w)) i j) ->
  nsum (fun i => nsum (l i) n) m = length (strat cs d w).
Proof.
  intros V H. rewrite (nsum_ext _ (fun i => cnt (fun s => true && Nat.eqb (snd (fst s)) i) (strat cs d w)) m) by (intros i Hi; now apply (tab_row cs m n d w)).
  rewrite (nsum_cnt (fun s : sample => snd (fst s)) (fun _ => true)); [apply cnt_true|]. intros s Hs. apply filter_In in Hs. now apply V.
Qed.
Definition indices (cs : list nat) (d : list sample) (W : list nat) : Prop := NoDup W /\ forall w, In w W <-> exists s, In s d /\ sidx cs s = w.

Lemma nth_map_layers {B} (f : layer -> B) ls : map f ls = map (fun q => f (nth q ls (fun _ _ => 0))) (seq 0 (length ls)).
Proof.
  induction ls as [|l ls IH]; [reflexivity|]. cbn [length map seq nth]. f_equal. rewrite IH, <- seq_shift, map_map. apply map_ext. reflexivity.
Qed.
Lemma fill2D_ok m n d : valid [] m n d -> d <> [] ->
  exists ts W, fill2D d m n = Ok ts /\ indices [] d W /\ Forall2 (agree m n) ts (map (fun w => tab (strat [] d w)) W).
Proof.
  intros V Nd. unfold fill2D.
  assert (S0 : strat [] d 0 = d). { unfold strat, sidx. cbn. clear. induction d as [|a d IH]; [reflexivity|]. cbn [filter]. destruct (fst (fst a)); now rewrite IH. }
  destruct (reshape_bincount d (fun _ => 0) (fun s => snd (fst s) * n + snd s) 1 m n) as (ls & E & L & H).
  { intros s Hs. destruct (V s Hs) as (_ & V1 & V2). split; [lia|]. split; [exact V1|]. split; [exact V2|lia]. }
  replace (1 * m * n) with (m * n) in E by lia. rewrite E. destruct ls as [|l [|l2 ls]]; try discriminate L.
  eexists. exists [0]. split; [reflexivity|]. split.
  { split; [repeat constructor; intros []|]. intros w. cbn [In]. split.
    - intros [<-|[]]. destruct d as [|s d]; [congruence|]. exists s. split; [now left|]. unfold sidx. cbn. now destruct (fst (fst s)).
    - intros (s & Hs & <-). left. unfold sidx. cbn. now destruct (fst (fst s)). }
  cbn [map]. constructor; [|constructor].
  assert (HJ : forall i j, i < m -> j < n -> l i j = t_joint (tab (strat [] d 0)) i j).
  { intros i j Hi Hj. specialize (H 0 i j). cbn [nth] in H. rewrite H by lia. rewrite S0. reflexivity. }
  split; [cbn; now rewrite S0|]. split; [intros i Hi; cbn [t_row]; now apply (tab_row [] m n d 0)|].
  split; [intros j Hj; cbn [t_col]; now apply (tab_col [] m n d 0)|]. exact HJ.
Qed.
Lemma fill3D_bincount_ok cs m n d : valid cs m n d ->
  exists ts W, fill3D_bincount d cs m n = Ok ts /\ indices cs d W /\ Forall2 (agree m n) ts (map (fun w => tab (strat cs d w)) W).
Proof.
  intros V. unfold fill3D_bincount.
  destruct (reshape_bincount d (sidx cs) (fun s => radix (cs ++ [m; n]) (fst (fst s) ++ [snd (fst s); snd s])) (prod cs) m n) as (ls & E & L & H).
  { intros s Hs. destruct (V s Hs) as (V0 & V1 & V2). split; [now apply radix_lt|]. split; [exact V1|]. split; [exact V2|].
    apply radix_app. clear -V0. induction V0; cbn; congruence. }
  rewrite E. set (tot := fun l : layer => nsum (fun i => nsum (l i) n) m).
  assert (HT : forall q, q < prod cs -> tot (nth q ls (fun _ _ => 0)) = length (strat cs d q)).
  { intros q Hq. apply tab_total; auto. intros i j Hi Hj. rewrite strat_joint. now apply H. }
  eexists. exists (filter (fun q => negb (Nat.eqb (length (strat cs d q)) 0)) (seq 0 (prod cs))). split; [reflexivity|]. split.
  { split; [apply NoDup_filter, seq_NoDup|]. intros w. rewrite filter_In, in_seq0, negb_true_iff, Nat.eqb_neq. split.
    - intros [_ H1]. destruct (strat cs d w) as [|s r] eqn:Es; [now contradiction H1|]. exists s.
      assert (Hs : In s (strat cs d w)) by (rewrite Es; now left). apply filter_In in Hs. destruct Hs as [Hs1 Hs2]. apply Nat.eqb_eq in Hs2. auto.
    - intros (s & Hs & <-). split; [apply radix_lt, V, Hs|]. intros H0. apply length_zero_iff_nil in H0.
      assert (Hi : In s (strat cs d (sidx cs s))) by (apply filter_In; rewrite Nat.eqb_refl; auto). rewrite H0 in Hi. destruct Hi. }
  fold tot.
  assert (G : forall s, (forall q, In q s -> q < prod cs) ->
     Forall2 (agree m n) (map (fun l => {| t_joint := l; t_total := tot l; t_row := fun i => nsum (l i) n; t_col := fun j => nsum (fun i => l i j) m |})
         (filter (fun l => negb (Nat.eqb (tot l) 0)) (map (fun q => nth q ls (fun _ _ => 0)) s)))
       (map (fun w => tab (strat cs d w)) (filter (fun q => negb (Nat.eqb (length (strat cs d q)) 0)) s))).
  { induction s as [|q s IH]; intros Hs; [constructor|]. cbn [map filter]. rewrite HT by (apply Hs; now left).
    destruct (negb (Nat.eqb (length (strat cs d q)) 0)); [|apply IH; intros; apply Hs; now right]. cbn [map].
    constructor; [|apply IH; intros; apply Hs; now right].
    assert (Hq : q < prod cs) by (apply Hs; now left).
    assert (HJ : forall i j, i < m -> j < n -> nth q ls (fun _ _ => 0) i j = t_joint (tab (strat cs d q)) i j) by (intros i j Hi Hj; rewrite strat_joint; now apply H).
    split; [cbn [t_total tab]; now apply HT|]. split; [intros i Hi; cbn [t_row]; now apply (tab_row cs m n d q)|].
    split; [intros j Hj; cbn [t_col]; now apply (tab_col cs m n d q)|]. exact HJ. }
  specialize (G (seq 0 (prod cs))).
  assert (EL : map (fun q => nth q ls (fun _ _ => 0)) (seq 0 (prod cs)) = ls) by (rewrite <- L, <- (nth_map_layers (fun l => l)); apply map_id). rewrite EL in G. apply G. intros q Hq. now apply in_seq0.
Qed.
Lemma fill3D_unique_ok cs m n d : valid cs m n d ->
  exists ts W, fill3D_unique d cs m n = Ok ts /\ indices cs d W /\ Forall2 (agree m n) ts (map (fun w => tab (strat cs d w)) W).
Proof.
  intros V. unfold fill3D_unique. change (map (fun s : sample => radix cs (fst (fst s))) d) with (map (sidx cs) d).
  set (uniq := np_unique Nat.ltb (map (sidx cs) d)).
  assert (HU : forall w, In w uniq <-> exists s, In s d /\ sidx cs s = w).
  { intros w. unfold uniq. rewrite in_nunique, in_map_iff. split; intros (s & A & B); eauto. }
  assert (Hp : forall s, In s d -> position Nat.eqb (sidx cs s) uniq < length uniq /\ nth (position Nat.eqb (sidx cs s) uniq) uniq 0 = sidx cs s).
  { intros s Hs. apply position_in; [exact neqb_spec|]. apply HU. eauto. }
  destruct (reshape_bincount d (fun s => position Nat.eqb (sidx cs s) uniq)
    (fun s => position Nat.eqb (radix cs (fst (fst s))) uniq * m * n + snd (fst s) * n + snd s) (length uniq) m n) as (ls & E & L & H).
  { intros s Hs. destruct (V s Hs) as (V0 & V1 & V2). split; [now apply Hp|]. split; [exact V1|]. split; [exact V2|]. unfold sidx. lia. }
  rewrite E. eexists. exists uniq. split; [reflexivity|]. split; [split; [apply nodup_nunique|exact HU]|].
  assert (HN : NoDup uniq) by apply nodup_nunique.
  assert (G : forall s, (forall q, In q s -> q < length uniq) ->
     Forall2 (agree m n) (map (fun lt : layer * nat => {| t_joint := fst lt; t_total := snd lt; t_row := fun i => nsum (fst lt i) n; t_col := fun j => nsum (fun i => fst lt i j) m |})
         (combine (map (fun q => nth q ls (fun _ _ => 0)) s) (map (fun q => count_occ Nat.eq_dec (map (sidx cs) d) (nth q uniq 0)) s)))
       (map (fun q => tab (strat cs d (nth q uniq 0))) s)).
  { induction s as [|q s IH]; intros Hs; [constructor|]. cbn [map combine]. constructor; [|apply IH; intros; apply Hs; now right].
    assert (Hq : q < length uniq) by (apply Hs; now left). set (w := nth q uniq 0).
    assert (HJ : forall i j, i < m -> j < n -> nth q ls (fun _ _ => 0) i j = t_joint (tab (strat cs d w)) i j).
    { intros i j Hi Hj. rewrite strat_joint, H by auto. apply cnt_ext. intros s0 Hs0. f_equal. destruct (Hp s0 Hs0) as [P1 P2].
      destruct (Nat.eqb_spec (position Nat.eqb (sidx cs s0) uniq) q) as [Eq|Nq].
      - subst q. fold w in P2. rewrite <- P2. symmetry. apply Nat.eqb_refl.
      - symmetry. apply Nat.eqb_neq. intros Ew. apply Nq. rewrite NoDup_nth with (d := 0) in HN. apply HN; auto. rewrite P2. exact Ew. }
    split; [cbn [t_total tab fst snd]; rewrite count_occ_cnt; reflexivity|]. split; [intros i Hi; cbn [t_row fst]; now apply (tab_row cs m n d w)|].
    split; [intros j Hj; cbn [t_col fst]; now apply (tab_col cs m n d w)|]. exact HJ. }
  specialize (G (seq 0 (length uniq))).
  assert (EL : map (fun q => nth q ls (fun _ _ => 0)) (seq 0 (length uniq)) = ls) by (rewrite <- L, <- (nth_map_layers (fun l => l)); apply map_id). rewrite EL in G.
  assert (K : forall {B} (f : nat -> B), map (fun q => f (nth q uniq 0)) (seq 0 (length uniq)) = map f uniq).
  { intros B f. clear. induction uniq as [|u l IH]; [reflexivity|]. cbn [length seq map nth]. f_equal. rewrite <- IH, <- seq_shift, map_map. reflexivity. }
  rewrite (K _ (count_occ Nat.eq_dec (map (sidx cs) d))), (K _ (fun w => tab (strat cs d w))) in G. apply G. intros q Hq. now apply in_seq0.
Qed.

(* ---------- the statistic only sees the counts ---------- *)
Lemma forallb_seq_ext (p q : nat -> bool) n : (forall j, j < n -> p j = q j) -> forallb p (seq 0 n) = forallb q (seq 0 n).
Proof.
  intros H. assert (K : forall l, (forall j, In j l -> j < n) -> forallb p l = forallb q l).
  { induction l as [|a l IH]; intros Hl; [reflexivity|]. cbn [forallb]. rewrite IH, H; [reflexivity|apply Hl; now left|intros; apply Hl; now right]. }
  apply K. intros j Hj. now apply in_seq0.
Qed.
Lemma agree_ezero m n t t' i j : agree m n t t' -> i < m -> j < n -> ezero t i j = ezero t' i j.
Proof. intros (_ & H1 & H2 & _) Hi Hj. unfold ezero. now rewrite H1, H2. Qed.
Lemma agree_cell g m n t t' i j : agree m n t t' -> i < m -> j < n -> cell g t i j = cell g t' i j.
Proof.
  intros H Hi Hj. pose proof (agree_ezero m n t t' i j H Hi Hj) as E. destruct H as (H0 & H1 & H2 & H3). unfold cell, expected. now rewrite E, H0, H1, H2, H3.
Qed.
Lemma filter_seq_ext (p q : nat -> bool) n : (forall j, j < n -> p j = q j) -> filter p (seq 0 n) = filter q (seq 0 n).
Proof. intros H. apply filter_ext_in. intros j Hj. apply H. now apply in_seq0. Qed.
Lemma agree_zero_rows m n t t' : agree m n t t' -> zero_rows m n t = zero_rows m n t'.
Proof. intros H. unfold zero_rows. f_equal. apply filter_seq_ext. intros i Hi. apply forallb_seq_ext. intros j Hj. now apply (agree_ezero m n). Qed.
Lemma agree_zero_cols m n t t' : agree m n t t' -> zero_cols m n t = zero_cols m n t'.
Proof. intros H. unfold zero_cols. f_equal. apply filter_seq_ext. intros j Hj. apply forallb_seq_ext. intros i Hi. now apply (agree_ezero m n). Qed.
Lemma agree_statistic g m n ts ts' : Forall2 (agree m n) ts ts' -> statistic g m n ts = statistic g m n ts'.
Proof.
  intros H. unfold statistic. induction H as [|t t' ts ts' H1 H2 IH]; [reflexivity|]. rewrite !rsum_cons, IH. f_equal.
  apply rsum_ext. intros i Hi. apply rsum_ext. intros j Hj. apply in_seq0 in Hi, Hj. now apply (agree_cell g m n).
Qed.
Lemma agree_degrees m n ts ts' : Forall2 (agree m n) ts ts' -> degrees m n ts = degrees m n ts'.
Proof.
  intros H. unfold degrees. induction H as [|t t' ts ts' H1 H2 IH]; [reflexivity|]. cbn [map fold_right]. rewrite IH.
  now rewrite (agree_zero_rows m n t t' H1), (agree_zero_cols m n t t' H1).
Qed.
Lemma degrees_perm m n ts ts' : Permutation ts ts' -> degrees m n ts = degrees m n ts'.
Proof. induction 1; unfold degrees in *; cbn [map fold_right]; lia. Qed.

(** The outcome of the test, as a function of the strata. *)
Lemma test_strata sf th g d cs m n : valid cs m n d -> d <> [] ->
  exists W, indices cs d W /\ chisq_or_gsq_test sf th g d cs m n =
    Ok (let ts := map (fun w => tab (strat cs d w)) W in if Z.eqb (degrees m n ts) 0 then 1%R else sf (statistic g m n ts) (degrees m n ts)).
Proof.
  intros V Nd. unfold chisq_or_gsq_test.
  assert (K : forall ts W, Forall2 (agree m n) ts (map (fun w => tab (strat cs d w)) W) -> p_value sf g m n ts =
     (let ts := map (fun w => tab (strat cs d w)) W in if Z.eqb (degrees m n ts) 0 then 1%R else sf (statistic g m n ts) (degrees m n ts))).
  { intros ts W H. unfold p_value. cbv zeta. now rewrite (agree_statistic g m n _ _ H), (agree_degrees m n _ _ H). }
  destruct cs as [|c cs].
  - destruct (fill2D_ok m n d V Nd) as (ts & W & E & HI & HF). exists W. split; [exact HI|]. rewrite E. f_equal. now apply K.
  - destruct (_ && _).
    + destruct (fill3D_bincount_ok (c :: cs) m n d V) as (ts & W & E & HI & HF). exists W. split; [exact HI|]. rewrite E. f_equal. now apply K.
    + destruct (fill3D_unique_ok (c :: cs) m n d V) as (ts & W & E & HI & HF). exists W. split; [exact HI|]. rewrite E. f_equal. now apply K.
Qed.

(* ---------- from codes back to values ---------- *)
Section Rows.
Variable rows : list (list Z).
Hypothesis rows_ne : rows <> [].
Let uniq k := np_unique Z.ltb (column k rows).
Let code k v := position Z.eqb v (uniq k).
Lemma in_uniq k v : In v (uniq k) <-> exists r, In r rows /\ value r k = v.
Proof. unfold uniq. rewrite in_zunique. unfold column. rewrite in_map_iff. split; intros (r & A & B); exists r; auto. Qed.
Lemma recode_code k r : recode rows k r = code k (value r k). Proof. reflexivity. Qed.
Lemma code_lt k v : In v (uniq k) -> code k v < length (uniq k).
Proof. intros H. now apply (position_in Z.eqb 0%Z zeqb_spec). Qed.
Lemma code_inj k u v : In u (uniq k) -> In v (uniq k) -> code k u = code k v -> u = v.
Proof. apply (position_inj Z.eqb 0%Z zeqb_spec). Qed.
Lemma code_seq k : map (code k) (uniq k) = seq 0 (length (uniq k)).
Proof. apply (position_seq Z.eqb zeqb_spec). apply nodup_zunique. Qed.
Lemma card_uniq k : cardinality rows k = length (uniq k).
Proof.
  unfold cardinality. 
  assert (U : exists r, In r rows) by (destruct rows as [|r l]; [congruence|exists r; now left]). destruct U as (r0 & Hr0).
  assert (L : 0 < length (uniq k)). { assert (H : In (value r0 k) (uniq k)) by (apply in_uniq; eauto). destruct (uniq k); [destruct H|cbn; lia]. }
  assert (A : list_max (map (recode rows k) rows) <= length (uniq k) - 1).
  { apply list_max_le. apply Forall_forall. intros x Hx. apply in_map_iff in Hx. destruct Hx as (r & <- & Hr). rewrite recode_code.
    assert (H : In (value r k) (uniq k)) by (apply in_uniq; eauto). apply code_lt in H. lia. }
  assert (B : length (uniq k) - 1 <= list_max (map (recode rows k) rows)).
  { assert (H : In (length (uniq k) - 1) (map (code k) (uniq k))) by (rewrite code_seq; apply in_seq0; lia).
    apply in_map_iff in H. destruct H as (v & Ev & Hv). apply in_uniq in Hv. destruct Hv as (r & Hr & Er).
    assert (F : Forall (fun x => x <= list_max (map (recode rows k) rows)) (map (recode rows k) rows)) by (apply list_max_le; lia).
    rewrite Forall_forall in F. apply F. rewrite <- Ev, <- Er. apply in_map_iff. exists r. auto. }
  lia.
Qed.
Variables x y : nat.
Variable cond : list nat.
Let enc (r : list Z) : sample := (map (fun k => recode rows k r) cond, recode rows x r, recode rows y r).
Let cs := map (cardinality rows) cond.
Let m := cardinality rows x.
Let n := cardinality rows y.
Lemma enc_valid : valid cs m n (map enc rows).
Proof.
  intros s Hs. apply in_map_iff in Hs. destruct Hs as (r & <- & Hr). cbn [enc fst snd].
  assert (K : forall k, recode rows k r < cardinality rows k) by (intros k; rewrite card_uniq, recode_code; apply code_lt, in_uniq; eauto).
  split; [|split; apply K]. unfold fits, cs. induction cond as [|k c IH]; cbn [map]; constructor; auto.
Qed.
Let cidx (w : list Z) : nat := radix cs (map (fun kv => code (fst kv) (snd kv)) (combine cond w)).
Lemma sidx_enc r : sidx cs (enc r) = cidx (config cond r).
Proof.
  unfold sidx, cidx, config. cbn [enc fst]. f_equal. clear. induction cond as [|k c IH]; [reflexivity|]. cbn [map combine]. now rewrite IH.
Qed.
Lemma cidx_inj r r' : In r rows -> In r' rows -> cidx (config cond r) = cidx (config cond r') -> config cond r = config cond r'.
Proof.
  intros Hr Hr' E. rewrite <- !sidx_enc in E. unfold sidx in E. cbn [enc fst] in E.
  apply radix_inj in E; [|apply (enc_valid (enc r)); now apply in_map|apply (enc_valid (enc r')); now apply in_map].
  assert (K : forall c, map (fun k => recode rows k r) c = map (fun k => recode rows k r') c -> map (value r) c = map (value r') c).
  { induction c as [|k c IH]; intros H; [reflexivity|]. cbn [map] in *. injection H as E1 E2. f_equal; [|now apply IH].
    rewrite !recode_code in E1. apply (code_inj k); auto; apply in_uniq; eauto. }
  now apply K.
Qed.
Lemma in_configs w : In w (configs cond rows) <-> exists r, In r rows /\ config cond r = w.
Proof. unfold configs. rewrite nodup_In, in_map_iff. split; intros (r & A & B); eauto. Qed.
Lemma strat_stratum w : In w (configs cond rows) -> strat cs (map enc rows) (cidx w) = map enc (stratum cond w rows).
Proof.
  intros Hw. apply in_configs in Hw. destruct Hw as (r0 & Hr0 & <-). unfold strat, stratum.
  assert (K : forall l, incl l rows -> filter (fun s => Nat.eqb (sidx cs s) (cidx (config cond r0))) (map enc l) =
    map enc (filter (fun r => if list_eq_dec Z.eq_dec (config cond r) (config cond r0) then true else false) l)).
  { induction l as [|r l IH]; intros Hl; [reflexivity|]. cbn [map filter]. rewrite sidx_enc, IH by (intros z Hz; apply Hl; now right).
    destruct (list_eq_dec Z.eq_dec (config cond r) (config cond r0)) as [E|N].
    - rewrite E, Nat.eqb_refl. reflexivity.
    - destruct (Nat.eqb_spec (cidx (config cond r)) (cidx (config cond r0))) as [E|_]; [|reflexivity].
      exfalso. apply N. apply cidx_inj; auto. apply Hl. now left. }
  apply K. apply incl_refl.
Qed.
Lemma indices_perm W : indices cs (map enc rows) W -> Permutation W (map cidx (configs cond rows)).
Proof.
  intros [N H]. apply NoDup_Permutation; [exact N| |].
  - assert (K : forall l, NoDup l -> incl l (configs cond rows) -> NoDup (map cidx l)).
    { induction l as [|w l IH]; intros Nl Hl; [constructor|]. apply NoDup_cons_iff in Nl. destruct Nl as [N1 N2]. cbn [map]. constructor; [|apply IH; auto; intros z Hz; apply Hl; now right].
      intros Hi. apply in_map_iff in Hi. destruct Hi as (w' & E & Hw'). apply N1.
      assert (A : In w (configs cond rows)) by (apply Hl; now left). assert (B : In w' (configs cond rows)) by (apply Hl; now right).
      apply in_configs in A, B. destruct A as (r & Hr & <-), B as (r' & Hr' & <-). now rewrite <- (cidx_inj r' r Hr' Hr E). }
    apply K; [apply NoDup_nodup|apply incl_refl].
  - intros w. rewrite H, in_map_iff. split.
    + intros (s & Hs & <-). apply in_map_iff in Hs. destruct Hs as (r & <- & Hr). exists (config cond r). split; [symmetry; apply sidx_enc|]. apply in_configs. eauto.
    + intros (v & <- & Hv). apply in_configs in Hv. destruct Hv as (r & Hr & <-). exists (enc r). split; [now apply in_map|]. apply sidx_enc.
Qed.

(** One stratum. *)
Variable st : list (list Z).
Hypothesis st_rows : incl st rows.
Lemma tab_row_val u : In u (uniq x) -> t_row (tab (map enc st)) (code x u) = length (filter (fun r => Z.eqb (value r x) u) st).
Proof.
  intros Hu. cbn [tab t_row]. rewrite cnt_map. unfold cnt. f_equal. apply filter_ext_in. intros r Hr. cbn [enc fst snd]. rewrite recode_code.
  destruct (Z.eqb_spec (value r x) u) as [->|N]; [apply Nat.eqb_refl|]. apply Nat.eqb_neq. intros E. apply N. apply (code_inj x); auto. apply in_uniq. eauto.
Qed.
Lemma tab_col_val v : In v (uniq y) -> t_col (tab (map enc st)) (code y v) = length (filter (fun r => Z.eqb (value r y) v) st).
Proof.
  intros Hu. cbn [tab t_col]. rewrite cnt_map. unfold cnt. f_equal. apply filter_ext_in. intros r Hr. cbn [enc fst snd]. rewrite recode_code.
  destruct (Z.eqb_spec (value r y) v) as [->|N]; [apply Nat.eqb_refl|]. apply Nat.eqb_neq. intros E. apply N. apply (code_inj y); auto. apply in_uniq. eauto.
Qed.
Lemma tab_joint_val u v : In u (uniq x) -> In v (uniq y) ->
  t_joint (tab (map enc st)) (code x u) (code y v) = length (filter (fun r => Z.eqb (value r x) u && Z.eqb (value r y) v) st).
Proof.
  intros Hu Hv. cbn [tab t_joint]. rewrite cnt_map. unfold cnt. f_equal. apply filter_ext_in. intros r Hr. cbn [enc fst snd]. rewrite !recode_code. f_equal.
  - destruct (Z.eqb_spec (value r x) u) as [->|N]; [apply Nat.eqb_refl|]. apply Nat.eqb_neq. intros E. apply N. apply (code_inj x); auto. apply in_uniq. eauto.
  - destruct (Z.eqb_spec (value r y) v) as [->|N]; [apply Nat.eqb_refl|]. apply Nat.eqb_neq. intros E. apply N. apply (code_inj y); auto. apply in_uniq. eauto.
Qed.
Lemma in_values k v : In v (values k st) <-> exists r, In r st /\ value r k = v.
Proof. unfold values. rewrite nodup_In, in_map_iff. split; intros (r & A & B); eauto. Qed.
Lemma count_pos k v : In v (values k st) -> length (filter (fun r => Z.eqb (value r k) v) st) <> 0.
Proof.
  intros H E. apply in_values in H. destruct H as (r & Hr & Er). apply length_zero_iff_nil in E.
  assert (Hi : In r (filter (fun r => Z.eqb (value r k) v) st)) by (apply filter_In; split; [exact Hr|now apply Z.eqb_eq]). rewrite E in Hi. destruct Hi.
Qed.
Lemma count_nil k v : ~ In v (values k st) -> length (filter (fun r => Z.eqb (value r k) v) st) = 0.
Proof.
  intros H. apply cnt_zero. intros r Hr. apply Z.eqb_neq. intros E. apply H. apply in_values. eauto.
Qed.
Lemma rsum_vals (f : Z -> R) k : (forall v, In v (uniq k) -> ~ In v (values k st) -> f v = 0%R) -> rsum f (uniq k) = rsum f (values k st).
Proof.
  intros Hf. 
  transitivity (rsum f (filter (fun v => if in_dec Z.eq_dec v (values k st) then true else false) (uniq k))).
  - revert Hf. generalize (uniq k). intros l. induction l as [|a l IH]; intros Hf; [reflexivity|]. cbn [filter]. rewrite rsum_cons, IH by (intros; apply Hf; auto; now right).
    destruct (in_dec Z.eq_dec a (values k st)) as [H|H]; [now rewrite rsum_cons|]. rewrite (Hf a) by (auto; now left). lra.
  - apply rsum_perm. apply NoDup_Permutation; [apply NoDup_filter, nodup_zunique|apply NoDup_nodup|]. intros v. rewrite filter_In.
    destruct (in_dec Z.eq_dec v (values k st)) as [H|H]; [|split; [intros [_ K]; discriminate|tauto]]. split; [tauto|]. intros _. split; [|reflexivity].
    apply in_values in H. destruct H as (r & Hr & Er). apply in_uniq. eauto.
Qed.
Lemma rsum_map {A B} (f : B -> R) (g : A -> B) l : rsum f (map g l) = rsum (fun a => f (g a)) l.
Proof. unfold rsum. now rewrite map_map. Qed.
Lemma table_statistic g : st <> [] ->
  rsum (fun i => rsum (fun j => cell g (tab (map enc st)) i j) (seq 0 n)) (seq 0 m) =
  rsum (fun u => rsum (fun v => contribution g st x u y v) (values y st)) (values x st).
Proof.
  intros Hst. unfold m, n. rewrite !card_uniq, <- !code_seq, rsum_map.
  rewrite (rsum_ext _ (fun u => rsum (fun v => cell g (tab (map enc st)) (code x u) (code y v)) (uniq y))) by (intros u _; apply rsum_map).
  assert (Z0 : forall u v, In u (uniq x) -> In v (uniq y) -> ~ In u (values x st) \/ ~ In v (values y st) -> cell g (tab (map enc st)) (code x u) (code y v) = 0%R).
  { intros u v Hu Hv H. unfold cell, ezero, expected. rewrite tab_row_val, tab_col_val, tab_joint_val by auto.
    assert (J : length (filter (fun r => Z.eqb (value r x) u && Z.eqb (value r y) v) st) = 0).
    { apply cnt_zero. intros r Hr. apply andb_false_iff. destruct H as [H|H]; [left|right]; apply Z.eqb_neq; intros E; apply H, in_values; eauto. }
    rewrite J. cbn [Nat.eqb INR].
    assert (M : length (filter (fun r => Z.eqb (value r x) u) st) * length (filter (fun r => Z.eqb (value r y) v) st) = 0).
    { destruct H as [H|H]; rewrite (count_nil _ _ H); lia. }
    rewrite M. cbn [Nat.eqb]. destruct g; [rewrite ln_1; lra|].
    rewrite <- mult_INR, M. cbn [INR]. unfold Rdiv. lra. }
  rewrite (rsum_vals _ x).
  - apply rsum_ext. intros u Hu. assert (Hu' : In u (uniq x)) by (apply in_values in Hu; destruct Hu as (r & Hr & Er); apply in_uniq; eauto).
    rewrite (rsum_vals _ y) by (intros v Hv Nv; apply Z0; auto). apply rsum_ext. intros v Hv.
    assert (Hv' : In v (uniq y)) by (apply in_values in Hv; destruct Hv as (r & Hr & Er); apply in_uniq; eauto).
    pose proof (count_pos x u Hu) as P1. pose proof (count_pos y v Hv) as P2.
    unfold cell, contribution, ezero, expected, expect, occurs, occur2. rewrite tab_row_val, tab_col_val, tab_joint_val by auto. cbn [tab t_total]. rewrite map_length.
    assert (M : Nat.eqb (length (filter (fun r => Z.eqb (value r x) u) st) * length (filter (fun r => Z.eqb (value r y) v) st)) 0 = false) by (apply Nat.eqb_neq; nia).
    rewrite M. destruct g; [|reflexivity].
    set (c := length (filter (fun r => Z.eqb (value r x) u && Z.eqb (value r y) v) st)).
    destruct (Req_EM_T (INR c) 0) as [E|E].
    + apply INR_eq with (m := 0) in E. rewrite E. cbn [Nat.eqb INR]. rewrite ln_1. lra.
    + destruct (Nat.eqb_spec c 0) as [E0|_]; [rewrite E0 in E; cbn in E; lra|]. reflexivity.
  - intros u Hu Nu. rewrite (rsum_ext _ (fun _ => 0%R)); [apply rsum_0|]. intros v Hv. apply Z0; auto.
Qed.
Lemma len_filter_vals k (p : Z -> bool) : (forall v, In v (uniq k) -> p v = true <-> ~ In v (values k st)) -> length (uniq k) = length (filter p (uniq k)) + length (values k st).
Proof.
  intros Hp. assert (E : length (values k st) = length (filter (fun v => negb (p v)) (uniq k))).
  { apply Permutation_length. apply NoDup_Permutation; [apply NoDup_nodup|apply NoDup_filter, nodup_zunique|]. intros v. rewrite filter_In, negb_true_iff. split.
    - intros H. assert (Hv : In v (uniq k)) by (apply in_values in H; destruct H as (r & Hr & Er); apply in_uniq; eauto). split; [exact Hv|].
      destruct (p v) eqn:Ep; [|reflexivity]. apply Hp in Ep; auto. contradiction.
    - intros [Hv Ep]. destruct (in_dec Z.eq_dec v (values k st)) as [H|H]; [exact H|]. apply Hp in H; auto. congruence. }
  rewrite E. clear. induction (uniq k) as [|a l IH]; [reflexivity|]. cbn [filter length]. destruct (p a); cbn [negb length]; lia.
Qed.
Lemma length_filter_map {A B} (f : A -> B) p l : length (filter p (map f l)) = length (filter (fun a => p (f a)) l).
Proof. apply (cnt_map f p l). Qed.
Lemma table_rows : st <> [] -> m = zero_rows m n (tab (map enc st)) + length (values x st).
Proof.
  intros Hst. unfold m at 1. rewrite card_uniq. unfold zero_rows. unfold m, n. rewrite !card_uniq, <- (code_seq x), length_filter_map. apply len_filter_vals.
  intros u Hu. rewrite forallb_forall. unfold ezero. split.
  - intros H Hin. destruct st as [|r0 st'] eqn:Est; [congruence|]. rewrite <- Est in *.
    assert (Hr0 : In r0 st) by (rewrite Est; now left). set (v := value r0 y).
    assert (Hv : In v (uniq y)) by (apply in_uniq; exists r0; auto). assert (Hv' : In v (values y st)) by (apply in_values; eauto).
    specialize (H (code y v)). rewrite <- (code_seq y) in H. specialize (H (in_map _ _ _ Hv)). apply Nat.eqb_eq in H.
    rewrite tab_row_val, tab_col_val in H by auto. pose proof (count_pos x u Hin). pose proof (count_pos y v Hv'). nia.
  - intros Hin j Hj. rewrite tab_row_val, (count_nil x u Hin) by auto. reflexivity.
Qed.
Lemma table_cols : st <> [] -> n = zero_cols m n (tab (map enc st)) + length (values y st).
Proof.
  intros Hst. unfold n at 1. rewrite card_uniq. unfold zero_cols. unfold m, n. rewrite !card_uniq, <- (code_seq y), length_filter_map. apply len_filter_vals.
  intros v Hv. rewrite forallb_forall. unfold ezero. split.
  - intros H Hin. destruct st as [|r0 st'] eqn:Est; [congruence|]. rewrite <- Est in *.
    assert (Hr0 : In r0 st) by (rewrite Est; now left). set (u := value r0 x).
    assert (Hu : In u (uniq x)) by (apply in_uniq; exists r0; auto). assert (Hu' : In u (values x st)) by (apply in_values; eauto).
    specialize (H (code x u)). rewrite <- (code_seq x) in H. specialize (H (in_map _ _ _ Hu)). apply Nat.eqb_eq in H.
    rewrite tab_row_val, tab_col_val in H by auto. pose proof (count_pos x u Hu'). pose proof (count_pos y v Hin). nia.
  - intros Hin i Hi. rewrite tab_col_val, (count_nil y v Hin) by auto. rewrite Nat.mul_0_r. reflexivity.
Qed.
End Rows.
