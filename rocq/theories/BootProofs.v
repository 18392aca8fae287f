(** Proofs about find_all_paths and the bootstrap counts. *)
From Verif Require Import Base UtilsModel EdgeModel GraphModel GraphSpec GraphProofs DsepSpec RankLib MeekSpec CDNODTheory BootModel BootSpec.
From Coq Require Import Permutation Sorted.
Local Open Scope Z_scope.

(** ** A finite acyclic relation has a numbering *)
Lemma relation_rank n (E : nat -> nat -> bool) : (forall a b, E a b = true -> (a < n)%nat /\ (b < n)%nat) -> acyclic (fun a b => E a b = true) ->
  exists r : nat -> nat, forall a b, E a b = true -> (r a < r b)%nat.
Proof.
  intros HE HA. assert (NS : forall a b, E a b = true -> E b a = true -> False) by (intros a b H1 H2; apply (HA a); exists b; split; [exact H1|]; apply reach_step with a; [exact H2|apply reach_refl]).
  assert (D : forall a b, dedge (rgraph n E) a b -> E a b = true).
  { intros a b (_ & _ & [K|K]); cbn [gm rgraph] in K; destruct (E a b); try reflexivity; destruct (E b a); destruct K; discriminate. }
  destruct (topological_rank (rgraph n E)) as (r & Hr).
  - intros a (b & K1 & K2). apply (HA a). exists b. split; [now apply D|]. eapply reach_mono; [|exact K2]. intros x y K. now apply D.
  - exists r. intros a b H. apply Hr. destruct (HE a b H) as [Ha Hb]. split; [exact Ha|]. split; [exact Hb|]. left. cbn [gm rgraph]. rewrite H. destruct (E b a) eqn:Q; [exfalso; eauto|]. auto.
Qed.

(** ** The DFS *)
Lemma in_to_indices n B thr a b : (a < n)%nat -> In b (to_indices n B thr a) <-> strong n B thr a b.
Proof. intros Ha. unfold to_indices, strong, over. rewrite filter_In, in_seq0, Z.ltb_lt. tauto. Qed.
Section Dfs.
Variable n : nat.
Variable ch : nat -> list nat.
Variables from to : nat.
(** Any graph: the search ends, or raises. *)
Lemma dfs_ends : forall e rem c below acc, (n < length below + e)%nat ->
  (exists k ps, forall f, dfs (k + f) n ch from to ((c, rem) :: below) acc = dfs f n ch from to below (acc ++ ps)) \/
  (exists k, forall f, dfs (k + f) n ch from to ((c, rem) :: below) acc = Failed).
Proof.
  induction e as [|e IH].
  - intros rem c below acc He. right. exists 1%nat. intros f. cbn [dfs Nat.add length]. rewrite (proj2 (Nat.ltb_lt n (S (length below)))) by lia. reflexivity.
  - induction rem as [|x rem IHr]; intros c below acc He; (destruct (Nat.ltb n (S (length below))) eqn:L; [right; exists 1%nat; intros f; cbn [dfs Nat.add length]; now rewrite L|]);
      (destruct (Nat.eqb c to) eqn:T; [left; exists 1%nat; eexists; intros f; cbn [dfs Nat.add length]; rewrite L, T; reflexivity|]).
    + left. exists 1%nat, []. intros f. cbn [dfs Nat.add length]. rewrite L, T, app_nil_r. reflexivity.
    + set (kids := if Nat.eqb x from then snd (last ((c, rem) :: below) (0%nat, [])) else ch x).
      destruct (IH kids x ((c, rem) :: below) acc) as [(k & ps & H)|(k & H)]; [cbn [length]; lia| |].
      * destruct (IHr c below (acc ++ ps) He) as [(k' & ps' & H')|(k' & H')].
        -- left. exists (S (k + k')), (ps ++ ps'). intros f. cbn [dfs Nat.add length]. rewrite L, T. fold kids. rewrite <- Nat.add_assoc, H, H'. now rewrite app_assoc.
        -- right. exists (S (k + k')). intros f. cbn [dfs Nat.add length]. rewrite L, T. fold kids. rewrite <- Nat.add_assoc, H. apply H'.
      * right. exists (S k). intros f. cbn [dfs Nat.add length]. rewrite L, T. fold kids. apply H.
Qed.
(** Acyclic graphs. *)
Variable r : nat -> nat.
Hypothesis Hch : forall x y, In y (ch x) -> (r x < r y)%nat /\ (y < n)%nat.
Hypothesis HND : forall x, NoDup (ch x).
Let R (a b : nat) : Prop := In b (ch a).
Lemma path_rank a b p : path_from R a b p -> (r a <= r b)%nat.
Proof. induction 1 as [|a b c p H _ IH]; [lia|]. apply Hch in H. lia. Qed.
Lemma path_head a b p : path_from R a b p -> exists q, p = a :: q.
Proof. destruct 1; eauto. Qed.
Lemma path_same a p : path_from R a a p -> p = [a].
Proof. intros H. inversion H as [|? b ? ? H1 H2]; subst; [reflexivity|]. apply path_rank in H2. apply Hch in H1. lia. Qed.
Lemma NoDup_short l : NoDup l -> (forall x, In x l -> (x < n)%nat) -> (length l <= n)%nat.
Proof. intros ND H. rewrite <- (seq_length n 0). apply NoDup_incl_length; [exact ND|]. intros x Hx. apply in_seq0. auto. Qed.
Lemma dfs_dag M : (forall x, (x < n)%nat -> (r x < M)%nat) -> forall e rem c below acc, (M - r c <= e)%nat -> (c < n)%nat ->
  (forall y, In y rem -> In y (ch c)) -> NoDup rem -> (forall x, In x (map fst below) -> (x < n)%nat /\ (r x < r c)%nat) -> NoDup (map fst below) ->
  In from (c :: map fst below) ->
  exists k ps, (forall f, dfs (k + f) n ch from to ((c, rem) :: below) acc = dfs f n ch from to below (acc ++ map (fun p => rev (map fst below) ++ p) ps)) /\
    NoDup ps /\ (forall p, In p ps <-> (c = to /\ p = [c]) \/ (c <> to /\ exists y q, In y rem /\ path_from R y to q /\ p = c :: q)).
Proof.
  intros HM. induction e as [|e IH]; [intros rem c below acc He Hc; pose proof (HM c Hc); lia|].
  induction rem as [|x rem IHr]; intros c below acc He Hc Hrem NDr Hb NDb Hf;
    (assert (L : Nat.ltb n (S (length below)) = false) by (apply Nat.ltb_ge; pose proof (NoDup_short (c :: map fst below)) as Q; cbn [length] in Q; rewrite map_length in Q; apply Q;
       [constructor; [intros I; apply Hb in I; lia|exact NDb]|intros y [<-|Hy]; [exact Hc|now apply Hb]]));
    (destruct (Nat.eqb_spec c to) as [T|T]; [exists 1%nat, [[c]]; split; [intros f; cbn [dfs Nat.add length map fst rev]; rewrite L, (proj2 (Nat.eqb_eq c to) T); reflexivity|];
      split; [repeat constructor; cbn; tauto|]; intros p; cbn; split; [intros [<-|[]]; auto|intros [[_ ->]|[K _]]; [auto|contradiction]]|]).
  - exists 1%nat, []. split; [intros f; cbn [dfs Nat.add length map]; rewrite L, (proj2 (Nat.eqb_neq c to) T), app_nil_r; reflexivity|]. split; [constructor|].
    intros p. cbn. split; [tauto|]. intros [[K _]|(_ & y & q & [] & _)]. contradiction.
  - assert (Hx : In x (ch c)) by (apply Hrem; now left). destruct (Hch c x Hx) as [Rx Bx]. inversion NDr as [|? ? N1 N2]; subst.
    assert (NF : x <> from). { intros ->. destruct Hf as [<-|Hf]; [lia|]. apply Hb in Hf. lia. }
    destruct (IH (ch x) x ((c, rem) :: below) acc) as (k & ps & E1 & ND1 & S1); auto.
    + lia.
    + cbn [map fst]. intros y [<-|Hy]; [auto|]. apply Hb in Hy. lia.
    + cbn [map fst]. constructor; [intros I; apply Hb in I; lia|exact NDb].
    + cbn [map fst]. right. exact Hf.
    + destruct (IHr c below (acc ++ map (fun p => rev (map fst ((c, rem) :: below)) ++ p) ps)) as (k' & ps' & E2 & ND2 & S2); auto.
      { intros y Hy. apply Hrem. now right. }
      exists (S (k + k')), (map (cons c) ps ++ ps'). split; [|split].
      * intros f. cbn [dfs Nat.add length]. rewrite L, (proj2 (Nat.eqb_neq c to) T), (proj2 (Nat.eqb_neq x from) NF), <- Nat.add_assoc, E1, E2. f_equal.
        rewrite <- app_assoc, map_app, map_map. f_equal. f_equal. apply map_ext. intros p. cbn [map fst rev]. now rewrite <- app_assoc.
      * assert (ND1' : NoDup (map (cons c) ps)) by (apply FinFun.Injective_map_NoDup; [intros ? ? Q; now injection Q|exact ND1]).
        assert (DJ : forall p, In p (map (cons c) ps) -> ~ In p ps').
        { intros p Hp Hp'. apply in_map_iff in Hp. destruct Hp as (q & <- & Hq). apply S1 in Hq. apply S2 in Hp'. destruct Hp' as [[K _]|(_ & y & q' & Hy & P' & Q)]; [contradiction|]. injection Q as ->.
          destruct (path_head _ _ _ P') as [t ->]. destruct Hq as [[_ Q]|(_ & y' & q2 & _ & _ & Q)]; injection Q as -> _; contradiction. }
        clear - ND1' ND2 DJ. induction (map (cons c) ps) as [|a l IHl]; cbn; [exact ND2|]. inversion ND1' as [|? ? M1 M2]; subst. constructor; [rewrite in_app_iff; intros [I|I]; [auto|apply (DJ a); [now left|exact I]]|].
        apply IHl; [exact M2|]. intros p Hp. apply DJ. now right.
      * intros p. rewrite in_app_iff, in_map_iff, S2. split.
        -- intros [(q & <- & Hq)|[[K _]|(_ & y & q & Hy & P & ->)]]; [|contradiction|right; split; [exact T|]; exists y, q; split; [now right|auto]].
           right. split; [exact T|]. exists x, q. split; [now left|]. split; [|reflexivity]. apply S1 in Hq. destruct Hq as [[-> ->]|(_ & y & q' & Hy & P & ->)]; [constructor|]. apply path_step with y; [exact Hy|exact P].
        -- intros [[K _]|(_ & y & q & [<-|Hy] & P & ->)]; [contradiction| |right; right; split; [exact T|]; exists y, q; auto].
           left. exists q. split; [reflexivity|]. apply S1. inversion P as [|? b ? ? H1 H2]; subst; [left; auto|right]. split; [intros ->; apply path_rank in H2; apply Hch in H1; lia|]. exists b, p. auto.
Qed.
End Dfs.

(** ** Effects *)
Lemma fold_mul l : forall s, fold_left Z.mul l s = s * fold_left Z.mul l 1.
Proof. induction l as [|x l IH]; intros s; cbn [fold_left]; [lia|]. rewrite IH, (IH (1 * x)). lia. Qed.
Lemma coefs_product B p : fold_left Z.mul (coefs B p) 1 = product_along B p.
Proof.
  induction p as [|a p IH]; [reflexivity|]. destruct p as [|b p]; [reflexivity|].
  change (coefs B (a :: b :: p)) with (B b a :: coefs B (b :: p)). change (product_along B (a :: b :: p)) with (B b a * product_along B (b :: p)).
  cbn [fold_left]. rewrite fold_mul, IH. lia.
Qed.
Lemma effect_some B a b p : effect B (a :: b :: p) = Some (product_along B (a :: b :: p)).
Proof. unfold effect. rewrite <- coefs_product. reflexivity. Qed.
Lemma effects_some B ps : (forall p, In p ps -> exists a b q, p = a :: b :: q) -> effects B ps = Some (map (product_along B) ps).
Proof.
  induction ps as [|p ps IH]; intros H; [reflexivity|]. cbn [effects]. destruct (H p (or_introl eq_refl)) as (a & b & q & ->). rewrite effect_some, IH; [reflexivity|]. intros p Hp. apply H. now right.
Qed.

(** ** Tallies *)
Section Tally.
Context {A : Type} (dec : forall a b : A, {a = b} + {a <> b}) (argsort : list Z -> list nat) (HS : sorts argsort).
Lemma StronglySorted_app_inv (P : nat -> nat -> Prop) l1 l2 : StronglySorted P (l1 ++ l2) -> StronglySorted P l1 /\ forall x y, In x l1 -> In y l2 -> P x y.
Proof.
  induction l1 as [|a l1 IH]; cbn; intros H; [split; [constructor|intros ? ? []]|]. inversion H as [|? ? H1 H2]; subst. destruct (IH H1) as [I1 I2]. rewrite Forall_forall in H2. split.
  - constructor; [exact I1|]. apply Forall_forall. intros y Hy. apply H2, in_or_app. now left.
  - intros x y [<-|Hx] Hy; [apply H2, in_or_app; now right|auto].
Qed.
Lemma tally_ranking keys top : ranking (count_occ dec keys) top (tally dec argsort keys top).
Proof.
  unfold tally. set (u := nodup dec keys). set (l := map (fun k => - Z.of_nat (count_occ dec keys k)) u). destruct (HS l) as [HP Hsort]. set (ord := argsort l) in *.
  assert (Ll : length l = length u) by apply map_length. rewrite Ll in HP.
  assert (NL0 : forall d q, (q < length u)%nat -> nth q l 0 = - Z.of_nat (count_occ dec keys (nth q u d))).
  { intros d q Hq. unfold l. rewrite (nth_indep _ 0 ((fun k => - Z.of_nat (count_occ dec keys k)) d)) by (now rewrite map_length). apply (map_nth (fun k => - Z.of_nat (count_occ dec keys k))). }
  assert (NDu : NoDup u) by apply NoDup_nodup. assert (Iu : forall k, (0 < count_occ dec keys k)%nat <-> In k u) by (intros k; unfold u; rewrite nodup_In, (count_occ_In dec); reflexivity).
  set (ord' := match top with Some t => firstn t ord | None => ord end).
  assert (SP : exists tl, ord = ord' ++ tl /\ (tl = [] \/ exists t, top = Some t /\ length ord' = t)).
  { unfold ord'. destruct top as [t|]; [|exists []; rewrite app_nil_r; auto]. exists (skipn t ord). split; [symmetry; apply firstn_skipn|]. destruct (le_lt_dec (length ord) t) as [Q|Q]; [left; now apply skipn_all2|right; exists t; split; [reflexivity|rewrite firstn_length; lia]]. }
  assert (TP : forall t, top = Some t -> (length ord' <= t)%nat) by (intros t ->; unfold ord'; rewrite firstn_length; lia).
  destruct SP as (tl & ES & HT). rewrite ES in HP, Hsort. clearbody ord'. clear ES ord.
  assert (NDo : NoDup (ord' ++ tl)) by (apply (Permutation_NoDup (Permutation_sym HP)), seq_NoDup).
  assert (Bo : forall q, In q (ord' ++ tl) <-> (q < length u)%nat) by (intros q; rewrite <- in_seq0; split; apply Permutation_in; [exact HP|now symmetry]).
  destruct (StronglySorted_app_inv _ _ _ Hsort) as [So Sx].
  clearbody l u. destruct u as [|d u0] eqn:Eu.
  { assert (ord' = []) by (destruct ord' as [|q o]; [reflexivity|]; exfalso; assert (q < 0)%nat by (apply Bo; now left); lia). subst ord'. cbn. unfold ranking. cbn. split; [constructor|]. split; [intros ? ? []|]. split; [constructor|].
    split; [intros k Hk; apply Iu in Hk; destruct Hk|auto]. }
  rewrite <- Eu in *. pose proof (NL0 d) as NL. clear Eu. set (g := fun q => (nth q u d, count_occ dec keys (nth q u d))).
  assert (EG : flat_map (fun q => match nth_error u q with Some k => [(k, count_occ dec keys k)] | None => [] end) ord' = map g ord').
  { assert (Bq : forall q, In q ord' -> (q < length u)%nat) by (intros q Hq; apply Bo, in_or_app; now left). clear - Bq. induction ord' as [|q o IH]; [reflexivity|]. cbn [flat_map map]. rewrite (nth_error_nth' u d) by (apply Bq; now left). cbn. f_equal. apply IH. intros x Hx. apply Bq. now right. }
  rewrite EG. clear EG.
  split; [|split; [|split; [|split]]].
  - rewrite map_map. cbn [fst g]. assert (NDo' : NoDup ord') by (clear - NDo; induction ord' as [|q o IH]; [constructor|]; inversion NDo as [|? ? M1 M2]; subst; constructor; [intros I; apply M1, in_or_app; now left|auto]).
    assert (Bq : forall q, In q ord' -> (q < length u)%nat) by (intros q Hq; apply Bo, in_or_app; now left). clear - NDo' NDu Bq. induction ord' as [|q o IH]; cbn; [constructor|]. inversion NDo' as [|? ? M1 M2]; subst. constructor.
    + intros I. apply in_map_iff in I. destruct I as (q' & E & I). assert (q' = q) by (apply (proj1 (NoDup_nth u d) NDu); [apply Bq; now right|apply Bq; now left|exact E]). subst. contradiction.
    + apply IH; [exact M2|]. intros x Hx. apply Bq. now right.
  - intros k c I. apply in_map_iff in I. destruct I as (q & E & I). unfold g in E. injection E as <- <-. split; [reflexivity|]. apply Iu, nth_In, Bo, in_or_app. now left.
  - assert (Bq : forall q, In q ord' -> (q < length u)%nat) by (intros q Hq; apply Bo, in_or_app; now left). clear - So Bq NL. induction So as [|q o S1 IH S2]; cbn; [constructor|]. constructor; [apply IH; intros x Hx; apply Bq; now right|].
    apply Forall_forall. intros y Hy. apply in_map_iff in Hy. destruct Hy as (q' & <- & I). rewrite Forall_forall in S2. specialize (S2 q' I). cbn. rewrite !NL in S2 by (apply Bq; auto using in_eq, in_cons). lia.
  - intros k Hk NI. apply Iu in Hk. apply (In_nth _ _ d) in Hk. destruct Hk as (q & Hq & <-). assert (Iq : In q (ord' ++ tl)) by now apply Bo. apply in_app_or in Iq. destruct Iq as [Iq|Iq].
    + exfalso. apply NI. rewrite map_map. apply in_map_iff. exists q. auto.
    + destruct HT as [->|(t & Ht & Lt)]; [destruct Iq|]. split; [exists t; rewrite map_length; auto|]. intros x Hx. apply in_map_iff in Hx. destruct Hx as (q' & <- & I). specialize (Sx q' q I Iq). cbn.
      rewrite !NL in Sx; [lia|exact Hq|apply Bo, in_or_app; now left].
  - intros t Ht. rewrite map_length. now apply TP.
Qed.
Lemma count_flat {B} (f : B -> list A) k : forall samples, (forall b, NoDup (f b)) -> count_occ dec (flat_map f samples) k = holds_in (fun b => if in_dec dec k (f b) then true else false) samples.
Proof.
  intros samples ND. induction samples as [|b s IH]; [reflexivity|]. cbn [flat_map]. unfold holds_in in *. cbn [filter]. rewrite count_occ_app, IH.
  destruct (in_dec dec k (f b)) as [I|I]; [|apply (count_occ_not_In dec) in I; rewrite I; reflexivity]. cbn [length].
  pose proof (proj1 (NoDup_count_occ dec (f b)) (ND b) k). apply (count_occ_In dec) in I. lia.
Qed.
End Tally.
Lemma holds_ext {A} (P Q : A -> bool) l : (forall x, In x l -> P x = Q x) -> holds_in P l = holds_in Q l.
Proof. intros H. unfold holds_in. now rewrite (filter_ext_in P Q l H). Qed.
