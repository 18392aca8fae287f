(** C156-C158: GIN_MI. *)
From Coq Require Import Permutation.
From Verif Require Import Base EdgeModel GraphModel GraphSpec GraphProofs UtilsModel UtilsProofs NamedModel NamedProofs SkelModel SkelProofs GINModel GINSpec GINProofs GINGraph GINProps.

Section MI.
Variables (ord : list nat -> list nat) (dep : list nat -> list nat -> Z) (cap1 cap2 : Z) (n : nat).
Hypothesis HO : enumerates ord.
Hypothesis Hn : 3 <= n.
(** The statistic of a pair of variables against all others, and that of cluster a against cluster b after the clusters in [order]. *)
Definition pair_stat (x : list nat) : Z := dep (ord x) (ord (filter (fun v => negb (memb v x)) (seq 0 n))).
Definition root_stat (order : list (list nat)) (a b : list nat) : Z :=
  dep ([nth 0 a 0; nth 0 b 0] ++ map (fun k => nth 0 k 0) order) (tl a ++ map (fun k => nth 1 k 0) order).
Definition pairs : list (list nat) := combs 2 (ord (seq 0 n)).
Lemma better_fold s x L : NoDup L -> forall st i, fold_left (better s x) L st i = if memb i L && Z.ltb s (snd (st i)) then (x, s) else st i.
Proof.
  induction 1 as [|a L Na HN IH]; intros st i; [reflexivity|]. cbn [fold_left]. rewrite IH. unfold better. unfold memb. cbn [existsb].
  destruct (Nat.eqb_spec i a) as [->|N].
  - assert (M : existsb (Nat.eqb a) L = false) by (destruct (existsb (Nat.eqb a) L) eqn:E; [apply existsb_In in E; contradiction|reflexivity]). rewrite M. cbn [orb andb].
    destruct (Z.ltb s (snd (st a))); [now rewrite Nat.eqb_refl|reflexivity].
  - cbn [orb]. destruct (Z.ltb s (snd (st a))); [|reflexivity]. destruct (Nat.eqb_spec i a); [contradiction|reflexivity].
Qed.
Lemma pairs_in x : In x pairs -> length x = 2 /\ NoDup x /\ forall v, In v x -> v < n.
Proof.
  intros H. apply combs_in in H. destruct H as (H1 & H2 & H3). split; [exact H1|]. split; [apply H3, ord_nodup; [exact HO|apply seq_NoDup]|].
  intros v Hv. apply H2, (ord_in ord _ v HO (seq_NoDup n 0)) in Hv. now apply in_seq0.
Qed.
Lemma pairs_all i j : i < n -> j < n -> i <> j -> exists x, In x pairs /\ In i x /\ In j x.
Proof.
  intros Hi Hj N. destruct (combs_perm 2 (ord (seq 0 n)) [i; j]) as (x & H1 & H2).
  - apply ord_nodup; [exact HO|apply seq_NoDup].
  - repeat constructor; [intros [K|[]]; congruence|intros []].
  - intros v [<-|[<-|[]]]; apply (ord_in ord _ _ HO (seq_NoDup n 0)); now apply in_seq0.
  - reflexivity.
  - exists x. split; [exact H1|]. split; apply (Permutation_in _ H2); [now left|right; now left].
Qed.
Lemma pair_ok x : In x pairs -> cal_dep dep (ord x) (ord (minus (seq 0 n) x)) = Ok (pair_stat x).
Proof.
  intros H. apply pairs_in in H. destruct H as (H1 & H2 & H3). unfold cal_dep, pair_stat, minus.
  destruct (ord (filter (fun v => negb (memb v x)) (seq 0 n))) as [|a l] eqn:E; [exfalso|reflexivity].
  assert (L : incl (seq 0 n) x).
  { intros v Hv. destruct (in_dec Nat.eq_dec v x) as [|N]; [assumption|exfalso]. assert (K : In v (ord (filter (fun v => negb (memb v x)) (seq 0 n)))); [|rewrite E in K; destruct K].
    apply ord_in; [exact HO|apply NoDup_filter, seq_NoDup|]. apply filter_In. split; [exact Hv|]. now apply negb_true_iff, memb_not_In. }
  apply (NoDup_incl_length (seq_NoDup n 0)) in L. rewrite seq_length in L. lia.
Qed.
Definition best (seen : list (list nat)) (st : nat -> list nat * Z) : Prop := forall i,
  (st i = ([], cap1) /\ forall x, In x seen -> In i x -> (cap1 <= pair_stat x)%Z) \/
  (exists x, In x seen /\ In i x /\ st i = (x, pair_stat x) /\ (pair_stat x < cap1)%Z /\ forall y, In y seen -> In i y -> (pair_stat x <= pair_stat y)%Z).
Lemma min_spec l : (forall x, In x l -> In x pairs) -> forall seen st, best seen st -> exists st', fold_left (mi_pair ord dep n) l (Ok st) = Ok st' /\ best (seen ++ l) st'.
Proof.
  induction l as [|x l IH]; intros Hl seen st HB; [exists st; rewrite app_nil_r; auto|]. cbn [fold_left].
  assert (Hx : In x pairs) by (apply Hl; now left). unfold mi_pair at 2. cbn [res_bind]. rewrite (pair_ok x Hx). cbn [res_bind].
  destruct (pairs_in x Hx) as (_ & NDx & _). pose proof (ord_nodup ord x HO NDx) as NDo.
  destruct (IH (fun y Hy => Hl y (or_intror Hy)) (seen ++ [x]) (fold_left (better (pair_stat x) x) (ord x) st)) as (st' & E & HB').
  - intros i. rewrite (better_fold _ _ _ NDo). assert (Mi : memb i (ord x) = true <-> In i x) by (rewrite memb_In; now apply ord_in).
    assert (Sn : forall y, In y (seen ++ [x]) <-> In y seen \/ y = x) by (intros y; rewrite in_app_iff; cbn; intuition).
    destruct (memb i (ord x)) eqn:Em.
    + assert (Ix : In i x) by (now apply Mi). destruct (HB i) as [[E1 E2]|(y & Q1 & Q2 & Q3 & Q4 & Q5)].
      * rewrite E1. cbn [snd]. destruct (Z.ltb_spec (pair_stat x) cap1) as [L|L]; cbn [andb].
        -- right. exists x. split; [apply Sn; auto|]. split; [exact Ix|]. split; [reflexivity|]. split; [exact L|]. intros y Hy Iy. apply Sn in Hy. destruct Hy as [Hy| ->]; [specialize (E2 y Hy Iy); lia|lia].
        -- left. split; [reflexivity|]. intros y Hy Iy. apply Sn in Hy. destruct Hy as [Hy| ->]; auto.
      * rewrite Q3. cbn [snd]. destruct (Z.ltb_spec (pair_stat x) (pair_stat y)) as [L|L]; cbn [andb].
        -- right. exists x. split; [apply Sn; auto|]. split; [exact Ix|]. split; [reflexivity|]. split; [lia|]. intros z Hz Iz. apply Sn in Hz. destruct Hz as [Hz| ->]; [specialize (Q5 z Hz Iz); lia|lia].
        -- right. exists y. split; [apply Sn; auto|]. split; [exact Q2|]. split; [reflexivity|]. split; [exact Q4|]. intros z Hz Iz. apply Sn in Hz. destruct Hz as [Hz| ->]; auto.
    + assert (Ix : ~ In i x) by (intros K; apply Mi in K; discriminate). cbn [andb]. destruct (HB i) as [[E1 E2]|(y & Q1 & Q2 & Q3 & Q4 & Q5)].
      * left. split; [exact E1|]. intros y Hy Iy. apply Sn in Hy. destruct Hy as [Hy| ->]; [auto|contradiction].
      * right. exists y. split; [apply Sn; auto|]. split; [exact Q2|]. split; [exact Q3|]. split; [exact Q4|]. intros z Hz Iz. apply Sn in Hz. destruct Hz as [Hz| ->]; [auto|contradiction].
  - exists st'. split; [exact E|]. rewrite <- app_assoc in HB'. exact HB'.
Qed.

(** ** Order *)
Definition distinct_pairs (cls : list (list nat)) (a b : list nat) : Prop := In a cls /\ In b cls /\ a <> b.
Definition first_cluster (cls : list (list nat)) : list nat := nth 0 cls [].
Lemma root_fold order : forall (l : list (list nat * list nat)) (cls : list (list nat)) (st : list nat * Z) (seen : list (list nat * list nat)),
  (forall a b, In (a, b) l -> In a cls /\ In b cls) -> (forall c, In c cls -> 2 <= length c) -> In (fst st) cls ->
  ((snd st = cap2 /\ fst st = first_cluster cls /\ forall a b, In (a, b) seen -> a <> b -> (cap2 <= root_stat order a b)%Z) \/
   (exists b, In (fst st, b) seen /\ fst st <> b /\ snd st = root_stat order (fst st) b /\ (snd st < cap2)%Z /\ forall a' b', In (a', b') seen -> a' <> b' -> (snd st <= root_stat order a' b')%Z)) ->
  exists st', fold_left (root_pair dep order) l (Ok st) = Ok st' /\ In (fst st') cls /\
    ((snd st' = cap2 /\ fst st' = first_cluster cls /\ forall a b, In (a, b) (seen ++ l) -> a <> b -> (cap2 <= root_stat order a b)%Z) \/
     (exists b, In (fst st', b) (seen ++ l) /\ fst st' <> b /\ snd st' = root_stat order (fst st') b /\ (snd st' < cap2)%Z /\ forall a' b', In (a', b') (seen ++ l) -> a' <> b' -> (snd st' <= root_stat order a' b')%Z)).
Proof.
  induction l as [|[a b] l IH]; intros cls st seen Hl Hc Hs HI; [exists st; rewrite app_nil_r; auto|]. cbn [fold_left]. unfold root_pair at 2.
  destruct (Hl a b (or_introl eq_refl)) as [Ha Hb].
  assert (Sn : forall x y, In (x, y) (seen ++ [(a, b)]) <-> In (x, y) seen \/ (x = a /\ y = b)).
  { intros x y. rewrite in_app_iff. cbn. split; [intros [?|[[= <- <-]|[]]]; auto|intros [?|[-> ->]]; auto]. }
  destruct (list_eq_dec Nat.eq_dec a b) as [Eab|Nab].
  - destruct (IH cls st (seen ++ [(a, b)]) (fun x y H => Hl x y (or_intror H)) Hc Hs) as (st' & E & K1 & K2).
    + destruct HI as [(Q1 & Q2 & Q3)|(b0 & Q1 & Q2 & Q3 & Q4 & Q5)]; [left; split; [exact Q1|]; split; [exact Q2|]; intros x y Hxy N; apply Sn in Hxy; destruct Hxy as [Hxy|[-> ->]]; [now apply Q3|contradiction]|].
      right. exists b0. split; [apply Sn; auto|]. split; [exact Q2|]. split; [exact Q3|]. split; [exact Q4|]. intros x y Hxy N. apply Sn in Hxy. destruct Hxy as [Hxy|[-> ->]]; [now apply Q5|contradiction].
    + exists st'. rewrite <- app_assoc in K2. auto.
  - cbn [res_bind].
    assert (CD : cal_dep dep ([nth 0 a 0; nth 0 b 0] ++ map (fun k => nth 0 k 0) order) (tl a ++ map (fun k => nth 1 k 0) order) = Ok (root_stat order a b)).
    { unfold cal_dep, root_stat. pose proof (Hc a Ha) as La. destruct a as [|u [|v a]]; [cbn in La; lia|cbn in La; lia|reflexivity]. }
    assert (NEa : forall (T : Type) (u v : T), match a, b with [], _ | _, [] => u | _, _ => v end = v).
    { intros T u v. pose proof (Hc a Ha) as La. pose proof (Hc b Hb) as Lb. destruct a; [cbn in La; lia|]. destruct b; [cbn in Lb; lia|reflexivity]. }
    rewrite NEa, CD. cbn [res_bind].
    destruct (IH cls (if Z.ltb (root_stat order a b) (snd st) then (a, root_stat order a b) else st) (seen ++ [(a, b)]) (fun x y H => Hl x y (or_intror H)) Hc) as (st' & E & K1 & K2).
    + destruct (Z.ltb _ _); [exact Ha|exact Hs].
    + destruct (Z.ltb_spec (root_stat order a b) (snd st)) as [L|L]; cbn [fst snd].
      * right. exists b. split; [apply Sn; auto|]. split; [exact Nab|]. split; [reflexivity|]. split.
        { destruct HI as [(Q1 & _)|(b0 & _ & _ & _ & Q4 & _)]; lia. }
        intros x y Hxy N. apply Sn in Hxy. destruct Hxy as [Hxy|[-> ->]]; [|lia]. destruct HI as [(Q1 & _ & Q3)|(b0 & _ & _ & _ & _ & Q5)]; [specialize (Q3 x y Hxy N)|specialize (Q5 x y Hxy N)]; lia.
      * destruct HI as [(Q1 & Q2 & Q3)|(b0 & Q1 & Q2 & Q3 & Q4 & Q5)].
        -- left. split; [exact Q1|]. split; [exact Q2|]. intros x y Hxy N. apply Sn in Hxy. destruct Hxy as [Hxy|[-> ->]]; [now apply Q3|lia].
        -- right. exists b0. split; [apply Sn; auto|]. split; [exact Q2|]. split; [exact Q3|]. split; [exact Q4|]. intros x y Hxy N. apply Sn in Hxy. destruct Hxy as [Hxy|[-> ->]]; [now apply Q5|exact L].
    + exists st'. rewrite <- app_assoc in K2. auto.
Qed.
(** The root chosen among [cls]: the first cluster of the pair with the smallest statistic (the first cluster of all if no statistic is below the cap). *)
Definition chosen (order cls : list (list nat)) (r : list nat) : Prop :=
  In r cls /\
  ((r = first_cluster cls /\ forall a b, distinct_pairs cls a b -> (cap2 <= root_stat order a b)%Z) \/
   (exists b, distinct_pairs cls r b /\ forall a' b', distinct_pairs cls a' b' -> (root_stat order r b <= root_stat order a' b')%Z)).
Lemma find_root_spec order cls : cls <> [] -> NoDup cls -> (forall c, In c cls -> 2 <= length c) -> exists r, find_root dep cap2 order cls = Ok r /\ chosen order cls r.
Proof.
  intros Hne ND Hc. destruct cls as [|c [|c' cls]]; [congruence| |].
  - exists c. split; [reflexivity|]. split; [now left|]. left. split; [reflexivity|]. intros a b ([<-|[]] & [<-|[]] & N). congruence.
  - unfold find_root. set (cs := c :: c' :: cls) in *. destruct (root_fold order (list_prod cs cs) cs (nth 0 cs [], cap2) []) as (st & E & K1 & K2).
    + intros a b H. now apply in_prod_iff in H.
    + exact Hc.
    + now left.
    + left. split; [reflexivity|]. split; [reflexivity|]. intros a b [].
    + rewrite E. cbn [res_bind]. exists (fst st). split; [reflexivity|]. split; [exact K1|]. cbn [app] in K2.
      assert (IP : forall a b, distinct_pairs cs a b <-> In (a, b) (list_prod cs cs) /\ a <> b) by (intros; rewrite in_prod_iff; unfold distinct_pairs; tauto).
      destruct K2 as [(_ & Q2 & Q3)|(b & Q1 & Q2 & Q3 & _ & Q5)]; [left; split; [exact Q2|]; intros a b H; apply IP in H; now apply Q3|].
      right. exists b. split; [apply IP; auto|]. intros a' b' H. apply IP in H. rewrite <- Q3. now apply Q5.
Qed.
Lemma mi_order_spec fuel : forall order cls, NoDup cls -> (forall c, In c cls -> 2 <= length c) -> length cls <= fuel ->
  exists o, mi_order dep cap2 fuel order cls = Some (Ok (order ++ o)) /\ Permutation o cls /\
    forall k, k < length o -> exists left, Permutation left (skipn k o) /\ chosen (order ++ firstn k o) left (nth k o []).
Proof.
  induction fuel as [|fuel IH]; intros order cls ND Hc Hf.
  - destruct cls; [|cbn in Hf; lia]. exists []. cbn. rewrite app_nil_r. split; [reflexivity|]. split; [constructor|]. intros k Hk. lia.
  - destruct cls as [|c0 cls0]; [exists []; cbn; rewrite app_nil_r; split; [reflexivity|]; split; [constructor|]; intros k Hk; lia|]. cbn [mi_order]. set (cls := c0 :: cls0) in *.
    destruct (find_root_spec order cls) as (r & E & HR); [discriminate|exact ND|exact Hc|]. rewrite E. pose proof (remove_first_perm r cls (proj1 HR)) as HP.
    assert (ND2 : NoDup (r :: remove_first r cls)) by (eapply Permutation_NoDup; [apply Permutation_sym; exact HP|exact ND]). inversion ND2 as [|? ? N1 N2]; subst.
    destruct (IH (order ++ [r]) (remove_first r cls) N2) as (o & E2 & P & K).
    { intros c H. apply Hc. apply (Permutation_in c HP). now right. }
    { apply Permutation_length in HP. cbn [length] in HP. lia. }
    exists (r :: o). rewrite E2, <- app_assoc. split; [reflexivity|]. split; [eapply perm_trans; [apply perm_skip; exact P|exact HP]|].
    intros [|k] Hk.
    + exists cls. cbn [skipn firstn nth]. rewrite app_nil_r. split; [eapply perm_trans; [apply Permutation_sym; exact HP|apply perm_skip; now apply Permutation_sym]|exact HR].
    + destruct (K k ltac:(cbn in Hk; lia)) as (left & K1 & K2). exists left. cbn [skipn firstn nth]. rewrite <- app_assoc in K2. auto.
Qed.
End MI.

(** C156: with at least three variables and statistics below 1e9, GIN_MI returns a graph; the clusters of its causal order partition the variables and have at least two each; every variable
    shares its cluster with a partner that has the smallest statistic; the nodes are the observed variables and one latent variable per cluster; a latent variable points to exactly the
    observed variables of its cluster and to every later latent variable, and there is no other edge. *)
Theorem C156_gin_mi ord dep cap1 cap2 n : enumerates ord -> 3 <= n -> (forall x, In x (pairs ord n) -> (pair_stat ord dep n x < cap1)%Z) ->
  exists G order, GIN_MI ord dep cap1 cap2 n = Some (Ok G, order) /\ consistent G /\ Permutation (concat order) (seq 0 n) /\ (forall c, In c order -> 2 <= length c) /\
    (forall i, i < n -> exists x c, In x (pairs ord n) /\ In i x /\ In c order /\ incl x c /\ forall y, In y (pairs ord n) -> In i y -> (pair_stat ord dep n x <= pair_stat ord dep n y)%Z) /\
    Permutation (nodes G) (map obs (seq 0 n) ++ map lat (seq 1 (length order))) /\
    (forall k o, 1 <= k <= length order -> o < n -> (In o (nth (k - 1) order []) -> arrow G (lat k) (obs o)) /\ (~ In o (nth (k - 1) order []) -> apart G (lat k) (obs o))) /\
    (forall j k, 1 <= j < k -> k <= length order -> arrow G (lat j) (lat k)) /\
    (forall o p, o < n -> p < n -> apart G (obs o) (obs p)) /\
    (forall k, k < length order -> exists left, Permutation left (skipn k order) /\ chosen dep cap2 (firstn k order) left (nth k order [])).
Proof.
  intros HO Hn Hcap. unfold GIN_MI, min_clusters.
  destruct (min_spec ord dep cap1 n HO Hn (pairs ord n) (fun x H => H) [] (fun _ => ([], cap1))) as (st & E & HB); [intros i; left; split; [reflexivity|intros x []]|].
  unfold pairs in E. rewrite E. cbn [app] in HB.
  assert (B : forall i, i < n -> exists x, In x (pairs ord n) /\ In i x /\ fst (st i) = x /\ forall y, In y (pairs ord n) -> In i y -> (pair_stat ord dep n x <= pair_stat ord dep n y)%Z).
  { intros i Hi. destruct (HB i) as [[E1 E2]|(x & Q1 & Q2 & Q3 & _ & Q5)]; [exfalso|exists x; rewrite Q3; auto].
    destruct (pairs_all ord n HO i (if Nat.eqb i 0 then 1 else 0) Hi) as (x & H1 & H2 & _); [destruct (Nat.eqb i 0); lia|destruct (Nat.eqb_spec i 0); lia|]. specialize (E2 x H1 H2). specialize (Hcap x H1). lia. }
  set (cl := map (fun i => ord (fst (st i))) (seq 0 n)).
  assert (IC : forall i, i < n -> exists c x, In c cl /\ In x (pairs ord n) /\ In i x /\ (forall v, In v c <-> In v x) /\ forall y, In y (pairs ord n) -> In i y -> (pair_stat ord dep n x <= pair_stat ord dep n y)%Z).
  { intros i Hi. destruct (B i Hi) as (x & Q1 & Q2 & Q3 & Q4). exists (ord (fst (st i))), x. split; [unfold cl; apply (in_map (fun i => ord (fst (st i)))); now apply in_seq0|]. split; [exact Q1|]. split; [exact Q2|].
    split; [|exact Q4]. intros v. rewrite Q3. apply ord_in; [exact HO|]. now apply (pairs_in ord n HO). }
  assert (CI : forall c, In c cl -> exists i x, i < n /\ In x (pairs ord n) /\ forall v, In v c <-> In v x).
  { intros c Hc. unfold cl in Hc. apply in_map_iff in Hc. destruct Hc as (i & <- & Hi). apply in_seq0 in Hi. destruct (B i Hi) as (x & Q1 & Q2 & Q3 & Q4). exists i, x. split; [exact Hi|]. split; [exact Q1|]. intros v. rewrite Q3.
    apply ord_in; [exact HO|]. now apply (pairs_in ord n HO). }
  destruct (merge_spec ord cl HO) as (cls & -> & M1 & M2 & M3 & M4).
  assert (EC : forall v, In v (concat cls) <-> v < n).
  { intros v. rewrite M2, in_concat'. split.
    - intros (c & Hc & Hv). destruct (CI c Hc) as (i & x & _ & Hx & Q). apply Q in Hv. now apply (pairs_in ord n HO x Hx).
    - intros Hv. destruct (IC v Hv) as (c & x & Q1 & _ & Q3 & Q4 & _). exists c. split; [exact Q1|now apply Q4]. }
  assert (NE : forall c, In c cls -> c <> []).
  { apply M4. intros c Hc ->. destruct (CI [] Hc) as (i & x & _ & Hx & Q). destruct (pairs_in ord n HO x Hx) as (L & _). destruct x as [|v x]; [discriminate|]. destruct (proj2 (Q v) (or_introl eq_refl)). }
  assert (L2 : forall c, In c cls -> 2 <= length c).
  { intros c Hc. destruct c as [|a [|b c]]; [exfalso; now apply (NE [] Hc)|exfalso|cbn; lia].
    assert (Ha : a < n) by (apply EC, in_concat'; exists [a]; split; [exact Hc|now left]). destruct (IC a Ha) as (d & x & Q1 & Q2 & Q3 & Q4 & _). destruct (pairs_in ord n HO x Q2) as (L & ND & _).
    assert (X : exists b, In b x /\ b <> a).
    { destruct x as [|u [|v x]]; [discriminate|discriminate|]. inversion ND as [|? ? N1 N2]; subst. destruct (Nat.eq_dec u a) as [-> |N]; [exists v; split; [right; now left|]; intros ->; apply N1; now left|exists u; split; [now left|exact N]]. }
    destruct X as (b & Hb & N). destruct (proj2 (M3 a b)) as (c' & K1 & K2 & K3).
    { split; [apply M2; now apply EC|]. apply reach_one. exists d. split; [exact Q1|]. split; now apply Q4. }
    assert (c' = [a]); [|subst; destruct K3 as [K3|[]]; congruence].
    clear - M1 K1 K2 Hc. induction cls as [|y m IHm]; [destruct Hc|]. cbn in M1.
    assert (X : forall z, In a y -> In z m -> In a z -> False).
    { intros z Q1 Q2 Q3. apply in_split in Q1. destruct Q1 as (l1 & l2 & ->). rewrite <- app_assoc in M1. cbn in M1. apply NoDup_remove_2 in M1. apply M1. rewrite !in_app_iff. right. right. apply in_concat'. eauto. }
    destruct Hc as [-> |Hc], K1 as [-> |K1]; [reflexivity|exfalso; apply (X c'); [now left|exact K1|exact K2]|exfalso; apply (X [a]); [exact K2|exact Hc|now left]|].
    apply IHm; auto. clear - M1. induction y as [|b l IHl]; [exact M1|]. cbn in M1. inversion M1; auto. }
  assert (ND : NoDup cls) by (now apply disjoint_distinct).
  destruct (mi_order_spec dep cap2 n Hn (length cls) [] cls ND L2 (le_n _)) as (order & -> & P & HK). cbn [app] in HK |- *.
  destruct (gin_ops_spec order [] []) as (G & EG & HC & HN & HV & HM). unfold gin_ops in EG. cbn [map app rest_ops] in EG. rewrite !app_nil_r in EG. rewrite app_nil_r in HV.
  assert (PC : Permutation (concat order) (concat cls)).
  { clear - P. induction P; cbn; [constructor|now apply Permutation_app_head| |eapply perm_trans; eauto]. rewrite !app_assoc. apply Permutation_app_tail. apply Permutation_app_comm. }
  exists G, order. rewrite EG. split; [reflexivity|]. split; [exact HC|].
  split; [eapply perm_trans; [exact PC|]; apply NoDup_Permutation; [exact M1|apply seq_NoDup|intros v; now rewrite EC, in_seq0]|].
  split; [intros c Hc; apply L2; now apply (Permutation_in c P)|].
  split.
  { intros i Hi. destruct (IC i Hi) as (d & x & Q1 & Q2 & Q3 & Q4 & Q5).
    assert (X : forall v, In v x -> together cls i v). { intros v Hv. apply M3. split; [apply M2; now apply EC|]. apply reach_one. exists d. split; [exact Q1|]. split; now apply Q4. }
    destruct (X i Q3) as (c & K1 & K2 & _). exists x, c. split; [exact Q2|]. split; [exact Q3|]. split; [now apply (Permutation_in c (Permutation_sym P))|]. split; [|exact Q5].
    intros v Hv. destruct (X v Hv) as (c' & J1 & J2 & J3). enough (c' = c) by (subst; exact J3).
    clear - M1 K1 K2 J1 J2. induction cls as [|y m IHm]; [destruct K1|]. cbn in M1.
    assert (X : forall z, In i y -> In z m -> In i z -> False).
    { intros z Q1 Q2 Q3. apply in_split in Q1. destruct Q1 as (l1 & l2 & ->). rewrite <- app_assoc in M1. cbn in M1. apply NoDup_remove_2 in M1. apply M1. rewrite !in_app_iff. right. right. apply in_concat'. eauto. }
    destruct K1 as [-> |K1], J1 as [-> |J1]; [reflexivity|exfalso; eapply X; eauto|exfalso; eapply X; eauto|].
    apply IHm; auto. clear - M1. induction y as [|b l IHl]; [exact M1|]. cbn in M1. inversion M1; auto. }
  assert (IV : forall o, o < n <-> In o (concat order)).
  { intros o. rewrite <- EC. split; apply Permutation_in; [now apply Permutation_sym|exact PC]. }
  assert (NO : forall o, o < n -> In (obs o) (nodes G)) by (intros o Ho; apply HV; right; exists o; split; [right; now apply IV|reflexivity]).
  assert (NL : forall k, 1 <= k <= length order -> In (lat k) (nodes G)) by (intros k Hk; apply HV; left; eauto).
  split.
  { apply NoDup_Permutation; [exact HN| |].
    - apply nodup_app; [apply FinFun.Injective_map_NoDup; [intros a b; unfold obs; lia|apply seq_NoDup]|apply FinFun.Injective_map_NoDup; [intros a b; unfold lat; lia|apply seq_NoDup]|].
      intros x Hx Hy. apply in_map_iff in Hx, Hy. destruct Hx as (a & <- & _), Hy as (b & K & _). unfold obs, lat in K. lia.
    - intros v. rewrite HV, in_app_iff, !in_map_iff. split.
      + intros [(k & Hk & ->)|(o & [[]|Ho] & ->)]; [right; exists k; split; [reflexivity|apply in_seq; lia]|left; exists o; split; [reflexivity|apply in_seq0; now apply IV]].
      + intros [(o & <- & Ho)|(k & <- & Hk)]; [right; exists o; split; [right; apply IV; now apply in_seq0|reflexivity]|left; exists k; apply in_seq in Hk; split; [lia|reflexivity]]. }
  split; [|split; [|split]].
  - intros k o Hk Ho. specialize (NL k Hk). specialize (NO o Ho). unfold arrow, apart. rewrite !HM by assumption. split; intros Q; [apply marks_member; [lia|]|apply marks_nonmember]; now rewrite app_nil_r.
  - intros j k Hj Hk. assert (K1 := NL j ltac:(lia)). assert (K2 := NL k ltac:(lia)). unfold arrow. rewrite !HM by assumption. apply marks_ordered; rewrite ?app_nil_r; lia.
  - intros o p Ho Hp. specialize (NO o Ho) as K1. specialize (NO p Hp) as K2. unfold apart. rewrite !HM by assumption. split; apply marks_obs.
  - exact HK.
Qed.
Definition mi_dep (X Z' : list nat) : Z := match X with [0; 1] | [2; 3] => 1%Z | [0; 2] => 3%Z | _ => 7%Z end.
Example C156_ex : enumerates (fun l => l) /\ 3 <= 4 /\ forallb (fun x => Z.ltb (pair_stat (fun l => l) mi_dep 4 x) 9) (pairs (fun l => l) 4) = true /\
  match GIN_MI (fun l => l) mi_dep 9 9 4 with Some (Ok G, order) => order = [[0; 1]; [2; 3]] /\ cell G (lat 1) (lat 2) = (-1)%Z /\ cell G (lat 2) (obs 3) = (-1)%Z /\ cell G (lat 2) (obs 0) = 0%Z | _ => False end.
Proof. split; [intros l _; apply Permutation_refl|]. split; [lia|]. vm_compute. auto 10. Qed.
(** C157 (refuted): "every observed variable is a node of the graph returned by GIN_MI".  With one variable the graph is empty; with two the call raises ZeroDivisionError; with
    a variable whose statistics all reach 1e9 it raises IndexError. *)
Theorem C157_every_variable_refuted :
  (forall dep cap1 cap2, exists G, GIN_MI (fun l => l) dep cap1 cap2 1 = Some (Ok G, []) /\ nodes G = []) /\
  (forall dep cap1 cap2, GIN_MI (fun l => l) dep cap1 cap2 2 = Some (Raise, [])) /\
  (exists dep cap1 cap2, GIN_MI (fun l => l) dep cap1 cap2 3 = Some (Raise, [])).
Proof.
  split; [intros dep cap1 cap2; eexists; split; vm_compute; reflexivity|]. split; [intros; vm_compute; reflexivity|].
  exists (fun X _ => match X with [0; 1] => 1%Z | _ => 10%Z end), 9%Z, 9%Z. vm_compute. reflexivity.
Qed.
