(** DAG2PAG.py: what the phases of dag2pag do. *)
From Verif Require Import Base EdgeModel EdgeProofs GraphModel GraphSpec GraphProofs DpathProofs UtilsModel UtilsProofs
  SkelModel SkelProofs PCModel FCIModel FCISpec FCIProofs FCIRules FCILoops FCIFront Dag2PagModel.
From Coq Require Import Permutation.
Local Open Scope Z_scope.

Lemma all_pairs_lt n : all_pairs n = pairs_lt n.
Proof. reflexivity. Qed.
Definition apart (x y a b : nat) : Prop := off x y a b.

(** ** The complete graph *)
Lemma empty_mixed n : mixed n (empty_graph n).
Proof. split; [reflexivity|]. split; [apply empty_wf|]. intros i j _ _. cbn. auto. Qed.
Lemma circle_add n g i j : mixed n g -> (i < n)%nat -> (j < n)%nat -> i <> j -> gm g i j = 0 -> gm g j i = 0 ->
  let g' := add_edge g (Edge i j CIRCLE CIRCLE) in
  mixed n g' /\ gm g' i j = 2 /\ gm g' j i = 2 /\ forall a b, off i j a b -> gm g' a b = gm g a b.
Proof.
  intros (Hn & Hw & Hs) Hi Hj Nij Z1 Z2. cbn zeta.
  destruct (add_edge_new g i j CIRCLE CIRCLE Nij Z1 Z2) as [K1 K2]; [split; [unfold is_mark; auto|split; [unfold is_mark; auto|intros [_ [=]]]]|].
  assert (F : forall a b, off i j a b -> gm (add_edge g (Edge i j CIRCLE CIRCLE)) a b = gm g a b).
  { intros a b [H1 H2]. apply add_edge_frame; assumption. }
  split; [|auto]. split; [now rewrite add_edge_gn|]. split.
  - apply add_edge_wf; [exact Hw|]. unfold op_on. cbn. rewrite Hn. lia.
  - intros u v Hu Hv. rewrite add_edge_gn in Hu, Hv.
    assert (D : (u = i /\ v = j) \/ (u = j /\ v = i) \/ off i j u v) by (unfold off; lia).
    destruct D as [[-> ->]|[[-> ->]|D]]; [rewrite K1; cbn; auto|rewrite K2; cbn; auto|]. rewrite F by exact D. apply Hs; assumption.
Qed.
Lemma circle_fold n l : NoDup l -> (forall i j, In (i, j) l -> (i < j)%nat /\ (j < n)%nat) -> forall g, mixed n g ->
  (forall i j, In (i, j) l -> gm g i j = 0 /\ gm g j i = 0) ->
  let g' := fold_left (fun g p => add_edge g (set_endpoint2 (set_endpoint1 (Edge (fst p) (snd p) CIRCLE CIRCLE) CIRCLE) CIRCLE)) l g in
  mixed n g' /\ (forall i j, In (i, j) l -> gm g' i j = 2 /\ gm g' j i = 2) /\
  (forall a b, ~ In (a, b) l -> ~ In (b, a) l -> gm g' a b = gm g a b).
Proof.
  induction l as [|(i, j) l IH]; intros Hd Hl g HM HZ; cbn zeta; cbn [fold_left fst snd].
  - split; [exact HM|]. split; [intros ? ? []|auto].
  - inversion Hd as [|? ? Nin Hd']; subst. destruct (Hl i j (or_introl eq_refl)) as [L1 L2]. destruct (HZ i j (or_introl eq_refl)) as [Z1 Z2].
    change (set_endpoint2 (set_endpoint1 (Edge i j CIRCLE CIRCLE) CIRCLE) CIRCLE) with (Edge i j CIRCLE CIRCLE).
    destruct (circle_add n g i j HM) as (M1 & K1 & K2 & F); try lia. set (g1 := add_edge g (Edge i j CIRCLE CIRCLE)) in *.
    assert (OFF : forall a b, In (a, b) l -> off i j a b /\ off i j b a).
    { intros a b Hab. destruct (Hl a b (or_intror Hab)) as [? ?]. assert (~ (a = i /\ b = j)) by (intros [-> ->]; auto). unfold off. lia. }
    destruct (IH Hd' (fun a b H => Hl a b (or_intror H)) g1 M1) as (M2 & P2 & F2).
    { intros a b Hab. destruct (OFF a b Hab). rewrite !F by assumption. apply HZ. now right. }
    split; [exact M2|]. split.
    + intros a b [[= <- <-]|Hab]; [|auto]. assert (N2 : ~ In (j, i) l) by (intros H; destruct (Hl _ _ (or_intror H)); lia).
      rewrite !F2 by assumption. auto.
    + intros a b N1 N2. rewrite F2; [|intros H; apply N1; now right|intros H; apply N2; now right]. apply F.
      split; intros [-> ->]; [apply N1; now left|apply N2; now left].
Qed.

(** ** The skeleton *)
Lemma remove_circle n g x y : mixed n g -> (x < n)%nat -> (y < n)%nat -> x <> y -> (gm g x y = 2 /\ gm g y x = 2) \/ (gm g x y = 0 /\ gm g y x = 0) ->
  let g' := remove_edge g (Edge x y CIRCLE CIRCLE) in
  mixed n g' /\ gm g' x y = 0 /\ gm g' y x = 0 /\ forall a b, off x y a b -> gm g' a b = gm g a b.
Proof.
  intros (Hn & Hw & Hs) Hx Hy N HC. cbn zeta. set (e := Edge x y CIRCLE CIRCLE).
  pose proof (remove_edge_pair g e N) as HP. unfold e, Edge, remove_pair in HP. cbn in HP.
  assert (Z0 : gm (remove_edge g e) x y = 0 /\ gm (remove_edge g e) y x = 0).
  { destruct HC as [[E1 E2]|[E1 E2]]; rewrite E1, E2 in HP; cbn in HP; injection HP; auto. }
  split; [|split; [apply Z0|split; [apply Z0|intros a b [H1 H2]; now apply remove_edge_frame]]].
  split; [now rewrite remove_edge_gn|]. split.
  - apply remove_edge_wf; [exact Hw|]. unfold op_on, e. cbn. lia.
  - apply remove_edge_simple; [exact Hs|]. unfold op_on, e. cbn. lia.
Qed.
Section Skeleton.
Variable dsepd : nat -> nat -> list nat -> bool.
Variables obs sel : list nat.
Notation m := (width obs).
Notation sepd := (separated dsepd obs sel).
Definition hit (x y : nat) (T : list nat) : bool := negb (memb x T || memb y T) && sepd x y T.
Definition seps (l x y : nat) : list (list nat) := filter (hit x y) (combs l (seq 0 m)).
Lemma try_fold x y l : (x < m)%nat -> (y < m)%nat -> x <> y -> forall g s, mixed m g -> (gm g x y = 2 /\ gm g y x = 2) \/ (gm g x y = 0 /\ gm g y x = 0) ->
  let r := fold_left (skel_try dsepd obs sel (Edge x y CIRCLE CIRCLE) x y) l (g, s) in
  mixed m (fst r) /\ (forall a b, off x y a b -> gm (fst r) a b = gm g a b /\ snd r a b = s a b) /\
  (gm (fst r) x y, gm (fst r) y x) = match filter (hit x y) l with [] => (gm g x y, gm g y x) | _ => (0, 0) end /\
  snd r x y = s x y ++ concat (filter (hit x y) l) /\ snd r y x = s y x ++ concat (filter (hit x y) l).
Proof.
  intros Hx Hy N. induction l as [|T l IH]; intros g s HM HC; cbn zeta; cbn [fold_left filter].
  - cbn. rewrite !app_nil_r. auto 6.
  - assert (ET : skel_try dsepd obs sel (Edge x y CIRCLE CIRCLE) x y (g, s) T =
      if hit x y T then (remove_edge g (Edge x y CIRCLE CIRCLE), sep_or (sep_or s x y T) y x T) else (g, s)).
    { unfold skel_try, hit. now destruct (memb x T || memb y T). }
    rewrite ET. destruct (hit x y T) eqn:EH; [|apply IH; assumption]. clear ET.
    destruct (remove_circle m g x y HM Hx Hy N HC) as (M1 & Z1 & Z2 & F1). set (g1 := remove_edge g (Edge x y CIRCLE CIRCLE)) in *.
    destruct (IH g1 (sep_or (sep_or s x y T) y x T) M1 (or_intror (conj Z1 Z2))) as (M2 & F2 & P & Q1 & Q2).
    split; [exact M2|]. split.
    { intros a b Hab. destruct (F2 a b Hab) as [E1 E2]. rewrite E1, E2, F1 by exact Hab. split; [reflexivity|]. unfold sep_or, upd_f.
      destruct Hab as [H1 H2]. destruct (Nat.eqb_spec a y), (Nat.eqb_spec b x), (Nat.eqb_spec a x), (Nat.eqb_spec b y); cbn; try tauto; try reflexivity; exfalso; lia. }
    split.
    { rewrite P, Z1, Z2. now destruct (filter (hit x y) l). }
    split; [rewrite Q1|rewrite Q2]; cbn [concat]; rewrite app_assoc; f_equal; unfold sep_or, upd_f.
    + destruct (Nat.eqb_spec x y); [congruence|]. cbn. now rewrite !Nat.eqb_refl.
    + destruct (Nat.eqb_spec y x); [congruence|]. destruct (Nat.eqb_spec x y); [congruence|]. cbn. rewrite !Nat.eqb_refl. reflexivity.
Qed.
(** What the skeleton phase knows about a pair when the sizes below l are done. *)
Fixpoint first_sep (l x y : nat) : option (list (list nat)) :=
  match l with
  | O => None
  | Datatypes.S k => match first_sep k x y with Some Ts => Some Ts | None => match seps k x y with [] => None | Ts => Some Ts end end
  end.
Definition pair_state (l x y : nat) (r : ggraph * psep) : Prop :=
  match first_sep l x y with
  | None => gm (fst r) x y = 2 /\ gm (fst r) y x = 2 /\ snd r x y = [] /\ snd r y x = []
  | Some Ts => gm (fst r) x y = 0 /\ gm (fst r) y x = 0 /\ snd r x y = concat Ts /\ snd r y x = concat Ts
  end.
Definition untouched (x y : nat) (r r' : ggraph * psep) : Prop :=
  gm (fst r') x y = gm (fst r) x y /\ gm (fst r') y x = gm (fst r) y x /\ snd r' x y = snd r x y /\ snd r' y x = snd r y x.
Lemma untouched_state l x y r r' : untouched x y r r' -> pair_state l x y r -> pair_state l x y r'.
Proof. unfold untouched, pair_state. intros (-> & -> & -> & ->). auto. Qed.
Lemma pair_step l x y r : mixed m (fst r) -> (x < y)%nat -> (y < m)%nat -> pair_state l x y r ->
  exists r', skel_pair dsepd obs sel l r (x, y) = Ret r' /\ mixed m (fst r') /\ pair_state (Datatypes.S l) x y r' /\
    forall a b, off x y a b -> off x y b a -> untouched a b r r'.
Proof.
  intros HM L1 L2 HP. unfold skel_pair. cbn [fst snd]. unfold pair_state in HP.
  destruct (first_sep l x y) as [Ts|] eqn:EF.
  - destruct HP as (Z1 & Z2 & K1 & K2). unfold get_edge. rewrite Z1. cbn. exists r. split; [reflexivity|]. split; [exact HM|].
    split; [unfold pair_state; cbn [first_sep]; rewrite EF; auto|]. unfold untouched. auto.
  - destruct HP as (Z1 & Z2 & K1 & K2). unfold get_edge. rewrite Z1, Z2. cbn [Z.eqb res_bind of_res obind endpoint_of Pos.eqb].
    destruct r as [g s]. cbn [fst snd] in *.
    destruct (try_fold x y (combs l (seq 0 m)) ltac:(lia) L2 ltac:(lia) g s HM (or_introl (conj Z1 Z2))) as (M & F & P & Q1 & Q2).
    eexists. split; [reflexivity|]. split; [exact M|]. fold (seps l x y) in P, Q1, Q2. split.
    + unfold pair_state. cbn [first_sep]. rewrite EF. rewrite Q1, Q2, K1, K2. cbn [app]. destruct (seps l x y) as [|T Ts]; injection P as -> ->; auto.
    + intros a b H1 H2. unfold untouched. destruct (F a b H1), (F b a H2). auto.
Qed.
Lemma pairs_step l ps : NoDup ps -> (forall x y, In (x, y) ps -> (x < y)%nat /\ (y < m)%nat) -> forall r, mixed m (fst r) ->
  (forall x y, In (x, y) ps -> pair_state l x y r) ->
  exists r', foldO (skel_pair dsepd obs sel l) ps r = Ret r' /\ mixed m (fst r') /\ (forall x y, In (x, y) ps -> pair_state (Datatypes.S l) x y r') /\
    forall a b, ~ In (a, b) ps -> ~ In (b, a) ps -> untouched a b r r'.
Proof.
  induction ps as [|(x, y) ps IH]; intros Hd Hl r HM HP; cbn [foldO].
  - exists r. split; [reflexivity|]. split; [exact HM|]. split; [intros ? ? []|]. unfold untouched. auto.
  - inversion Hd as [|? ? Nin Hd']; subst. destruct (Hl x y (or_introl eq_refl)) as [L1 L2].
    destruct (pair_step l x y r HM L1 L2 (HP x y (or_introl eq_refl))) as (r1 & -> & M1 & P1 & F1). cbn [obind].
    assert (OFF : forall a b, In (a, b) ps -> off x y a b /\ off x y b a).
    { intros a b Hab. destruct (Hl a b (or_intror Hab)) as [? ?]. assert (~ (a = x /\ b = y)) by (intros [-> ->]; auto). unfold off. lia. }
    destruct (IH Hd' (fun a b H => Hl a b (or_intror H)) r1 M1) as (r2 & E2 & M2 & P2 & F2).
    { intros a b Hab. destruct (OFF a b Hab) as [O1 O2]. eapply untouched_state; [apply F1; eassumption|]. apply HP. now right. }
    exists r2. split; [exact E2|]. split; [exact M2|]. split.
    + intros a b [[= <- <-]|Hab]; [|auto]. eapply untouched_state; [|exact P1]. apply F2; [exact Nin|].
      intros H. destruct (Hl _ _ (or_intror H)). lia.
    + intros a b N1 N2. assert (O1 : off x y a b /\ off x y b a).
      { unfold off. repeat split; intros [-> ->]; (apply N1; now left) || (apply N2; now left). }
      destruct (F1 a b) as (A1 & A2 & A3 & A4); [tauto|tauto|]. destruct (F2 a b) as (B1 & B2 & B3 & B4).
      { intros H; apply N1; now right. } { intros H; apply N2; now right. }
      unfold untouched. rewrite B1, B2, B3, B4. auto.
Qed.
Lemma circle_start : mixed m (circle_graph obs) /\ forall x y, (x < y)%nat -> (y < m)%nat -> gm (circle_graph obs) x y = 2 /\ gm (circle_graph obs) y x = 2.
Proof.
  unfold circle_graph. rewrite all_pairs_lt.
  destruct (circle_fold m (pairs_lt m) (pairs_lt_NoDup m) (fun i j => proj1 (in_pairs_lt m i j)) (empty_graph m) (empty_mixed m)) as (M & P & _).
  { intros. cbn. auto. }
  split; [exact M|]. intros x y H1 H2. apply P. now apply in_pairs_lt.
Qed.
Lemma skeleton_spec : exists g s, pag_skeleton dsepd obs sel = Ret (g, s) /\ mixed m g /\ forall x y, (x < y)%nat -> (y < m)%nat -> pair_state (m - 1) x y (g, s).
Proof.
  unfold pag_skeleton. rewrite all_pairs_lt. destruct circle_start as [M0 P0].
  assert (K : forall k l r, mixed m (fst r) -> (forall x y, (x < y)%nat -> (y < m)%nat -> pair_state l x y r) ->
    exists r', foldO (fun s l => foldO (skel_pair dsepd obs sel l) (pairs_lt m) s) (seq l k) r = Ret r' /\ mixed m (fst r') /\
      forall x y, (x < y)%nat -> (y < m)%nat -> pair_state (l + k) x y r').
  { induction k as [|k IH]; intros l r HM HP; cbn [seq foldO].
    - exists r. rewrite Nat.add_0_r. auto.
    - destruct (pairs_step l (pairs_lt m) (pairs_lt_NoDup m) (fun i j => proj1 (in_pairs_lt m i j)) r HM) as (r1 & -> & M1 & P1 & _).
      { intros x y Hxy. apply in_pairs_lt in Hxy. now apply HP. }
      cbn [obind]. destruct (IH (Datatypes.S l) r1 M1) as (r2 & E2 & M2 & P2).
      { intros x y H1 H2. apply P1. now apply in_pairs_lt. }
      exists r2. split; [exact E2|]. split; [exact M2|]. replace (l + Datatypes.S k)%nat with (Datatypes.S l + k)%nat by lia. exact P2. }
  destruct (K (m - 1)%nat 0%nat (circle_graph obs, fun _ _ => []) M0) as ([g s] & E & M & P).
  { intros x y H1 H2. unfold pair_state. cbn [first_sep fst snd]. destruct (P0 x y H1 H2). auto. }
  exists g, s. auto.
Qed.
(** first_sep, in words. *)
Lemma first_none l x y : first_sep l x y = None <-> forall k, (k < l)%nat -> seps k x y = [].
Proof.
  induction l as [|l IH]; cbn [first_sep]; [split; [intros; lia|auto]|]. destruct (first_sep l x y) as [Ts|].
  - split; [discriminate|]. intros H. assert (Some Ts = None) as [=]. apply IH. intros; apply H; lia.
  - destruct (seps l x y) eqn:E; split; auto; try discriminate.
    + intros _ k Hk. destruct (Nat.eq_dec k l) as [-> |]; [exact E|]. apply IH; [reflexivity|lia].
    + intros H. rewrite H in E by lia. discriminate.
Qed.
Lemma first_some l x y Ts : first_sep l x y = Some Ts -> exists k, (k < l)%nat /\ Ts = seps k x y /\ Ts <> [] /\ forall k', (k' < k)%nat -> seps k' x y = [].
Proof.
  induction l as [|l IH]; cbn [first_sep]; [discriminate|]. destruct (first_sep l x y) as [Ts'|] eqn:E.
  - intros [= ->]. destruct (IH eq_refl) as (k & H1 & H2). exists k. split; [lia|exact H2].
  - destruct (seps l x y) as [|T Us] eqn:ES; [discriminate|]. intros [= <-]. exists l. split; [lia|]. split; [now rewrite ES|]. split; [discriminate|].
    now apply first_none.
Qed.
End Skeleton.

(** ** The colliders *)
Lemma add_edge_ends g e e' : e_node1 e = e_node1 e' -> e_node2 e = e_node2 e' -> e_end1 e = e_end1 e' -> e_end2 e = e_end2 e' -> add_edge g e = add_edge g e'.
Proof. unfold add_edge, add_edge_full. intros -> -> -> ->. reflexivity. Qed.
Definition no_tail_code (v : Z) : Prop := v = 0 \/ v = 1 \/ v = 2.
Lemma point_at_spec n g x z : mixed n g -> (x < n)%nat -> (z < n)%nat -> gm g x z <> 0 -> no_tail_code (gm g x z) -> no_tail_code (gm g z x) ->
  exists e g', get_edge g x z = Ok (Some e) /\ e = edge_at g (x, z) /\ point_at g e z = Ok g' /\ mixed n g' /\ gm g' z x = 1 /\ gm g' x z = gm g x z /\
    forall a b, off x z a b -> gm g' a b = gm g a b.
Proof.
  intros HM Hx Hz Na T1 T2. destruct (mx_edge n g HM x z Hx Hz Na) as (a & b & Ma & Mb & E1 & E2 & EE).
  pose proof (mx_neq n g HM x z Hx Na) as N. destruct (remove_spec n g HM x z Hx Hz Na) as (M1 & Z1 & Z2 & F1).
  assert (EA : edge_at g (x, z) = Edge x z a b) by (unfold edge_at; cbn [fst snd]; now rewrite EE).
  rewrite EA in *. set (g1 := remove_edge g (Edge x z a b)) in *.
  assert (Nt : a <> TAIL /\ b <> TAIL). { unfold no_tail_code in *. rewrite E1 in T1. rewrite E2 in T2. split; intros ->; cbn in *; lia. }
  exists (Edge x z a b).
  assert (Q : exists e', mod_end (Edge x z a b) z ARROW = Ok e' /\ (add_edge g1 e' = add_edge g1 (Edge x z a ARROW) \/ add_edge g1 e' = add_edge g1 (Edge z x ARROW a))).
  { unfold mod_end. destruct Ma as [-> | [-> | ->]]; [tauto| |]; (destruct Mb as [-> | [-> | ->]]; [tauto| |]); unfold Edge; cbn;
    rewrite ?Nat.eqb_refl; destruct (Nat.eqb_spec x z); try congruence; eexists; (split; [reflexivity|]);
      solve [left; apply add_edge_ends; reflexivity | right; apply add_edge_ends; reflexivity]. }
  destruct Q as (e' & Q1 & Q2). exists (add_edge g1 e'). split; [exact EE|]. split; [reflexivity|]. unfold point_at. rewrite Q1. cbn [res_bind]. split; [reflexivity|].
  assert (Sa : storable a ARROW) by (split; [exact Ma|split; [unfold is_mark; auto|intros [_ [=]]]]).
  assert (Sb : storable ARROW a) by (split; [unfold is_mark; auto|split; [exact Ma|intros [[=] _]]]).
  destruct Q2 as [-> | ->].
  - destruct (put_spec n g HM x z Hx Hz Na g1 x z a ARROW M1 Z1 Z2 (or_introl (conj eq_refl eq_refl)) Sa) as (P1 & P2 & P3 & P4).
    split; [exact P1|]. split; [exact P3|]. split; [congruence|]. intros u v H. rewrite P4 by exact H. now apply F1.
  - destruct (put_spec n g HM x z Hx Hz Na g1 z x ARROW a M1 Z1 Z2 (or_intror (conj eq_refl eq_refl)) Sb) as (P1 & P2 & P3 & P4).
    split; [exact P1|]. split; [exact P2|]. split; [congruence|]. intros u v H. rewrite P4 by exact H. now apply F1.
Qed.
Lemma fills_arrows_at n g g' x y : only_fills n g g' -> (x < n)%nat -> (y < n)%nat -> arrow_at g x y -> arrow_at g' x y.
Proof. intros W Hx Hy H. destruct (W x y Hx Hy) as [K _]. unfold arrow_at, circle_at in *. rewrite K; lia. Qed.
Section Colliders.
Variable obs : list nat.
Notation m := (width obs).
Variable s : psep.
Hypothesis s_sym : forall x y, (x < m)%nat -> (y < m)%nat -> x <> y -> s x y = s y x.
Variable g0 : ggraph.
Hypothesis M0 : mixed m g0.
Definition recorded : sepsets := fun a b => Some (s a b).
Definition reason (a b c : nat) : Prop := collider_reason recorded m g0 a b c.
Definition tailless (g : ggraph) : Prop := forall x y, (x < m)%nat -> (y < m)%nat -> no_tail_code (gm g x y).
Definition cinv (g : ggraph) : Prop := mixed m g /\ tailless g /\ same_adj m g0 g.
Lemma reason_iff a b c : reason a b c <-> (a < m)%nat /\ (c < m)%nat /\ a <> c /\ adj g0 a b /\ adj g0 c b /\ ~ adj g0 a c /\ ~ In b (s a c).
Proof.
  unfold reason, collider_reason, recorded. assert (E : (a < m)%nat -> (c < m)%nat -> a <> c -> s (Nat.min a c) (Nat.max a c) = s a c).
  { intros. destruct (le_lt_dec a c); [rewrite Nat.min_l, Nat.max_r by lia; reflexivity|rewrite Nat.min_r, Nat.max_l by lia; apply s_sym; lia]. }
  split.
  - intros (H1 & H2 & H3 & H4 & H5 & H6 & t & [= <-] & H7). rewrite E in H7 by assumption. auto 8.
  - intros (H1 & H2 & H3 & H4 & H5 & H6 & H7). do 6 (split; [assumption|]). rewrite E by assumption. eauto.
Qed.
Lemma coll_step_spec x y g z : cinv g -> (x < m)%nat -> (y < m)%nat -> (z < m)%nat -> x <> y -> ~ adj g0 x y ->
  exists g', coll_step s x y g z = Ret g' /\ cinv g' /\ r0_rel recorded m g0 g g' /\ (reason x z y -> arrow_at g' x z /\ arrow_at g' y z).
Proof.
  intros (HM & HT & SA) Hx Hy Hz N NA. unfold coll_step.
  assert (SAME : forall P : Prop, ~ P -> exists g', Ret g = Ret g' /\ cinv g' /\ r0_rel recorded m g0 g g' /\ (P -> arrow_at g' x z /\ arrow_at g' y z)).
  { intros P NP. exists g. split; [reflexivity|]. split; [split; auto|]. split; [now apply r0_refl|tauto]. }
  destruct (Nat.eqb_spec z x) as [->|N1]; cbn [orb].
  { apply SAME. rewrite reason_iff. intros (_ & _ & _ & J & _). now apply (mx_neq m g0 M0 x x Hx J). }
  destruct (Nat.eqb_spec z y) as [->|N2].
  { apply SAME. rewrite reason_iff. intros (_ & _ & _ & _ & J & _). now apply (mx_neq m g0 M0 y y Hy J). }
  destruct (memb z (s x y)) eqn:EM.
  { apply memb_In in EM. apply SAME. rewrite reason_iff. tauto. }
  apply memb_not_In in EM.
  destruct (Z.eq_dec (gm g x z) 0) as [E1|E1].
  { unfold get_edge at 1. rewrite E1. cbn [Z.eqb of_res obind].
    assert (Q : exists o2, get_edge g y z = Ok o2).
    { destruct (Z.eq_dec (gm g y z) 0) as [E|E]; [unfold get_edge; rewrite E; cbn; eauto|]. destruct (mx_edge m g HM y z Hy Hz E) as (a & b & _ & _ & _ & _ & ->). eauto. }
    destruct Q as (o2 & ->). cbn [of_res obind]. apply SAME. rewrite reason_iff. intros (_ & _ & _ & J & _). apply SA in J; auto. apply J. now apply (mx_zero m g HM). }
  destruct (point_at_spec m g x z HM Hx Hz E1 (HT _ _ Hx Hz) (HT _ _ Hz Hx)) as (e1 & g1 & -> & _ & P1 & M1 & A1 & A2 & A3). cbn [of_res obind].
  destruct (Z.eq_dec (gm g y z) 0) as [E2|E2].
  { unfold get_edge. rewrite E2. cbn [Z.eqb of_res obind]. apply SAME. rewrite reason_iff. intros (_ & _ & _ & _ & J & _). apply SA in J; auto. apply J. now apply (mx_zero m g HM). }
  destruct (mx_edge m g HM y z Hy Hz E2) as (a & b & Ma & Mb & F1 & F2 & EE). rewrite EE. cbn [of_res obind]. rewrite P1. cbn [res_bind].
  assert (O1 : off x z y z) by (unfold off; lia). assert (O2 : off x z z y) by (unfold off; lia).
  destruct (point_at_spec m g1 y z M1 Hy Hz) as (e2 & g2 & EE2 & _ & P2 & M2 & B1 & B2 & B3); try (rewrite A3 by assumption; auto).
  assert (EQ : e2 = Edge y z a b).
  { assert (GE : get_edge g1 y z = get_edge g y z) by (unfold get_edge; now rewrite !A3 by assumption). rewrite GE, EE in EE2. congruence. }
  subst e2. rewrite P2. cbn [of_res]. exists g2. split; [reflexivity|].
  assert (G : forall i j, ~ (i = z /\ (j = x \/ j = y)) -> gm g2 i j = gm g i j).
  { intros i j K. assert (D : (i = y /\ j = z) \/ ~ (i = y /\ j = z)) by lia. destruct D as [[-> ->]|D]; [rewrite B2; apply A3; unfold off; lia|].
    rewrite B3 by (unfold off; lia). assert (D2 : (i = x /\ j = z) \/ ~ (i = x /\ j = z)) by lia. destruct D2 as [[-> ->]|D2]; [exact A2|]. apply A3. unfold off; lia. }
  assert (Gx : gm g2 z x = 1) by (rewrite B3 by (unfold off; lia); exact A1).
  assert (NZ : forall i j, (i < m)%nat -> (j < m)%nat -> gm g i j = 0 <-> gm g j i = 0) by (intros; split; now apply (mx_zero m g HM)).
  assert (E1' : gm g z x <> 0) by (rewrite NZ; auto). assert (E2' : gm g z y <> 0) by (rewrite NZ; auto).
  assert (RS : reason x z y).
  { rewrite reason_iff. do 3 (split; [assumption|]). split; [apply SA; auto|]. split; [apply SA; auto|]. auto. }
  split; [split; [exact M2|split]|split; [split|]].
  - intros i j Hi Hj. assert (D : (i = z /\ j = x) \/ (i = z /\ j = y) \/ ~ (i = z /\ (j = x \/ j = y))) by lia. unfold no_tail_code.
    destruct D as [[-> ->]|[[-> ->]|D]]; [lia|lia|]. rewrite G by exact D. now apply HT.
  - intros i j Hi Hj. rewrite <- (SA i j Hi Hj). unfold adj. assert (D : (j = z /\ i = x) \/ (j = z /\ i = y) \/ ~ (j = z /\ (i = x \/ i = y))) by lia.
    destruct D as [[-> ->]|[[-> ->]|D]]; [lia|lia|]. now rewrite G by exact D.
  - intros i j Hi Hj. unfold circle_at, arrow_at, tail_at. assert (D : (j = z /\ i = x) \/ (j = z /\ i = y) \/ ~ (j = z /\ (i = x \/ i = y))) by lia.
    pose proof (HT _ _ Hz Hx) as U1. pose proof (HT _ _ Hz Hy) as U2. unfold no_tail_code in *.
    destruct D as [[-> ->]|[[-> ->]|D]]; [lia|lia|]. rewrite G by exact D. lia.
  - intros i j Hi Hj. assert (D : (j = z /\ i = x) \/ (j = z /\ i = y) \/ ~ (j = z /\ (i = x \/ i = y))) by lia.
    destruct (HT _ _ Hz Hx) as [?|[U|U]]; [tauto| |]; destruct (HT _ _ Hz Hy) as [?|[V|V]]; try tauto;
    destruct D as [[-> ->]|[[-> ->]|D]]; try (left; now apply G); try (left; lia); right;
      (split; [assumption|]); (split; [assumption|]); try (exists y; exact RS); exists x; now apply (reason_sym recorded m g0 x z y M0).
  - intros _. unfold arrow_at. auto.
Qed.
Lemma coll_pair_spec x y g : cinv g -> (x < y)%nat -> (y < m)%nat ->
  exists g', coll_pair obs s g (x, y) = Ret g' /\ cinv g' /\ r0_rel recorded m g0 g g' /\ forall z, (z < m)%nat -> reason x z y -> arrow_at g' x z /\ arrow_at g' y z.
Proof.
  intros HC L1 L2. pose proof HC as (HM & HT & SA). assert (Hx : (x < m)%nat) by lia. unfold coll_pair. cbn [fst snd].
  destruct (Z.eq_dec (gm g x y) 0) as [E|E].
  - unfold get_edge. rewrite E. cbn [Z.eqb of_res obind].
    assert (NA : ~ adj g0 x y). { intros J. apply SA in J; auto. apply J. now apply (mx_zero m g HM). }
    destruct (foldO_each (coll_step s x y) cinv (r0_rel recorded m g0) (fun z g' => (z < m)%nat -> reason x z y -> arrow_at g' x z /\ arrow_at g' y z) (seq 0 m)) with (s := g)
      as (g' & E' & C' & R' & Q').
    + intros h (Hh & _). now apply r0_refl.
    + apply r0_trans.
    + intros z h h' Hz [W _] Lz RS. destruct (Hz Lz RS) as [A1 A2]. split; eapply fills_arrows_at; eauto.
    + intros h z Hz Hh. apply in_seq0 in Hz. destruct (coll_step_spec x y h z Hh Hx L2 Hz ltac:(lia) NA) as (h' & K1 & K2 & K3 & K4). exists h'. auto.
    + exact HC.
    + exists g'. split; [exact E'|]. split; [exact C'|]. split; [exact R'|]. intros z Hz. apply Q'; [now apply in_seq0|exact Hz].
  - destruct (mx_edge m g HM x y Hx L2 E) as (a & b & _ & _ & _ & _ & ->). cbn [of_res obind]. exists g. split; [reflexivity|]. split; [exact HC|].
    split; [now apply r0_refl|]. intros z Hz. rewrite reason_iff. intros (_ & _ & _ & _ & _ & J & _). exfalso. apply J. apply SA; auto. unfold adj.
    intros Q. apply E. now apply (mx_zero m g HM).
Qed.
Lemma colliders_spec : tailless g0 -> exists g', foldO (coll_pair obs s) (all_pairs m) g0 = Ret g' /\ cinv g' /\ r0_rel recorded m g0 g0 g' /\
  forall x y z, (x < m)%nat -> (y < m)%nat -> (z < m)%nat -> reason x z y -> arrow_at g' x z.
Proof.
  intros HT. rewrite all_pairs_lt.
  destruct (foldO_each (coll_pair obs s) cinv (r0_rel recorded m g0)
    (fun p g' => forall z, (z < m)%nat -> reason (fst p) z (snd p) -> arrow_at g' (fst p) z /\ arrow_at g' (snd p) z) (pairs_lt m)) with (s := g0) as (g' & E' & C' & R' & Q').
  - intros h (Hh & _). now apply r0_refl.
  - apply r0_trans.
  - intros (x, y) h h' Hz [W _] z Lz RS. cbn [fst snd] in *. destruct (Hz z Lz RS) as [A1 A2]. pose proof RS as RS'. rewrite reason_iff in RS'. destruct RS' as (? & ? & _). split; eapply fills_arrows_at; eauto.
  - intros h (x, y) Hp Hh. apply in_pairs_lt in Hp. destruct (coll_pair_spec x y h Hh (proj1 Hp) (proj2 Hp)) as (h' & K1 & K2 & K3 & K4). exists h'. auto.
  - split; [exact M0|]. split; [exact HT|]. intros a b _ _. reflexivity.
  - exists g'. split; [exact E'|]. split; [exact C'|]. split; [exact R'|]. intros x y z Hx Hy Hz RS.
    assert (N : x <> y) by (rewrite reason_iff in RS; tauto). destruct (lt_dec x y) as [L|L].
    + apply (Q' (x, y)); auto. now apply in_pairs_lt.
    + apply (Q' (y, x)); auto; [apply in_pairs_lt; lia|]. cbn [fst snd]. now apply (reason_sym recorded m g0 x z y M0).
Qed.
End Colliders.

(** ** The rules *)
Section Rules.
Variable dsepd : nat -> nat -> list nat -> bool.
Variables obs : list nat.
Variable so : list nat -> list nat.
Hypothesis so_in : forall l x, In x (so l) <-> In x l.
Notation m := (width obs).
Lemma pag_pass_adv fuel g : (2 * m < fuel)%nat -> mixed m g -> exists s', pag_pass dsepd obs so fuel g = Ret s' /\ adv only_fills m (g, false) s'.
Proof.
  intros HF HM. assert (HF1 : (m < fuel)%nat) by lia. unfold pag_pass.
  set (ind := pag_test dsepd obs). set (forb := Dag2PagModel.free). set (sep := no_members).
  assert (FW : forall n g g', only_fills n g g' -> only_fills n g g') by auto.
  assert (TW : forall n g g', only_tails n g g' -> only_fills n g g') by (intros; now apply ntails_fills).
  assert (A0 : adv only_fills m (g, false) (g, false)) by (apply (adv_refl _ po_fills); exact HM).
  apply (obind_adv2 m only_fills (g, false) _ _ _ po_fills); [apply (step_fills m _ only_fills _ _ FW (R12_adv ind forb m) A0)|]. intros s1 A1.
  apply (obind_adv2 m only_fills (g, false) _ _ _ po_fills); [apply (step_fills m _ only_fills _ _ FW (R3_adv ind forb m sep) A1)|]. intros s2 A2.
  apply (obind_adv2 m only_fills (g, false) _ _ _ po_fills); [apply (step_fills m _ only_fills _ _ FW (fun s => R4_adv ind forb m fuel (-1) sep s HF) A2)|]. intros s3 A3.
  apply (obind_adv2 m only_fills (g, false) _ _ _ po_fills); [apply (step_fills m _ only_tails _ _ TW (fun s => R5_adv m fuel s HF1) A3)|]. intros s4 A4.
  apply (obind_adv2 m only_fills (g, false) _ _ _ po_fills); [apply (step_fills m _ only_tails _ _ TW (R6_adv m) A4)|]. intros s5 A5.
  apply (obind_adv2 m only_fills (g, false) _ _ _ po_fills); [apply (step_fills m _ only_tails _ _ TW (R7_adv m) A5)|]. intros s6 A6.
  apply (obind_adv2 m only_fills (g, false) _ _ _ po_fills); [apply (step_fills m _ only_tails _ _ TW (R8_adv ind forb m) A6)|]. intros s7 A7.
  apply (obind_adv2 m only_fills (g, false) _ _ _ po_fills); [apply (step_fills m _ only_tails _ _ TW (fun s => R9_adv ind forb so so_in m fuel s HF1) A7)|]. intros s8 A8.
  apply (step_fills m _ only_tails _ _ TW (fun s => R10_adv ind forb so so_in m fuel s HF1) A8).
Qed.
Lemma pag_loop_adv : forall fuel g, (2 * m + ccount m g + 1 < fuel)%nat -> mixed m g ->
  exists g', pag_loop dsepd obs so fuel g = Ret g' /\ mixed m g' /\ only_fills m g g' /\
    exists fuel', (2 * m < fuel')%nat /\ pag_pass dsepd obs so fuel' g' = Ret (g', false).
Proof.
  induction fuel as [|f IH]; intros g HF HM; [lia|]. cbn [pag_loop].
  destruct (pag_pass_adv (Datatypes.S f) g) as (s' & E & A); [lia|exact HM|]. rewrite E. cbn [obind].
  destruct A as (M' & W & D). destruct (snd s') eqn:ES.
  - assert (G : gap m g (fst s')). { destruct D as [->|[_ G]]; [discriminate|exact G]. }
    pose proof (ccount_lt m g (fst s') (fills_weak _ _ _ W) G). destruct (IH (fst s')) as (g' & E' & M2 & W2 & X); [lia|exact M'|].
    exists g'. split; [exact E'|]. split; [exact M2|]. split; [eapply fills_trans; eauto|exact X].
  - destruct D as [->|[D _]]; [|congruence]. cbn [fst]. exists g. split; [reflexivity|]. split; [exact HM|]. split; [now apply fills_refl|].
    exists (Datatypes.S f). split; [lia|exact E].
Qed.
End Rules.
