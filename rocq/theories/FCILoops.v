(** FCI: rules R4B and R5, one pass, and the main loop. *)
From Verif Require Import Base EdgeModel EdgeProofs GraphModel GraphSpec GraphProofs DpathProofs QueryProps UtilsModel UtilsProofs
  SkelModel PCModel FCIModel FCISpec DsepProofs MeekModel MeekProofs FCIProofs FCIRules.
From Coq Require Import Permutation.
Local Open Scope Z_scope.

Section R5.
Variable n : nat.
(** Uncovered circle paths. *)
Definition circ (g : ggraph) (x y : nat) : Prop := (x < n)%nat /\ (y < n)%nat /\ gm g x y = 2 /\ gm g y x = 2.
Definition cpath (g : ggraph) (from v : nat) (p : list nat) : Prop :=
  hd 0%nat p = from /\ last p 0%nat = v /\ (2 <= length p)%nat /\ forall x y, In (x, y) (consecutive p) -> circ g x y.
Lemma consecutive_snoc p c : p <> [] -> consecutive (p ++ [c]) = consecutive p ++ [(last p 0%nat, c)].
Proof.
  induction p as [|a p IH]; [easy|]. intros _. destruct p as [|b p]; [reflexivity|].
  change (consecutive ((a :: b :: p) ++ [c])) with ((a, b) :: consecutive ((b :: p) ++ [c])). rewrite IH by discriminate. reflexivity.
Qed.
Lemma cpath_start g v c : circ g v c -> cpath g v c [v; c].
Proof. intros H. split; [reflexivity|]. split; [reflexivity|]. split; [cbn; lia|]. cbn. intros x y [[= <- <-]|[]]. exact H. Qed.
Lemma cpath_snoc g from v p c : cpath g from v p -> circ g v c -> cpath g from c (p ++ [c]).
Proof.
  intros (H1 & H2 & H3 & H4) HC. assert (Np : p <> []) by (intros ->; cbn in H3; lia). split; [destruct p; [easy|exact H1]|].
  split; [apply last_last|]. split; [rewrite app_length; cbn; lia|]. intros x y. rewrite consecutive_snoc by exact Np. rewrite in_app_iff.
  intros [H|[[= <- <-]|[]]]; [auto|]. now rewrite H2.
Qed.
Lemma cp_step_spec g ex t path V Q u : mixed n g -> (t < n)%nat -> (u < n)%nat -> gm g t u <> 0 ->
  exists V' Q', cp_step g ex t path (V, Q) u = Ret (V', Q') /\
    ((V' = V /\ Q' = Q) \/ (V' = V ++ [u] /\ Q' = Q ++ [(u, path ++ [u])] /\ ~ In u V /\ ~ In u ex /\ circ g t u)).
Proof.
  intros HM Ht Hu N. unfold cp_step. destruct (mx_edge n g HM t u Ht Hu N) as (a & b & Ma & Mb & E1 & E2 & ->). pose proof (mx_neq n g HM t u Ht N) as Ntu.
  assert (D : (a = CIRCLE /\ b = CIRCLE) \/ ~ (a = CIRCLE /\ b = CIRCLE)) by (destruct a, b; intuition discriminate).
  destruct D as [[-> ->]|D].
  - unfold traverse_circle, Edge. cbn [pointing_left ep_eqb ev Z.eqb Pos.eqb andb orb e_node1 e_node2 e_end1 e_end2 fst snd]. rewrite Nat.eqb_refl. destruct (memb u ex) eqn:EX; cbn; [eauto 10|]. destruct (memb u V) eqn:EV; cbn; [eauto 10|].
    do 2 eexists. split; [reflexivity|]. right. do 2 (split; [reflexivity|]). split; [now apply memb_not_In|]. split; [now apply memb_not_In|]. unfold circ. cbn in *. auto.
  - exists V, Q. split; [|auto]. unfold traverse_circle, Edge. clear E1 E2.
    destruct Ma as [-> | [-> | ->]], Mb as [-> | [-> | ->]]; try tauto; cbn;
    rewrite ?Nat.eqb_refl, ?(proj2 (Nat.eqb_neq t u) Ntu); reflexivity.
Qed.
Definition qok (g : ggraph) (from : nat) (V : list nat) (Q : list (nat * list nat)) : Prop :=
  forall v p, In (v, p) Q -> (v < n)%nat /\ cpath g from v p.
Lemma cp_push_spec g ex from t path V Q : mixed n g -> (t < n)%nat -> NoDup V -> (forall x, In x V -> (x < n)%nat) -> qok g from V Q ->
  (forall u, circ g t u -> cpath g from u (path ++ [u])) ->
  exists V' Q', cp_push g ex t path V Q = Ret (V', Q') /\ NoDup V' /\ (forall x, In x V' -> (x < n)%nat) /\ qok g from V' Q' /\
    (n - length V' + length Q' = n - length V + length Q)%nat.
Proof.
  intros HM Ht HN HB HQ HP. unfold cp_push.
  destruct (foldO_inv (cp_step g ex t path) (fun s => NoDup (fst s) /\ (forall x, In x (fst s) -> (x < n)%nat) /\ qok g from (fst s) (snd s) /\
    (n - length (fst s) + length (snd s) = n - length V + length Q)%nat) (get_adjacent_nodes g t) (V, Q)) as ((V', Q') & E & H).
  - cbn. auto.
  - intros (V1, Q1) u Hu (A1 & A2 & A3 & A4). cbn [fst snd] in *. apply (in_adjn n g HM) in Hu; [|exact Ht]. destruct Hu as [Hu Nu].
    destruct (cp_step_spec g ex t path V1 Q1 u HM Ht Hu Nu) as (V' & Q' & E & D). exists (V', Q'). split; [exact E|]. cbn [fst snd].
    destruct D as [[-> ->]|(-> & -> & NV & _ & C)]; [auto|].
    assert (HN2 : NoDup (V1 ++ [u])). { apply Permutation_NoDup with (u :: V1); [apply Permutation_cons_append|]. constructor; assumption. }
    assert (HB2 : forall x, In x (V1 ++ [u]) -> (x < n)%nat). { intros x Hx. apply in_app_or in Hx. destruct Hx as [Hx|[<-|[]]]; auto. }
    split; [exact HN2|]. split; [exact HB2|]. split.
    + intros v p Hv. apply in_app_or in Hv. destruct Hv as [Hv|[[= <- <-]|[]]]; [now apply A3|]. split; [exact Hu|]. auto.
    + pose proof (nodup_bound n _ HN2 HB2). rewrite !app_length in *. cbn [length] in *. lia.
  - exists V', Q'. cbn [fst snd] in H. split; [exact E|]. exact H.
Qed.
Lemma cp_loop_spec g from to ex : mixed n g -> forall fuel V Q, NoDup V -> (forall x, In x V -> (x < n)%nat) -> qok g from V Q ->
  (n - length V + length Q < fuel)%nat ->
  exists o, cp_loop fuel g to ex V Q = Ret o /\ forall p, o = Some p -> cpath g from to p /\ is_uncovered_path g p = true.
Proof.
  intros HM. induction fuel as [|f IH]; intros V Q HN HB HQ HF; [lia|]. destruct Q as [|(t, path) Q]; cbn [cp_loop].
  - exists None. split; [reflexivity|]. discriminate.
  - destruct (HQ t path (or_introl eq_refl)) as [Ht HP]. destruct (Nat.eqb_spec t to) as [->|Nt].
    + eexists. split; [reflexivity|]. intros p. destruct (is_uncovered_path g path) eqn:EU; [|discriminate]. intros [= <-]. auto.
    + destruct (cp_push_spec g ex from t path V Q HM Ht HN HB) as (V' & Q' & -> & A1 & A2 & A3 & A4).
      { intros v p Hv. apply HQ. now right. }
      { intros u Hu. eapply cpath_snoc; eauto. }
      cbn [obind fst snd]. apply IH; auto. cbn [length] in HF. lia.
Qed.
Lemma circle_path_spec fuel g from to ex : mixed n g -> (from < n)%nat -> (n < fuel)%nat ->
  exists o, uncovered_circle_path fuel g from to ex = Ret o /\ forall p, o = Some p -> cpath g from to p /\ is_uncovered_path g p = true.
Proof.
  intros HM Hf HF. unfold uncovered_circle_path.
  destruct (cp_push_spec g ex from from [from] [] [] HM Hf (NoDup_nil _)) as (V' & Q' & -> & A1 & A2 & A3 & A4); [easy|easy|intros u Hu; now apply cpath_start|].
  cbn [obind fst snd]. apply cp_loop_spec; auto. cbn [length] in A4. lia.
Qed.

(** ** R5 *)
Definition tailable (g : ggraph) (x y : nat) : Prop :=
  (x < n)%nat /\ (y < n)%nat /\ (gm g x y = 2 \/ gm g x y = -1) /\ (gm g y x = 2 \/ gm g y x = -1).
Lemma circ_tailable g x y : circ g x y -> tailable g x y.
Proof. unfold circ, tailable. tauto. Qed.
Lemma tailable_mono g g' x y : only_tails n g g' -> tailable g x y -> tailable g' x y.
Proof. intros T (Hx & Hy & H1 & H2). repeat split; auto; [destruct (T x y Hx Hy)|destruct (T y x Hy Hx)]; lia. Qed.
Lemma tails_spec g x y : mixed n g -> tailable g x y ->
  exists g', tails g (x, y) = Ret g' /\ mixed n g' /\ only_tails n g g' /\ gm g' x y = -1 /\ gm g' y x = -1.
Proof.
  intros HM (Hx & Hy & H1 & H2). unfold tails. cbn [fst snd]. assert (N : gm g x y <> 0) by lia. assert (Nxy : x <> y) by (eapply mx_neq; eauto).
  destruct (reedge_const n g HM x y TAIL TAIL Hx Hy N st_TT) as (g' & -> & M' & MK). cbn [ev] in MK. exists g'. split; [reflexivity|]. split; [exact M'|].
  split; [by_mark marked_tails MK|]. destruct MK as (E1 & E2 & _). auto.
Qed.
Lemma tails_fold l : forall g, mixed n g -> (forall x y, In (x, y) l -> tailable g x y) ->
  exists g', foldO tails l g = Ret g' /\ mixed n g' /\ only_tails n g g' /\ forall x y, In (x, y) l -> gm g' x y = -1 /\ gm g' y x = -1.
Proof.
  induction l as [|(x, y) l IH]; intros g HM HT; cbn [foldO].
  - exists g. split; [reflexivity|]. split; [exact HM|]. split; [apply ntails_refl|easy].
  - destruct (tails_spec g x y HM) as (g1 & -> & M1 & T1 & E1 & E2); [apply HT; now left|]. cbn [obind].
    destruct (IH g1 M1) as (g2 & -> & M2 & T2 & K2). { intros u v Huv. eapply tailable_mono; [exact T1|]. apply HT. now right. }
    exists g2. split; [reflexivity|]. split; [exact M2|]. split; [eapply ntails_trans; eauto|]. intros u v [[= <- <-]|Huv]; [|auto].
    destruct (HT x y (or_introl eq_refl)) as (Hx & Hy & _). split; [destruct (T2 x y Hx Hy)|destruct (T2 y x Hy Hx)]; lia.
Qed.
Lemma r5_pair_adv fuel a b s0 s c d : (n < fuel)%nat -> adv only_tails n s0 s -> tailable (fst s) a b -> tailable (fst s) a c -> tailable (fst s) b d ->
  exists s', r5_pair fuel a b s (c, d) = Ret s' /\ adv only_tails n s0 s'.
Proof.
  intros HF A1 Tab Tac Tbd. unfold r5_pair. cbn [fst snd]. pose proof (adv_mixed _ _ _ _ A1) as HM. pose proof Tac as (_ & Hc & _).
  destruct (circle_path_spec fuel (fst s) c d [a; b] HM Hc HF) as (o & -> & HO). cbn [obind]. destruct o as [p|]; [|eauto].
  destruct (HO p eq_refl) as [(P1 & P2 & P3 & P4) _].
  destruct (tails_fold (r5_pairs a b p) (fst s) HM) as (g' & -> & M' & T' & K').
  { unfold r5_pairs. rewrite P1, P2. intros x y [[= <- <-]|[[= <- <-]|[[= <- <-]|H]]]; auto. apply circ_tailable, P4, H. }
  cbn. eexists. split; [reflexivity|]. apply (adv_more _ po_tails n s0 s g'); auto.
  destruct p as [|x [|y p]]; cbn in P3; try lia. assert (C : circ (fst s) x y) by (apply P4; now left). destruct C as (Hx & Hy & C1 & C2).
  exists x, y. split; [exact Hx|]. split; [exact Hy|]. split.
  - destruct A1 as (_ & T & _). destruct (T x y Hx Hy); lia.
  - destruct (K' x y) as [-> _]; [|lia]. unfold r5_pairs. right. right. right. now left.
Qed.
Lemma R5_adv fuel s : (n < fuel)%nat -> mixed n (fst s) -> exists s', ruleR5 fuel s = Ret s' /\ adv only_tails n s s'.
Proof.
  intros HF HM. unfold ruleR5. apply (foldO_adv1 _ po_tails); [exact HM|]. intros s0 b Hb HM0. rewrite (mx_n _ _ HM) in Hb. apply in_seq0 in Hb.
  apply (foldO_adv _ po_tails); [exact HM0|]. intros s1 a Ha A1. apply (in_into n _ HM0) in Ha; auto with fci. destruct Ha as [Ha Ea]. cbn [ev] in Ea.
  pose proof (adv_mixed _ _ _ _ A1) as HM1. unfold r5_step. cbn zeta. destruct (epis (fst s1) b a CIRCLE) eqn:Eba; [|eauto].
  apply (epis_iff n _ HM1) in Eba; auto with fci. cbn [ev] in Eba.
  assert (Tab : tailable (fst s1) a b). { pose proof A1 as (_ & T & _). pose proof (T b a Hb Ha). unfold tailable. lia. }
  assert (HN : forall v u, (v < n)%nat -> In u (circle_nbrs (fst s1) v a b) -> tailable (fst s1) v u).
  { intros v u Hv Hu. unfold circle_nbrs in Hu. apply filter_In in Hu. destruct Hu as [Hu Hg]. bools. apply (in_adjn n _ HM1) in Hu; auto. destruct Hu as [Hu _].
    rewrite (epis_iff n _ HM1) in * by auto with fci. cbn [ev] in *. unfold tailable. lia. }
  match goal with |- exists s', foldO ?f ?l s1 = _ /\ _ =>
    destruct (foldO_inv f (fun s => adv only_tails n s1 s) l s1) as (s2 & E2 & A2) end.
  - now apply (adv_refl _ po_tails).
  - intros s2 (c, d) Hcd A2. apply in_flat_map in Hcd. destruct Hcd as (c' & Hc & Hcd). destruct (is_adjacent_to (fst s1) b c'); [easy|].
    apply in_flat_map in Hcd. destruct Hcd as (d' & Hd & Hcd). destruct (is_adjacent_to (fst s1) a d'); [easy|]. destruct Hcd as [[= -> ->]|[]].
    pose proof A2 as (_ & T2 & _). apply r5_pair_adv; auto; (eapply tailable_mono; [exact T2|]); auto.
  - exists s2. split; [exact E2|]. eapply adv_trans; eauto using po_tails.
Qed.
End R5.

Section R4.
Variable ind : nat -> nat -> list nat -> bool.
Variable forb : nat -> nat -> bool.
Variable n : nat.

(** The chain of [previous] entries from v ends at b. *)
Inductive chain (prev : prevmap) (b : nat) : nat -> list nat -> Prop :=
| chain_b : prev b = None -> chain prev b b []
| chain_s : forall v w l, prev v = Some w -> chain prev b w l -> chain prev b v (w :: l).
Lemma chain_path prev b v l fuel : chain prev b v l -> (length l <= fuel)%nat -> get_path fuel prev v = Ret l.
Proof.
  intros H. revert fuel. induction H as [E|v w l E H IH]; intros fuel HF.
  - destruct fuel; cbn; now rewrite E.
  - destruct fuel as [|f]; cbn [length] in HF; [lia|]. cbn [get_path]. rewrite E, IH by lia. reflexivity.
Qed.
Lemma chain_last prev b v l : chain prev b v l -> v <> b -> In b l.
Proof.
  induction 1 as [E|v w l E H IH]; intros N; [easy|]. destruct (Nat.eq_dec w b) as [->|Nw]; [now left|right; auto].
Qed.
Lemma chain_upd prev b v l d t : chain prev b v l -> d <> v -> d <> b -> ~ In d l -> chain (pset prev d t) b v l.
Proof.
  induction 1 as [E|v w l E H IH]; intros Nv Nb Nl.
  - constructor. unfold pset. now rewrite (proj2 (Nat.eqb_neq b d)) by congruence.
  - econstructor; [unfold pset; rewrite (proj2 (Nat.eqb_neq v d)) by congruence; exact E|]. apply IH; auto; intros Q; apply Nl; [left; auto|now right].
Qed.
Lemma lremove1_some v l : In v l -> exists r, lremove1 v l = Some r.
Proof.
  induction l as [|x l IH]; [easy|]. intros H. cbn. destruct (Nat.eqb_spec x v) as [|N]; [eauto|]. destruct H as [|H]; [contradiction|].
  destruct (IH H) as (r & ->). eauto.
Qed.

(** The orientation made by a discriminating path. *)
Lemma fills_at g0 g g' x y v : mixed n g' -> only_fills n g0 g -> (x < n)%nat -> (y < n)%nat ->
  gm g' y x = v -> (forall i j, ~ (i = y /\ j = x) -> gm g' i j = gm g i j) ->
  (gm g0 y x = 2 /\ (v = 1 \/ v = -1) \/ gm g y x = v \/ (gm g y x = 2 /\ v = 1)) -> only_fills n g0 g'.
Proof.
  intros M' HF Hx Hy E F D i j Hi Hj. destruct (HF i j Hi Hj) as [A B]. unfold circle_at, arrow_at, tail_at in *.
  assert (K : (j = y /\ i = x) \/ ~ (j = y /\ i = x)) by lia. destruct K as [[-> ->]|K]; [|rewrite F by exact K; auto].
  rewrite E. destruct (Z.eq_dec (gm g0 y x) 2) as [C|C]; [specialize (B C)|specialize (A C)]; split; intros; lia.
Qed.
Lemma ddp_orientation_spec fuel d a b c prev sep s0 s l : adv only_fills n s0 s -> (a < n)%nat -> (b < n)%nat -> (c < n)%nat -> (d < n)%nat ->
  gm (fst s) c d = 0 -> a <> c -> d <> b -> gm (fst s) a b <> 0 -> gm (fst s) c b = 1 -> gm (fst s0) b c = 2 ->
  chain prev b d l -> (length l <= fuel)%nat ->
  exists r s', ddp_orientation ind forb fuel d a b c prev sep s = Ret (r, s') /\ adv only_fills n s0 s' /\ (r = false -> s' = s).
Proof.
  intros A1 Ha Hb Hc Hd Nadj Nac Ndb Eab Ecb E0 HC HF. pose proof (adv_mixed _ _ _ _ A1) as HM. unfold ddp_orientation. cbn zeta.
  rewrite (proj2 (adj_no _ _ _) Nadj). inversion HC as [E|v w l' E HC' E1 E2]; subst; [easy|]. rewrite E.
  rewrite (chain_path prev b d _ fuel HC HF). cbn [obind]. destruct (lremove1_some b (w :: l') (chain_last _ _ _ _ HC Ndb)) as (r & ->).
  assert (Nbc : gm (fst s) c b <> 0) by lia. assert (Ncb : c <> b) by (eapply mx_neq; eauto). assert (Nab : a <> b) by (eapply mx_neq; eauto).
  pose proof A1 as (_ & W0 & _).
  match goal with |- context [if ?x || ?y then Some ?z else ?w] => destruct (if x || y then Some z else w) as [[|]|] end.
  - destruct (reedge_left n _ HM c b TAIL Hc Hb Nbc mkT) as (g' & -> & M' & MK); [intros [? _]; lia|]. cbn. do 2 eexists. split; [reflexivity|]. split; [|discriminate].
    cbn [ev] in MK. destruct MK as (F1 & F2 & F3). split; [exact M'|]. cbn [fst snd]. split.
    + apply (fills_at (fst s0) (fst s) g' c b (-1)); auto. intros i j N. assert (K : (i = c /\ j = b) \/ ~ (i = c /\ j = b)) by lia. destruct K as [[-> ->]|K]; [exact F1|apply F3; lia].
    + right. split; [reflexivity|]. exists b, c. split; [exact Hb|]. split; [exact Hc|]. split; [exact E0|]. lia.
  - destruct (allowed forb (fst s) a b && allowed forb (fst s) c b) eqn:EA; [|eauto 10]. bools. apply (allowed_iff n _ HM) in H; auto.
    destruct (reedge_left n _ HM a b ARROW Ha Hb Eab mkA) as (g1 & -> & M1 & MK1); [intros [_ Q]; discriminate|]. cbn [obind ev] in *.
    assert (Fcb : gm g1 c b = gm (fst s) c b). { destruct MK1 as (_ & _ & F). apply F; lia. }
    destruct (reedge_left n g1 M1 c b ARROW Hc Hb) as (g2 & -> & M2 & MK2); [rewrite Fcb; exact Nbc|apply mkA|intros [_ Q]; discriminate|]. cbn [ev] in MK2. cbn. do 2 eexists. split; [reflexivity|]. split; [|discriminate].
    destruct MK1 as (P1 & P2 & P3), MK2 as (Q1 & Q2 & Q3).
    assert (W1 : only_fills n (fst s0) g1).
    { apply (fills_at (fst s0) (fst s) g1 a b 1); auto.
      - intros i j N. assert (K : (i = a /\ j = b) \/ ~ (i = a /\ j = b)) by lia. destruct K as [[-> ->]|K]; [exact P1|apply P3; lia].
      - destruct H as [H|[H _]]; auto. }
    split; [exact M2|]. cbn [fst snd]. split.
    + apply (fills_at (fst s0) g1 g2 c b 1); auto. intros i j N. assert (K : (i = c /\ j = b) \/ ~ (i = c /\ j = b)) by lia. destruct K as [[-> ->]|K]; [exact Q1|apply Q3; lia].
    + right. split; [reflexivity|]. exists b, c. split; [exact Hb|]. split; [exact Hc|]. split; [exact E0|]. lia.
  - eauto 10.
Qed.

(** The invariant of the search back from a. *)
Definition dinv (a b : nat) (prev : prevmap) (V Q : list nat) : Prop :=
  NoDup V /\ (forall x, In x V -> (x < n)%nat) /\ incl Q V /\ In b V /\ ~ In b Q /\
  forall v, In v V -> exists l, chain prev b v l /\ incl l V /\ (length l < length V)%nat.
Lemma ddp_inner_spec fuel a b c t cpar sep s0 s : adv only_fills n s0 s -> (a < n)%nat -> (b < n)%nat -> (c < n)%nat -> (t < n)%nat ->
  a <> c -> gm (fst s) a b <> 0 -> gm (fst s) c b = 1 -> gm (fst s0) b c = 2 -> t <> b -> (n <= fuel)%nat ->
  forall ds, (forall d, In d ds -> (d < n)%nat) -> forall prev V Q, dinv a b prev V Q -> In t V ->
  exists x, foldO (ddp_inner ind forb fuel a b c t cpar sep) ds (inr (s, prev, V, Q)) = Ret x /\
    match x with
    | inl s' => adv only_fills n s0 s'
    | inr (s', prev', V', Q') => s' = s /\ dinv a b prev' V' Q' /\ (n - length V' + length Q' = n - length V + length Q)%nat
    end.
Proof.
  intros A1 Ha Hb Hc Ht Nac Eab Ecb E0 Ntb HF. induction ds as [|d ds IH]; intros HD prev V Q HI HtV; cbn [foldO]; [eexists; split; [reflexivity|]; cbn; auto|].
  assert (Hd : (d < n)%nat) by (apply HD; now left). specialize (IH (fun x Hx => HD x (or_intror Hx))).
  cbn [ddp_inner]. destruct (memb d V) eqn:EV; cbn [obind].
  { destruct (IH prev V Q HI HtV) as (x & E & H). eauto. }
  pose proof HI as (I1 & I2 & I3 & I4 & I5 & I6). assert (NdV : ~ In d V) by now apply memb_not_In.
  destruct (I6 t HtV) as (lt & Ct & It & Lt). inversion Ct as [E|v w l' E HC' E1 E2]; subst; [easy|]. rewrite E.
  set (prev' := pset prev d t).
  assert (Ndb : d <> b) by (intros ->; contradiction).
  assert (UPD : forall v l, In v V -> incl l V -> chain prev b v l -> chain prev' b v l).
  { intros v l Hv Hl Hch. apply chain_upd; [exact Hch| |exact Ndb|]; intros Q0; [subst; contradiction|apply NdV, Hl, Q0]. }
  assert (HId : dinv a b prev' V Q).
  { unfold dinv. do 5 (split; [assumption|]). intros v Hv. destruct (I6 v Hv) as (l & C & L1 & L2). exists l. auto. }
  assert (Cd : chain prev' b d (t :: w :: l')).
  { econstructor; [unfold prev', pset; now rewrite Nat.eqb_refl|]. now apply UPD. }
  pose proof (nodup_bound n V I1 I2) as BV.
  assert (HIm : dinv a b prev' (V ++ [d]) (Q ++ [d])).
  { unfold dinv. split; [apply Permutation_NoDup with (d :: V); [apply Permutation_cons_append|constructor; assumption]|].
    split; [intros x Hx; apply in_app_or in Hx; destruct Hx as [Hx|[<-|[]]]; auto|].
    split; [intros x Hx; apply in_app_or in Hx; apply in_or_app; destruct Hx as [Hx|Hx]; [left; auto|now right]|].
    split; [apply in_or_app; now left|]. split; [intros Q0; apply in_app_or in Q0; destruct Q0 as [Q0|[Q0|[]]]; [contradiction|congruence]|].
    intros v Hv. rewrite app_length. cbn [length]. apply in_app_or in Hv. destruct Hv as [Hv|[<-|[]]].
    - destruct (I6 v Hv) as (l & C & L1 & L2). exists l. split; [auto|]. split; [intros x Hx; apply in_or_app; left; auto|lia].
    - exists (t :: w :: l'). split; [exact Cd|]. split; [|cbn [length] in *; lia]. intros x Hx. apply in_or_app. left. destruct Hx as [<-|Hx]; auto. }
  destruct (negb (def_coll (fst s) d t w)); cbn [obind]; [destruct (IH prev' V Q HId HtV) as (x & E' & H'); eauto|].
  set (more := if memb d cpar then inr (s, prev', V ++ [d], Q ++ [d]) else inr (s, prev', V, Q)).
  assert (HMORE : exists x, foldO (ddp_inner ind forb fuel a b c t cpar sep) ds more = Ret x /\
    match x with
    | inl s' => adv only_fills n s0 s'
    | inr (s', prev', V', Q') => s' = s /\ dinv a b prev' V' Q' /\ (n - length V' + length Q' = n - length V + length Q)%nat
    end).
  { unfold more. destruct (memb d cpar); [|apply IH; auto].
    destruct (IH prev' (V ++ [d]) (Q ++ [d]) HIm) as (x & E' & H'); [apply in_or_app; now left|]. exists x. split; [exact E'|].
    destruct x as [s'|(((s', p'), V'), Q')]; [exact H'|]. destruct H' as (K1 & K2 & K3). do 2 (split; [assumption|]).
    pose proof HIm as (J1 & J2 & _). pose proof (nodup_bound n _ J1 J2). rewrite !app_length in *. cbn [length] in *. lia. }
  destruct (negb (is_adjacent_to (fst s) d c) && negb (Nat.eqb d c)) eqn:EG; [|cbn [obind]; exact HMORE].
  bools. apply (adj_no) in H. 
  destruct (ddp_orientation_spec fuel d a b c prev' sep s0 s (t :: w :: l') A1 Ha Hb Hc Hd H Nac Ndb Eab Ecb E0 Cd) as (r & s' & -> & A2 & RF).
  { cbn [length] in *. lia. }
  cbn [obind fst snd]. destruct r; cbn [obind].
  - assert (INL : forall l s1, foldO (ddp_inner ind forb fuel a b c t cpar sep) l (inl s1) = Ret (inl s1)) by (induction l as [|y l IHl]; intros; cbn; auto).
    rewrite INL. eauto.
  - rewrite (RF eq_refl). exact HMORE.
Qed.
Lemma ddp_loop_spec a b c cpar sep s0 s : adv only_fills n s0 s -> (a < n)%nat -> (b < n)%nat -> (c < n)%nat ->
  a <> c -> gm (fst s) a b <> 0 -> gm (fst s) c b = 1 -> gm (fst s0) b c = 2 ->
  forall fuel prev V Q, dinv a b prev V Q -> (n + (n - length V + length Q) < fuel)%nat ->
  exists s', ddp_loop ind forb fuel a b c cpar sep s prev V Q = Ret s' /\ adv only_fills n s0 s'.
Proof.
  intros A1 Ha Hb Hc Nac Eab Ecb E0. induction fuel as [|f IH]; intros prev V Q HI HF; [lia|]. destruct Q as [|t Q]; cbn [ddp_loop]; [eauto|].
  pose proof HI as (I1 & I2 & I3 & I4 & I5 & I6). assert (HtV : In t V) by (apply I3; now left). pose proof (I2 t HtV) as Ht.
  assert (HI' : dinv a b prev V Q). { unfold dinv. do 2 (split; [assumption|]). split; [intros x Hx; apply I3; now right|]. split; [assumption|]. split; [intros Q0; apply I5; now right|assumption]. }
  assert (Ntb : t <> b) by (intros ->; apply I5; now left). pose proof (adv_mixed _ _ _ _ A1) as HM.
  destruct (ddp_inner_spec (Datatypes.S f) a b c t cpar sep s0 s A1 Ha Hb Hc Ht Nac Eab Ecb E0 Ntb) with (ds := get_nodes_into (fst s) t ARROW) (prev := prev) (V := V) (Q := Q) as (x & -> & HX); auto.
  { lia. } { intros d Hd. apply (in_into n _ HM) in Hd; auto with fci. apply Hd. }
  cbn [obind]. destruct x as [s'|(((s', p'), V'), Q')]; [eauto|]. destruct HX as (-> & K2 & K3). apply IH; [exact K2|]. cbn [length] in HF. lia.
Qed.
Lemma ddp_orient_adv fuel mpl sep a b c s0 s : adv only_fills n s0 s -> (a < n)%nat -> (b < n)%nat -> (c < n)%nat ->
  a <> c -> gm (fst s) a b <> 0 -> gm (fst s) c b = 1 -> gm (fst s0) b c = 2 -> (2 * n < fuel)%nat ->
  exists s', ddp_orient ind forb fuel mpl sep a b c s = Ret s' /\ adv only_fills n s0 s'.
Proof.
  intros A1 Ha Hb Hc Nac Eab Ecb E0 HF. unfold ddp_orient. destruct (1 >? _); [eauto|]. assert (Nab : a <> b) by (eapply mx_neq; [eapply adv_mixed; eauto| |]; eauto).
  apply ddp_loop_spec; auto.
  - unfold dinv. split; [constructor; [intros [|[]]; congruence|constructor; [easy|constructor]]|].
    split; [intros x [<-|[<-|[]]]; assumption|]. split; [intros x [<-|[]]; now left|]. split; [right; now left|]. split; [intros [|[]]; congruence|].
    assert (Hbn : pset (fun _ => None) a b b = None) by (unfold pset; now rewrite (proj2 (Nat.eqb_neq b a)) by congruence).
    intros v [<-|[<-|[]]].
    + exists [b]. split; [econstructor; [unfold pset; now rewrite Nat.eqb_refl|now constructor]|]. split; [intros x [<-|[]]; right; now left|cbn; lia].
    + exists []. split; [now constructor|]. split; [easy|cbn; lia].
  - assert (2 <= n)%nat by lia. cbn [length]. lia.
Qed.
Lemma R4_adv fuel mpl sep s : (2 * n < fuel)%nat -> mixed n (fst s) -> exists s', ruleR4B ind forb fuel mpl sep s = Ret s' /\ adv only_fills n s s'.
Proof.
  intros HF HM. unfold ruleR4B. apply (foldO_adv1 _ po_fills); [exact HM|]. intros s0 b Hb HM0. rewrite (mx_n _ _ HM) in Hb. apply in_seq0 in Hb.
  unfold r4_node. cbn zeta. apply (foldO_adv _ po_fills); [exact HM0|]. intros s1 a Hain A1. apply (in_out n _ HM0) in Hain; auto with fci. destruct Hain as [Ha Ea]. cbn [ev] in Ea.
  match goal with |- exists s', foldO ?f ?l s1 = _ /\ _ => apply (foldO_inv f (fun s => adv only_fills n s0 s) l s1) end; [exact A1|].
  intros s2 c Hcin A2. apply (in_into n _ HM0) in Hcin; auto with fci. destruct Hcin as [Hc Ec]. cbn [ev] in Ec. pose proof (adv_mixed _ _ _ _ A2) as HM2.
  destruct (is_parent_of (fst s2) a c && epis (fst s2) b c ARROW) eqn:EG; [|eauto]. bools. apply (epis_iff n _ HM2) in H0; auto with fci. cbn [ev] in H0.
  assert (Nac : a <> c). { intros ->. unfold is_parent_of in H. rewrite (mx_diag n _ HM2 c Hc) in H. discriminate. }
  apply ddp_orient_adv; auto. destruct A2 as (_ & W & _). apply fills_weak in W. intros Q. destruct (W b a Hb Ha) as [W1 _]. unfold adj in W1. apply W1 in Q; [exact Q|lia].
Qed.
End R4.

Section Pass.
Variable ind : nat -> nat -> list nat -> bool.
Variable forb : nat -> nat -> bool.
Variable so : list nat -> list nat.
Hypothesis so_in : forall l x, In x (so l) <-> In x l.
Variable n : nat.
Lemma obind_adv2 {B} (R : nat -> ggraph -> ggraph -> Prop) s o (k : st -> outcome B) (P : B -> Prop) : preord R ->
  (exists s1, o = Ret s1 /\ adv R n s s1) -> (forall s1, adv R n s s1 -> exists s2, k s1 = Ret s2 /\ P s2) ->
  exists s2, obind o k = Ret s2 /\ P s2.
Proof. intros PO (s1 & -> & A1) HK. cbn. auto. Qed.
Lemma step_fills (f : st -> outcome st) (R : nat -> ggraph -> ggraph -> Prop) s s1 : (forall n g g', R n g g' -> only_fills n g g') ->
  (forall s, mixed n (fst s) -> exists s', f s = Ret s' /\ adv R n s s') -> adv only_fills n s s1 -> exists s', f s1 = Ret s' /\ adv only_fills n s s'.
Proof.
  intros HR Hf A1. destruct (Hf s1 (adv_mixed _ _ _ _ A1)) as (s' & E & A2). exists s'. split; [exact E|].
  eapply adv_trans; [apply po_fills|exact A1|]. eapply adv_weaken; [exact HR|exact A2].
Qed.
Lemma pass_adv fuel mpl kall ft sep g : (2 * n < fuel)%nat -> mixed n g ->
  exists s' ft', fci_pass ind forb so fuel mpl kall ft sep g = Ret (s', ft') /\ adv only_fills n (g, false) s'.
Proof.
  intros HF HM. assert (HF1 : (n < fuel)%nat) by lia.
  enough (H : exists r, fci_pass ind forb so fuel mpl kall ft sep g = Ret r /\ adv only_fills n (g, false) (fst r)).
  { destruct H as ((s', ft') & E & H). eauto. }
  unfold fci_pass.
  assert (FW : forall n g g', only_fills n g g' -> only_fills n g g') by auto.
  assert (TW : forall n g g', only_tails n g g' -> only_fills n g g') by (intros; now apply ntails_fills).
  assert (A0 : adv only_fills n (g, false) (g, false)) by (apply (adv_refl _ po_fills); exact HM).
  apply (obind_adv2 only_fills (g, false) _ _ _ po_fills); [apply (step_fills _ only_fills _ _ FW (R12_adv ind forb n) A0)|]. intros s1 A1.
  apply (obind_adv2 only_fills (g, false) _ _ _ po_fills); [apply (step_fills _ only_fills _ _ FW (R3_adv ind forb n sep) A1)|]. intros s2 A2. cbn zeta.
  apply (obind_adv2 only_fills (g, false) _ _ _ po_fills).
  { destruct (snd s2 || ft && kall); [|eauto]. apply (step_fills _ only_fills _ _ (fun _ _ _ H => H) (fun s => R4_adv ind forb n fuel mpl sep s HF) A2). }
  intros s3 A3.
  apply (obind_adv2 only_fills (g, false) _ _ _ po_fills); [apply (step_fills _ only_tails _ _ TW (fun s => R5_adv n fuel s HF1) A3)|]. intros s4 A4.
  apply (obind_adv2 only_fills (g, false) _ _ _ po_fills); [apply (step_fills _ only_tails _ _ TW (R6_adv n) A4)|]. intros s5 A5.
  apply (obind_adv2 only_fills (g, false) _ _ _ po_fills); [apply (step_fills _ only_tails _ _ TW (R7_adv n) A5)|]. intros s6 A6.
  apply (obind_adv2 only_fills (g, false) _ _ _ po_fills); [apply (step_fills _ only_tails _ _ TW (R8_adv ind forb n) A6)|]. intros s7 A7.
  apply (obind_adv2 only_fills (g, false) _ _ _ po_fills); [apply (step_fills _ only_tails _ _ TW (fun s => R9_adv ind forb so so_in n fuel s HF1) A7)|]. intros s8 A8.
  apply (obind_adv2 only_fills (g, false) _ _ _ po_fills); [apply (step_fills _ only_tails _ _ TW (fun s => R10_adv ind forb so so_in n fuel s HF1) A8)|]. intros s9 A9.
  eexists. split; [reflexivity|]. exact A9.
Qed.

(** The number of circles. *)
Definition ccount (g : ggraph) : nat := length (filter (fun rc => gm g (fst rc) (snd rc) =? 2) (cells n)).
Lemma ccount_lt g g' : no_new_circle n g g' -> gap n g g' -> (ccount g' < ccount g)%nat.
Proof.
  intros W (i & j & Hi & Hj & E & N). unfold ccount. apply filter_lt with (x := (i, j)).
  - intros (r, c) Hin H. apply in_cells in Hin. destruct Hin as [Hr Hc]. cbn [fst snd] in *. apply Z.eqb_eq in H. apply Z.eqb_eq. apply (proj2 (W c r Hc Hr)). exact H.
  - apply in_cells. auto.
  - cbn. now apply Z.eqb_neq.
  - cbn. now apply Z.eqb_eq.
Qed.
Lemma ccount_bound g : (ccount g <= n * n)%nat.
Proof. unfold ccount. etransitivity; [apply filter_len|]. now rewrite cells_length. Qed.
Lemma loop_adv mpl kall sep : forall fuel ft g, (2 * n + ccount g + 1 < fuel)%nat -> mixed n g ->
  exists g', fci_loop ind forb so fuel mpl kall ft sep g = Ret g' /\ mixed n g' /\ only_fills n g g' /\
    exists fuel' ft' ft'', (2 * n < fuel')%nat /\ fci_pass ind forb so fuel' mpl kall ft' sep g' = Ret ((g', false), ft'').
Proof.
  induction fuel as [|f IH]; intros ft g HF HM; [lia|]. cbn [fci_loop].
  destruct (pass_adv (Datatypes.S f) mpl kall ft sep g) as (s' & ft' & E & A); [lia|exact HM|]. rewrite E. cbn [obind fst snd].
  destruct A as (M' & W & D). destruct (snd s') eqn:ES.
  - assert (G : gap n g (fst s')). { destruct D as [->|[_ G]]; [discriminate|exact G]. }
    pose proof (ccount_lt g (fst s') (fills_weak _ _ _ W) G). destruct (IH ft' (fst s')) as (g' & E' & M2 & W2 & X); [lia|exact M'|].
    exists g'. split; [exact E'|]. split; [exact M2|]. split; [eapply fills_trans; eauto|exact X].
  - destruct D as [->|[D _]]; [|congruence]. cbn [fst]. exists g. split; [reflexivity|]. split; [exact HM|]. split; [now apply fills_refl|].
    exists (Datatypes.S f), ft, ft'. split; [lia|exact E].
Qed.
End Pass.
