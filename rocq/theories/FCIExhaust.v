(** FCI: more about a pass that reports no change: R5 on chordless cycles of four circle edges, and R10. *)
From Verif Require Import Base EdgeModel EdgeProofs GraphModel GraphSpec GraphProofs UtilsModel UtilsProofs SkelModel PCModel FCIModel FCISpec FCIProofs FCIRules FCILoops FCIFront FCIStill.
Local Open Scope Z_scope.

Ltac flagged H := apply changed_flag in H; discriminate.
Section Exhaust.
Variable (so : list nat -> list nat).
Hypothesis so_in : forall l x, In x (so l) <-> In x l.
Variables (n fuel : nat) (g : ggraph).
Hypothesis HM : mixed n g.
Hypothesis HF : (n < fuel)%nat.

(** The search for a circle path reaches a circle neighbour of its start directly. *)
Lemma cp_step_circ ex t path V Q u : circ n g t u -> ~ In u ex -> ~ In u V -> cp_step g ex t path (V, Q) u = Ret (V ++ [u], Q ++ [(u, path ++ [u])]).
Proof.
  intros (Ht & Hu & G1 & G2) NX NV. unfold cp_step. assert (N : gm g t u <> 0) by lia. destruct (mx_edge n g HM t u Ht Hu N) as (a & b & Ma & Mb & E1 & E2 & ->).
  assert (a = CIRCLE) as -> by (destruct Ma as [-> | [-> | ->]]; cbn [ev] in E1; try reflexivity; lia). assert (b = CIRCLE) as -> by (destruct Mb as [-> | [-> | ->]]; cbn [ev] in E2; try reflexivity; lia).
  unfold traverse_circle, Edge. cbn [pointing_left ep_eqb ev Z.eqb Pos.eqb andb orb e_node1 e_node2 e_end1 e_end2 fst snd]. rewrite Nat.eqb_refl.
  rewrite (proj2 (memb_not_In u ex) NX), (proj2 (memb_not_In u V) NV). reflexivity.
Qed.
Definition direct (from to : nat) (s : list nat * list (nat * list nat)) : Prop :=
  (forall q, In (to, q) (snd s) -> q = [from; to]) /\ (In to (fst s) -> In (to, [from; to]) (snd s)).
Lemma push_direct ex from to : (from < n)%nat -> circ n g from to -> ~ In to ex -> forall l s, (forall u, In u l -> (u < n)%nat /\ gm g from u <> 0) -> direct from to s -> In to (fst s) \/ In to l ->
  exists s', foldO (cp_step g ex from [from]) l s = Ret s' /\ direct from to s' /\ In to (fst s').
Proof.
  intros Hf HC NX. induction l as [|u l IH]; intros [V Q] HL [D1 D2] HI.
  - exists (V, Q). split; [reflexivity|]. split; [now split|]. destruct HI as [HI|[]]. exact HI.
  - cbn [foldO]. destruct (HL u (or_introl eq_refl)) as [Hu Nu]. destruct (cp_step_spec n g ex from [from] V Q u HM Hf Hu Nu) as (V' & Q' & E & D). 
    assert (K : direct from to (V', Q') /\ (In to V' \/ In to l)).
    { cbn [fst snd] in *. destruct D as [[-> ->]|(-> & -> & NV & _ & C)].
      - split; [now split|]. destruct HI as [HI|[-> | HI]]; [now left| | now right]. left. destruct (in_dec Nat.eq_dec to V) as [I|I]; [exact I|]. exfalso.
        rewrite (cp_step_circ ex from [from] V Q to HC NX I) in E. injection E as E _. apply (f_equal (@length nat)) in E. rewrite app_length in E. cbn in E. lia.
      - split; [|destruct HI as [HI|[-> | HI]]; [left; apply in_or_app; now left | left; apply in_or_app; right; now left | now right]]. unfold direct. cbn [fst snd]. split.
        + intros q Hq. apply in_app_or in Hq. destruct Hq as [Hq|[[= <- <-]|[]]]; [now apply D1 | reflexivity].
        + intros Hq. apply in_app_or in Hq. apply in_or_app. destruct Hq as [Hq|[-> | []]]; [left; now apply D2 | right; now left]. }
    rewrite E. cbn [obind]. destruct K as [K1 K2]. apply IH; [intros; apply HL; now right | exact K1 | exact K2].
Qed.
Lemma cp_step_known ex t path to V Q u V' Q' : In to V -> cp_step g ex t path (V, Q) u = Ret (V', Q') -> (t < n)%nat -> (u < n)%nat -> gm g t u <> 0 -> In to V' /\ forall q, In (to, q) Q' <-> In (to, q) Q.
Proof.
  intros HV E Ht Hu N. destruct (cp_step_spec n g ex t path V Q u HM Ht Hu N) as (V1 & Q1 & E1 & D). rewrite E in E1. injection E1 as -> ->.
  destruct D as [[-> ->]|(-> & -> & NV & _)]; [split; [exact HV | tauto]|]. split; [apply in_or_app; now left|]. intros q. rewrite in_app_iff. split; [|auto]. intros [H|[[= -> _]|[]]]; [exact H | contradiction].
Qed.
Lemma cp_push_known ex t path to : (t < n)%nat -> forall l V Q V' Q', (forall u, In u l -> (u < n)%nat /\ gm g t u <> 0) -> In to V -> foldO (cp_step g ex t path) l (V, Q) = Ret (V', Q') ->
  In to V' /\ forall q, In (to, q) Q' <-> In (to, q) Q.
Proof.
  intros Ht. induction l as [|u l IH]; intros V Q V' Q' HL HV E; cbn [foldO] in E; [injection E as <- <-; split; [exact HV | tauto]|].
  apply obind_ret in E. destruct E as ([V1 Q1] & E1 & E2). destruct (HL u (or_introl eq_refl)) as [Hu Nu]. destruct (cp_step_known ex t path to V Q u V1 Q1 HV E1 Ht Hu Nu) as [A B].
  destruct (IH V1 Q1 V' Q' (fun u H => HL u (or_intror H)) A E2) as [A2 B2]. split; [exact A2|]. intros q. now rewrite B2, B.
Qed.
Lemma loop_direct ex from to : forall f V Q o, In to V -> (forall t p, In (t, p) Q -> (t < n)%nat) -> (forall q, In (to, q) Q -> q = [from; to]) -> In (to, [from; to]) Q ->
  qok n g from V Q -> NoDup V -> (forall x, In x V -> (x < n)%nat) -> cp_loop f g to ex V Q = Ret o -> o = Some [from; to].
Proof.
  induction f as [|f IH]; intros V Q o HV HQ H1 H2 QO ND HB E; (destruct Q as [|[t p] Q]; [destruct H2|]); cbn [cp_loop] in E; [discriminate|].
  destruct (Nat.eqb_spec t to) as [-> | N].
  - rewrite (H1 p (or_introl eq_refl)) in E. cbn in E. now injection E as <-.
  - apply obind_ret in E. destruct E as ([V' Q'] & E1 & E2). cbn [fst snd] in E2.
    assert (Ht : (t < n)%nat) by (apply (HQ t p); now left).
    destruct (cp_push_spec n g ex from t p V Q HM Ht ND HB) as (V1 & Q1 & E3 & A1 & A2 & A3 & _); [intros v q Hv; apply QO; now right | intros u Hu; destruct (QO t p (or_introl eq_refl)) as [_ HP]; eapply cpath_snoc; eauto|].
    rewrite E1 in E3. injection E3 as <- <-.
    destruct (cp_push_known ex t p to Ht (get_adjacent_nodes g t) V Q V' Q') as [K1 K2]; [intros u Hu; apply (in_adjn n g HM) in Hu; [exact Hu|exact Ht] | exact HV | exact E1|].
    apply (IH V' Q' o K1); auto.
    + intros v q Hv. now destruct (A3 v q Hv).
    + intros q Hq. apply K2 in Hq. apply H1. now right.
    + apply K2. destruct H2 as [[= <- _]|H2]; [contradiction | exact H2].
Qed.
Lemma circle_path_direct ex from to : circ n g from to -> ~ In to ex -> uncovered_circle_path fuel g from to ex = Ret (Some [from; to]).
Proof.
  intros HC NX. assert (Hf : (from < n)%nat) by apply HC. destruct (circle_path_spec n fuel g from to ex HM Hf HF) as (o & E & _). rewrite E. unfold uncovered_circle_path in E.
  apply obind_ret in E. destruct E as ([V Q] & E1 & E2). cbn [fst snd] in E2. pose proof E1 as E1'. unfold cp_push in E1'.
  destruct (cp_push_spec n g ex from from [from] [] [] HM Hf (NoDup_nil _)) as (V' & Q' & E3 & A1 & A2 & A3 & _); [easy|easy|intros u Hu; now apply cpath_start|]. rewrite E1 in E3. injection E3 as <- <-.
  destruct (push_direct ex from to Hf HC NX (get_adjacent_nodes g from) ([], [])) as ([V' Q'] & E3 & [D1 D2] & I).
  { intros u Hu. apply (in_adjn n g HM) in Hu; [exact Hu|exact Hf]. } { split; cbn; easy. } { right. apply (in_adjn n g HM); [exact Hf|]. destruct HC as (_ & Ht & C1 & C2). split; [exact Ht|]. lia. }
  rewrite E1' in E3. injection E3 as <- <-. cbn [fst snd] in *. f_equal. apply (loop_direct ex from to fuel V Q o I); auto. intros v q Hv. now destruct (A3 v q Hv).
Qed.
Lemma R5_exh : ruleR5 fuel (g, false) = Ret (g, false) -> forall a b c d, a <> b -> circ n g a b -> circ n g a c -> circ n g c d -> circ n g d b -> c <> b -> d <> a -> ~ adj g a d -> ~ adj g b c -> False.
Proof.
  intros H a b c d Nab Cab Cac Ccd Cdb Ncb Nda NAd NBc. unfold ruleR5 in H. pose proof Cab as (Ha & Hb & G1 & G2). pose proof Cac as (_ & Hc & G3 & G4). pose proof Cdb as (Hd & _ & G5 & G6).
  pose proof (still_fold_each (fun s b => foldO (r5_step fuel b) (get_nodes_into (fst s) b CIRCLE) s) (seq 0 (gn (fst (g, false)))) g) as K.
  specialize (K (fun b _ => still_app (fun k => foldO (r5_step fuel b) k) (fun s => get_nodes_into (fst s) b CIRCLE) (fun k => still_fold _ k (fun a _ => r5_still fuel b a))) H b (bring n g HM b Hb)). cbn [fst] in K.
  assert (Ia : In a (get_nodes_into g b CIRCLE)) by (apply (in_into n g HM); [apply mkC | exact Hb | split; [exact Ha | exact G2]]).
  pose proof (still_fold_each _ _ g (fun a _ => r5_still fuel b a) K a Ia) as G. unfold r5_step in G. cbn [fst] in G. rewrite (ep_ok n g HM b a CIRCLE mkC Hb Ha G1) in G.
  assert (NE : forall x y, circ n g x y -> x <> y) by (intros x y (Hx & _ & X1 & _) ->; rewrite (mx_diag n g HM y Hx) in X1; discriminate).
  pose proof (NE _ _ Cac) as Nac. pose proof (NE _ _ Cdb) as Ndb.
  assert (Ic : In c (circle_nbrs g a a b)).
  { unfold circle_nbrs. apply filter_In. split; [apply (in_adjn n g HM); [exact Ha|]; split; [exact Hc|]; lia|].
    rewrite (ep_ok n g HM c a CIRCLE mkC Hc Ha G3), (ep_ok n g HM a c CIRCLE mkC Ha Hc G4), (proj2 (Nat.eqb_neq c a)), (proj2 (Nat.eqb_neq c b)) by auto. reflexivity. }
  assert (Id : In d (circle_nbrs g b a b)).
  { unfold circle_nbrs. apply filter_In. split; [apply (in_adjn n g HM); [exact Hb|]; split; [exact Hd|]; lia|].
    rewrite (ep_ok n g HM d b CIRCLE mkC Hd Hb G6), (ep_ok n g HM b d CIRCLE mkC Hb Hd G5), (proj2 (Nat.eqb_neq d a)), (proj2 (Nat.eqb_neq d b)) by auto. reflexivity. }
  match type of G with foldO _ ?l _ = _ => assert (I : In (c, d) l) end.
  { apply in_flat_map. exists c. split; [exact Ic|]. rewrite (nadj g b c NBc). apply in_flat_map. exists d. split; [exact Id|]. rewrite (nadj g a d NAd). now left. }
  assert (ST : forall cd, still (fun s => r5_pair fuel a b s cd)).
  { intros cd s s' E. unfold r5_pair in E. apply obind_ret in E. destruct E as (o & _ & E). destruct o as [p|]; [right; eapply changed_flag; exact E | injection E as <-; now left]. }
  pose proof (still_fold_each _ _ g (fun cd _ => ST cd) G (c, d) I) as G7. unfold r5_pair in G7. cbn [fst snd] in G7.
  rewrite (circle_path_direct [a; b] c d Ccd) in G7 by (cbn; intros [E|[E|[]]]; congruence). cbn [obind] in G7. flagged G7.
Qed.
(** R10, for two children that both have paths to both parents of c (the order of the pairs does not matter then) *)
Lemma R10_exh : rule10 so fuel (g, false) = Ret (g, false) -> forall a b c d u v, (a < n)%nat -> (b < n)%nat -> (c < n)%nat -> (d < n)%nat -> (u < n)%nat -> (v < n)%nat ->
  arrow_at g a c -> circle_at g c a -> points g b c -> points g d c -> b <> d -> u <> v -> u <> c -> v <> c ->
  adj g a u -> ~ arrow_at g u a -> adj g a v -> ~ arrow_at g v a -> ~ adj g u v ->
  reach1 (semi_step n g) u b -> reach1 (semi_step n g) v d -> reach1 (semi_step n g) u d -> reach1 (semi_step n g) v b -> False.
Proof.
  intros H a b c d u v Ha Hb Hc Hd Hu Hv A C (T1 & P1) (T2 & P2) Nbd Nuv Nuc Nvc Ju NAu Jv NAv NA Rub Rvd Rud Rvb. unfold rule10 in H.
  assert (SC : forall a c ch bd, still (fun s => r10_choice fuel a c ch s bd)).
  { intros a0 c0 ch [b0 d0] s s' E. unfold r10_choice in E. destruct (_ && _); [revert E; apply r10_pairs_still | injection E as <-; now left]. }
  assert (SS : forall c arr a, still (fun s => r10_step so fuel c arr s a)).
  { intros c0 arr a0 s s' E. unfold r10_step in E. cbn zeta in E. destruct (Nat.ltb _ 2); [injection E as <-; now left|]. revert E. apply still_fold. intros bd _. apply SC. }
  assert (SN : forall c, still (fun s => r10_node so fuel s c)).
  { intros c0 s s' E. unfold r10_node in E. cbn zeta in E. destruct (Nat.ltb _ 2); [injection E as <-; now left|]. revert E. apply still_fold. intros a0 _. apply SS. }
  pose proof (still_fold_each _ _ g (fun c _ => SN c) H c (bring n g HM c Hc)) as K. unfold r10_node in K. cbn zeta in K. cbn [fst] in K.
  assert (Ib : In b (get_nodes_into g c ARROW)) by (apply (in_into n g HM); auto; apply mkA).
  assert (Id : In d (get_nodes_into g c ARROW)) by (apply (in_into n g HM); auto; apply mkA).
  assert (LEN : forall (l : list nat) x y, In x l -> In y l -> x <> y -> Nat.ltb (length l) 2 = false).
  { intros l x y Hx Hy Nxy. apply Nat.ltb_ge. destruct l as [|z [|w l]]; [destruct Hx | | cbn; lia]. destruct Hx as [<-|[]], Hy as [<-|[]]. contradiction. }
  rewrite (LEN _ b d Ib Id Nbd) in K.
  assert (Ia : In a (filter (fun a => epis g c a CIRCLE) (get_nodes_into g c ARROW))).
  { apply filter_In. split; [apply (in_into n g HM); auto; apply mkA | now apply (ep_ok n g HM c a CIRCLE mkC)]. }
  pose proof (still_fold_each _ _ g (fun a _ => SS c (get_nodes_into g c ARROW) a) K a Ia) as G. unfold r10_step in G. cbn zeta in G. cbn [fst] in G.
  set (ch := possible_children so g a (filter (fun u => negb (Nat.eqb u c)) (get_adjacent_nodes g a))) in *.
  assert (CH : forall w, (w < n)%nat -> w <> c -> adj g a w -> ~ arrow_at g w a -> In w ch).
  { intros w Hw Nwc Jw NAw. unfold ch, possible_children. apply so_in. apply filter_In. assert (Naw : a <> w) by (intros ->; apply Jw; now apply (mx_diag n g HM)). split.
    - apply filter_In. split; [apply (in_adjn n g HM); auto; split; [exact Hw|]; now apply (adj_sym n g HM)|]. apply negb_true_iff, Nat.eqb_neq; auto.
    - unfold is_possible_parent. rewrite (proj2 (Nat.eqb_neq a w) Naw), (yadj g a w Jw). cbn [negb]. apply negb_true_iff. apply (epis_no n g HM); auto. apply mkA. }
  pose proof (CH u Hu Nuc Ju NAu) as Iu. pose proof (CH v Hv Nvc Jv NAv) as Iv. rewrite (LEN _ u v Iu Iv Nuv) in G.
  assert (NA' : ~ adj g v u) by (intros J; apply NA; now apply (adj_sym n g HM)).
  assert (PP : forall x y b d, (x < n)%nat -> (y < n)%nat -> ~ adj g x y -> reach1 (semi_step n g) x b -> reach1 (semi_step n g) y d -> forall ps, In (x, y) ps -> r10_pairs fuel a b c d ps (g, false) = Ret (g, false) -> False).
  { intros x y b0 d0 Hx Hy Nxy R1 R2. induction ps as [|[x0 y0] ps IH]; intros I E; [destruct I|]. cbn [r10_pairs fst] in E. destruct I as [[= -> ->]|I].
    - destruct (exists_semi_spec (fun _ _ _ => false) (fun _ _ => false) n fuel g x b0 HM Hx HF) as (p1 & E1 & V1). rewrite E1 in E. cbn [obind] in E. rewrite (proj2 V1 R1) in E. cbn [negb] in E.
      destruct (exists_semi_spec (fun _ _ _ => false) (fun _ _ => false) n fuel g y d0 HM Hy HF) as (p2 & E2 & V2). rewrite E2 in E. cbn [obind] in E. rewrite (proj2 V2 R2) in E. cbn [negb] in E.
      rewrite (nadj g x y Nxy) in E. cbn [negb] in E. flagged E.
    - destruct (exists_semi fuel g x0 b0) as [p1| |]; cbn [obind] in E; try discriminate. destruct p1; cbn [negb] in E; [|auto].
      destruct (exists_semi fuel g y0 d0) as [p2| |]; cbn [obind] in E; try discriminate. destruct p2; cbn [negb] in E; [|auto].
      destruct (is_adjacent_to g x0 y0); cbn [negb] in E; [auto | flagged E]. }
  assert (QQ : forall b d, (b < n)%nat -> (d < n)%nat -> tail_at g c b -> tail_at g c d -> reach1 (semi_step n g) u b -> reach1 (semi_step n g) v d -> reach1 (semi_step n g) u d -> reach1 (semi_step n g) v b ->
    In (b, d) (upairs (get_nodes_into g c ARROW)) -> False).
  { intros b0 d0 Hb0 Hd0 T01 T02 R1 R2 R3 R4 I. pose proof (still_fold_each _ _ g (fun bd _ => SC a c ch bd) G (b0, d0) I) as G2. unfold r10_choice in G2. cbn [fst] in G2.
    rewrite (ep_ok n g HM c b0 TAIL mkT Hc Hb0 T01), (ep_ok n g HM c d0 TAIL mkT Hc Hd0 T02) in G2. cbn [andb] in G2.
    destruct (upairs_complete ch u v Iu Iv Nuv) as [P|P]; [exact (PP u v b0 d0 Hu Hv NA R1 R2 _ P G2) | exact (PP v u b0 d0 Hv Hu NA' R4 R3 _ P G2)]. }
  destruct (upairs_complete _ b d Ib Id Nbd) as [P|P]; [exact (QQ b d Hb Hd T1 T2 Rub Rvd Rud Rvb P) | exact (QQ d b Hd Hb T2 T1 Rud Rvb Rub Rvd P)].
Qed.
End Exhaust.
