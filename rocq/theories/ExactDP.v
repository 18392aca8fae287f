(** Dynamic programming over the order graph finds a cheapest path. *)
From Verif Require Import Base UtilsModel UtilsProofs SkelModel SkelProofs CacheModel CacheProofs FinderProps ExactModel ExactParents ExactOrder ExactAStar.
From Coq Require Import Permutation Sorted.
Local Open Scope Z_scope.

Section DP.
Variable d : nat.
Variable pgs : nat -> pgraph.
Let gb := gbest pgs.
Hypothesis mono : forall i T T' s, incl T T' -> best pgs i T = Some s -> exists s', best pgs i T' = Some s' /\ s' <= s.
Hypothesis above : forall i T s, best pgs i T = Some s -> gb i <= s.
Hypothesis first : forall i T, (i < d)%nat -> incl (gstruct pgs i) T -> best pgs i T = Some (gb i).
Variable use_ext : bool.
Notation compl := (compl d pgs).
Notation built := (built d pgs).

Definition step_edge (p : list nat) (v : nat) : oedge := mkOE p (uplus p v) (qparents (pgs v) p) (qscore (pgs v) p).
Definition cheap (p : list nat) (v : nat) : Prop := best pgs v p = Some (gb v).

Lemma oget_cons p s m U : oget ((p, s) :: m) U = if leqb U p then Some s else oget m U.
Proof. unfold oget. cbn [find fst]. destruct (leqb U p); reflexivity. Qed.

(** The items (subset, variable) of one level. *)
Definition item (k : nat) (sv : list nat * nat) : Prop :=
  exists p, uset d p /\ length p = k /\ (snd sv < d)%nat /\ ~ In (snd sv) p /\ fst sv = uplus p (snd sv).
Lemma item_parent p v : uset d p -> ~ In v p -> filter (fun x => negb (Nat.eqb x v)) (uplus p v) = p.
Proof.
  intros HU Hn. apply sorted_unique; [apply filter_sorted, sins_sorted, HU|apply HU|]. intros x. rewrite filter_In, in_uplus, negb_true_iff, Nat.eqb_neq.
  split; [tauto|]. intros H. split; [now right|]. intros ->. auto.
Qed.
Lemma combs_uset k U : In U (combs k (seq 0 d)) <-> uset d U /\ length U = k.
Proof.
  rewrite (sorted_combs k (seq 0 d) (seq_sorted d 0)). unfold uset, incl. split.
  - intros (H1 & H2 & H3). split; [split; [exact H1|]|exact H3]. intros v Hv. apply in_seq0. auto.
  - intros ((H1 & H2) & H3). split; [exact H1|]. split; [|exact H3]. intros v Hv. apply in_seq0. auto.
Qed.
Lemma items_spec k sv : In sv (flat_map (fun sub => map (fun v => (sub, v)) sub) (combs (S k) (seq 0 d))) <-> item k sv.
Proof.
  rewrite in_flat_map. split.
  - intros (sub & Hs & Hv). apply in_map_iff in Hv. destruct Hv as (v & <- & Hv). apply combs_uset in Hs. destruct Hs as [HU HL].
    set (p := filter (fun x => negb (Nat.eqb x v)) sub).
    assert (HP : uset d p). { split; [apply filter_sorted, HU|]. intros x Hx. apply filter_In in Hx. now apply HU. }
    assert (NV : ~ In v p). { intros J. apply filter_In in J. rewrite Nat.eqb_refl in J. destruct J; discriminate. }
    assert (EP : sub = uplus p v).
    { apply (uset_eq d); [exact HU|apply uset_uplus; [exact HP|now apply HU]|]. intros x. rewrite in_uplus. unfold p. rewrite filter_In, negb_true_iff, Nat.eqb_neq.
      split; [intros Hx; destruct (Nat.eq_dec x v); auto|]. intros [->|[Hx _]]; auto. }
    exists p. cbn [fst snd]. split; [exact HP|]. split; [rewrite EP, (uplus_length d) in HL by assumption; lia|]. split; [now apply HU|]. auto.
  - intros (p & HU & HL & Hv & Nv & E). exists (fst sv). split.
    + apply combs_uset. rewrite E. split; [now apply uset_uplus|]. rewrite (uplus_length d) by assumption. lia.
    + apply in_map_iff. exists (snd sv). split; [now destruct sv|]. rewrite E. apply in_uplus. now left.
Qed.

(** One level, before edges are removed. *)
Definition linked (E0 : list oedge) (k : nat) (E : list oedge) (oc : odict) : Prop :=
  (forall e, In e E -> In e E0 \/ exists p v, uset d p /\ length p = k /\ (v < d)%nat /\ ~ In v p /\ e = step_edge p v) /\
  (forall e, In e E0 -> In e E) /\
  (forall p s, oget oc p = Some s -> length p = k /\ exists v, (v < d)%nat /\ ~ In v p /\ s = uplus p v /\ In (step_edge p v) E /\ cheap p v).
Lemma level_steps E0 k l : (forall sv, In sv l -> item k sv) -> forall E oc, linked E0 k E oc ->
  let '(E', oc') := fold_left (dp_step pgs use_ext) l (E, oc) in
  linked E0 k E' oc' /\ (forall e, In e E -> In e E') /\ (forall p s, oget oc p = Some s -> oget oc' p = Some s) /\
  (forall p v, uset d p -> length p = k -> (v < d)%nat -> ~ In v p -> In (uplus p v, v) l -> oget oc' p <> None \/ In (step_edge p v) E').
Proof.
  induction l as [|[sub v] l IH]; intros Hl E oc HL; cbn [fold_left].
  - split; [exact HL|]. split; [auto|]. split; [auto|]. intros p v _ _ _ _ [].
  - destruct (Hl _ (or_introl eq_refl)) as (p & HU & HLp & Hv & Nv & Esub). cbn [fst snd] in *. subst sub.
    assert (HS : exists E1 oc1, dp_step pgs use_ext (E, oc) (uplus p v, v) = (E1, oc1) /\ linked E0 k E1 oc1 /\ (forall e, In e E -> In e E1) /\
              (forall q s, oget oc q = Some s -> oget oc1 q = Some s) /\ (oget oc1 p <> None \/ In (step_edge p v) E1)).
    { unfold dp_step. rewrite (item_parent p v HU Nv). fold (step_edge p v). destruct HL as (L1 & L2 & L3).
      assert (LA : forall oc1, (forall q s, oget oc1 q = Some s -> length q = k /\ exists v0, (v0 < d)%nat /\ ~ In v0 q /\ s = uplus q v0 /\ In (step_edge q v0) (step_edge p v :: E) /\ cheap q v0) ->
        linked E0 k (step_edge p v :: E) oc1).
      { intros oc1 H. split; [|split; [|exact H]].
        - intros e [<-|He]; [right; exists p, v; auto|]. auto.
        - intros e He. right. auto. }
      assert (L3' : forall q s, oget oc q = Some s -> length q = k /\ exists v0, (v0 < d)%nat /\ ~ In v0 q /\ s = uplus q v0 /\ In (step_edge q v0) (step_edge p v :: E) /\ cheap q v0).
      { intros q s Hq. destruct (L3 q s Hq) as (K0 & w & K1 & K2 & K3 & K4 & K5). split; [exact K0|]. exists w. split; [exact K1|]. split; [exact K2|]. split; [exact K3|]. split; [now right|exact K5]. }
      destruct use_ext.
      - destruct (oget oc p) as [c|] eqn:EO.
        + exists E, oc. split; [reflexivity|]. split; [split; [exact L1|split; [exact L2|exact L3]]|]. split; [auto|]. split; [auto|]. left. congruence.
        + destruct (subset (gstruct pgs v) p) eqn:ESu.
          * exists (step_edge p v :: E), ((p, uplus p v) :: oc). split; [reflexivity|]. split.
            -- apply LA. intros q s Hq. rewrite oget_cons in Hq. destruct (leqb q p) eqn:El.
               ++ apply leqb_spec in El. subst q. injection Hq as <-. split; [exact HLp|]. exists v. split; [exact Hv|]. split; [exact Nv|]. split; [reflexivity|]. split; [now left|].
                  apply first; [exact Hv|now apply subset_spec].
               ++ apply L3', Hq.
            -- split; [intros e He; now right|]. split; [|right; now left]. intros q s Hq. rewrite oget_cons. destruct (leqb q p) eqn:El; [apply leqb_spec in El; congruence|exact Hq].
          * exists (step_edge p v :: E), oc. split; [reflexivity|]. split; [now apply LA|]. split; [intros e He; now right|]. split; [auto|]. right. now left.
      - exists (step_edge p v :: E), oc. split; [reflexivity|]. split; [now apply LA|]. split; [intros e He; now right|]. split; [auto|]. right. now left. }
    destruct HS as (E1 & oc1 & ES & H1 & H2 & H3 & H4). rewrite ES. specialize (IH (fun sv Hsv => Hl sv (or_intror Hsv)) E1 oc1 H1).
    destruct (fold_left (dp_step pgs use_ext) l (E1, oc1)) as [E' oc'] eqn:EFL. destruct IH as (K1 & K2 & K3 & K4).
    split; [exact K1|]. split; [auto|]. split; [auto|]. intros q w HUq HLq Hw Nw [J|J]; [|now apply K4].
    injection J as J1 J2. subst w. assert (q = p). { rewrite <- (item_parent q v HUq Nw), <- (item_parent p v HU Nv), J1. reflexivity. } subst q.
    destruct H4 as [H4|H4]; [|right; auto]. left. destruct (oget oc1 p) as [c|] eqn:EO; [|congruence]. rewrite (K3 _ _ EO). discriminate.
Qed.

(** The finished order graph below level k: every edge is a step, and every smaller set has either all its steps or one cheap step. *)
Definition dp_inv (k : nat) (E : list oedge) : Prop :=
  (forall e, In e E -> exists p v, uset d p /\ (length p < k)%nat /\ (v < d)%nat /\ ~ In v p /\ e = step_edge p v) /\
  (forall p, uset d p -> (length p < k)%nat -> (length p < d)%nat ->
     (forall v, (v < d)%nat -> ~ In v p -> In (step_edge p v) E) \/ exists v, (v < d)%nat /\ ~ In v p /\ In (step_edge p v) E /\ cheap p v).
Lemma dp_level_inv k E : dp_inv k E -> dp_inv (S k) (dp_level d pgs use_ext E (S k)).
Proof.
  intros [D1 D2]. unfold dp_level.
  assert (H0 : linked E k E []) by (split; [auto|split; [auto|]]; discriminate).
  pose proof (level_steps E k (flat_map (fun sub => map (fun v => (sub, v)) sub) (combs (S k) (seq 0 d))) (fun sv => proj1 (items_spec k sv)) E [] H0) as H. clear H0.
  match goal with |- dp_inv _ (match ?x with _ => _ end) => destruct x as [E' oc] eqn:EF end.
  match type of H with match ?x with _ => _ end => replace x with (E', oc) in H by (symmetry; exact EF) end.
  destruct H as ((L1 & L2 & L3) & _ & _ & L4).
  split.
  - intros e He. apply filter_In in He. destruct He as [He _]. destruct (L1 e He) as [He'|(p & v & H1 & H2 & H3 & H4 & H5)].
    + destruct (D1 e He') as (p & v & H1 & H2 & H3 & H4 & H5). exists p, v. split; [exact H1|]. split; [lia|]. auto.
    + exists p, v. split; [exact H1|]. split; [lia|]. auto.
  - intros p HU HL HLd. destruct (Nat.eq_dec (length p) k) as [HK|HK].
    + destruct (oget oc p) as [s|] eqn:EO.
      * right. destruct (L3 p s EO) as (_ & v & H1 & H2 & H3 & H4 & H5). exists v. split; [exact H1|]. split; [exact H2|]. split; [|exact H5]. apply filter_In. split; [exact H4|].
        cbn [step_edge oe_from oe_to]. rewrite EO. apply leqb_spec. auto.
      * left. intros v Hv Nv. apply filter_In. cbn [step_edge oe_from oe_to]. rewrite EO. split; [|reflexivity].
        destruct (L4 p v HU HK Hv Nv) as [J|J]; [|congruence|exact J]. apply items_spec. exists p. cbn [fst snd]. auto.
    + assert (EO : oget oc p = None) by (destruct (oget oc p) as [s|] eqn:EO; [destruct (L3 p s EO); congruence|reflexivity]).
      assert (KE : forall v, In (step_edge p v) E -> In (step_edge p v) (filter (fun e => match oget oc (oe_from e) with None => true | Some c => leqb (oe_to e) c end) E')).
      { intros v Hv. apply filter_In. split; [now apply L2|]. cbn [step_edge oe_from]. now rewrite EO. }
      destruct (D2 p HU) as [J|(v & J1 & J2 & J3 & J4)]; [lia|exact HLd|left; auto|right; exists v; auto].
Qed.
Lemma dp_edges_inv : dp_inv d (dp_edges d pgs use_ext).
Proof.
  assert (H : forall n, dp_inv n (fold_left (dp_level d pgs use_ext) (seq 0 (S n)) [])).
  { induction n as [|n IH].
    - cbn [seq fold_left]. unfold dp_level. rewrite combs_0. cbn. split; [intros e []|]. intros p _ H. lia.
    - rewrite seq_S, fold_left_app. cbn [fold_left Nat.add]. now apply dp_level_inv. }
  apply H.
Qed.

(** Every completion is matched by a path in the pruned graph. *)
Lemma compl_path E : dp_inv d E -> forall m U c, (d - length U <= m)%nat -> uset d U -> compl U c ->
  exists p w, is_path E U p (seq 0 d) /\ weight p = Some w /\ w <= c.
Proof.
  intros [D1 D2]. assert (EQ : forall U, uset d U -> length U = d -> U = seq 0 d).
  { intros U HU HL. apply (uset_eq d); [exact HU|split; [apply seq_increasing|intros v Hv; now apply in_seq0]|]. intros v. rewrite in_seq0. split; [apply HU|now apply uset_full]. }
  induction m as [|m IH]; intros U c Hm HU Hc.
  - pose proof (uset_bound d U HU). exists [], 0. split; [apply EQ; [exact HU|lia]|]. split; [reflexivity|]. pose proof (compl_lower d pgs above U c Hc) as L.
    rewrite sum_out_full in L; [exact L|]. apply uset_full; [exact HU|lia].
  - pose proof (uset_bound d U HU) as HB. destruct (Nat.eq_dec (length U) d) as [HD|HD].
    + exists [], 0. split; [now apply EQ|]. split; [reflexivity|]. pose proof (compl_lower d pgs above U c Hc) as L. rewrite sum_out_full in L; [exact L|]. now apply uset_full.
    + assert (GO : forall v s c', (v < d)%nat -> ~ In v U -> In (step_edge U v) E -> best pgs v U = Some s -> compl (uplus U v) c' -> s + c' <= c ->
        exists p w, is_path E U p (seq 0 d) /\ weight p = Some w /\ w <= c).
      { intros v s c' Hv Nv HE Es Hc' L. destruct (IH (uplus U v) c') as (p & w & H1 & H2 & H3); [rewrite (uplus_length d) by assumption; lia|now apply uset_uplus|exact Hc'|].
        exists (step_edge U v :: p), (s + w). split; [cbn [is_path]; auto|]. split; [|lia]. cbn [weight fold_right step_edge oe_w]. fold (weight p). unfold best in Es. rewrite Es, H2. reflexivity. }
      destruct (D2 U HU) as [J|(v & J1 & J2 & J3 & J4)]; [lia|lia| |].
      * destruct (compl_not_full d pgs U c Hc) as (i & s & c' & Hi & Ni & Es & Hc' & ->).
        -- destruct (out_set d U) as [|v l] eqn:EO.
           ++ exfalso. apply HD. apply full_length; [exact HU|]. intros v Hv. destruct (in_dec Nat.eq_dec v U) as [J'|J']; [exact J'|].
              assert (K : In v (out_set d U)) by (apply in_out; auto). rewrite EO in K. destruct K.
           ++ exists v. apply in_out. rewrite EO. now left.
        -- apply (GO i s c'); auto. lia.
      * destruct (compl_exchange d pgs mono above U c Hc HU v J1 J2) as (c' & Hc' & L). apply (GO v (gb v) c'); auto.
Qed.

(** The structures read off a path form a built assignment. *)
Lemma new_var p v : uset d p -> ~ In v p -> find (fun x => negb (memb x p)) (uplus p v) = Some v.
Proof.
  intros HU Nv. destruct (find (fun x => negb (memb x p)) (uplus p v)) as [x|] eqn:E.
  - apply find_some in E. destruct E as [E1 E2]. apply in_uplus in E1. apply negb_true_iff, memb_not_In in E2. destruct E1 as [->|E1]; [reflexivity|contradiction].
  - exfalso. apply find_none with (x := v) in E; [|apply in_uplus; now left]. apply negb_false_iff, memb_In in E. auto.
Qed.
Lemma path_built E : dp_inv d E -> forall p U V st g, is_path E U p V -> built U st g ->
  built V (fold_left (fun st e => match find (fun x => negb (memb x (oe_from e))) (oe_to e) with Some i => set_nth st i (oe_st e) | None => st end) p st) (eadd (weight p) g).
Proof.
  intros [D1 _]. induction p as [|e p IH]; intros U V st g HP HB; cbn [is_path] in HP.
  - subst V. cbn. destruct g; exact HB.
  - destruct HP as (He & HF & HP). destruct (D1 e He) as (q & v & HU & HL & Hv & Nv & ->). cbn [step_edge oe_from oe_to oe_st oe_w] in *. subst q. cbn [fold_left].
    cbn [step_edge oe_from oe_to oe_st oe_w]. rewrite (new_var U v HU Nv). pose proof (IH _ _ _ _ HP (built_step d pgs U st g v HB Hv Nv)) as H. cbn [weight fold_right oe_w]. fold (weight p).
    rewrite eadd_assoc in H. rewrite (eadd_comm (weight p)) in H. exact H.
Qed.

Lemma dp_spec c0 p : compl [] c0 -> shortest (dp_edges d pgs use_ext) [] (seq 0 d) p ->
  exists a, built (seq 0 d) (dp_structures d p) (Some a) /\ (forall c, compl [] c -> a <= c).
Proof.
  intros Hc0 [HP HM]. pose proof dp_edges_inv as HI.
  assert (LE : forall c, compl [] c -> exists a, weight p = Some a /\ a <= c).
  { intros c Hc. destruct (compl_path _ HI d [] c) as (p' & w & H1 & H2 & H3); [cbn; lia|apply uset_nil|exact Hc|]. specialize (HM p' H1). rewrite H2 in HM.
    destruct (weight p) as [a|]; [|destruct HM]. exists a. split; [reflexivity|]. cbn in HM. lia. }
  destruct (LE c0 Hc0) as (a & Ea & _). exists a. split.
  - pose proof (path_built _ HI p [] (seq 0 d) (repeat None d) (Some 0) HP (built_nil d pgs _ (repeat_length _ _))) as H. rewrite Ea in H. cbn in H. rewrite Z.add_0_r in H. exact H.
  - intros c Hc. destruct (LE c Hc) as (a' & E' & L). congruence.
Qed.
(** The order graph always contains a path to the full set. *)
Lemma dp_path_exists c0 : compl [] c0 -> exists p, is_path (dp_edges d pgs use_ext) [] p (seq 0 d) /\ weight p <> None.
Proof. intros H. destruct (compl_path _ dp_edges_inv d [] c0) as (p & w & H1 & H2 & _); [cbn; lia|apply uset_nil|exact H|]. exists p. split; [exact H1|]. rewrite H2. discriminate. Qed.
End DP.
