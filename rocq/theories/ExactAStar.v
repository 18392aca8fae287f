(** A star finds a cheapest path and stops. *)
From Verif Require Import Base UtilsModel UtilsProofs SkelModel SkelProofs CacheModel CacheProofs ExactModel ExactParents ExactOrder.
From Coq Require Import Permutation Sorted.
Local Open Scope Z_scope.

Lemma ele_refl a : ele a a.
Proof. destruct a; cbn; [lia|exact I]. Qed.
Lemma ele_trans a b c : ele a b -> ele b c -> ele a c.
Proof. destruct a, b, c; cbn; try tauto; lia. Qed.
Lemma eltb_false a b : eltb a b = false -> ele b a.
Proof. destruct a, b; cbn; try tauto; try discriminate. rewrite Z.ltb_ge. auto. Qed.
Lemma eltb_true a b : eltb a b = true -> ele a b /\ ~ ele b a.
Proof. destruct a, b; cbn; try tauto; try discriminate. rewrite Z.ltb_lt. lia. Qed.
Lemma ele_cancel a b x : ele (eadd a (Some x)) (eadd b (Some x)) -> ele a b.
Proof. destruct a, b; cbn; try tauto. lia. Qed.
Lemma ele_eadd a b x : ele a b -> ele (eadd a (Some x)) (eadd b (Some x)).
Proof. destruct a, b; cbn; try tauto. lia. Qed.
Lemma eadd_comm a b : eadd a b = eadd b a.
Proof. destruct a, b; cbn; auto. f_equal. lia. Qed.
Lemma eadd_assoc a b c : eadd a (eadd b c) = eadd (eadd a b) c.
Proof. destruct a, b, c; cbn; auto. f_equal. lia. Qed.
Lemma eeqb_spec a b : eeqb a b = true -> a = b.
Proof. destruct a, b; cbn; try discriminate; auto. rewrite Z.eqb_eq. congruence. Qed.
Lemma sput_same m U v : sput m U v U = v.
Proof. unfold sput. now rewrite (proj2 (leqb_spec U U) eq_refl). Qed.
Lemma sput_other m U v W : W <> U -> sput m U v W = m W.
Proof. intros N. unfold sput. destruct (leqb W U) eqn:E; [apply leqb_spec in E; congruence|reflexivity]. Qed.

(** All subsets of a list. *)
Fixpoint subs (l : list nat) : list (list nat) := match l with [] => [[]] | a :: r => map (cons a) (subs r) ++ subs r end.
Lemma subs_length l : length (subs l) = (2 ^ length l)%nat.
Proof. induction l as [|a l IH]; [reflexivity|]. cbn [subs length]. rewrite app_length, map_length, IH. cbn. lia. Qed.
Lemma subs_in l : StronglySorted lt l -> forall T, StronglySorted lt T -> incl T l -> In T (subs l).
Proof.
  induction 1 as [|a l Hl IH Ha]; intros T HT HI.
  - destruct T as [|t T]; [now left|]. destruct (HI t). now left.
  - cbn [subs]. apply in_app_iff. rewrite Forall_forall in Ha. destruct HT as [|t T HT Ft]; [right; apply IH; [constructor|intros x []]|].
    rewrite Forall_forall in Ft. destruct (Nat.eq_dec t a) as [->|N].
    + left. apply in_map, IH; [exact HT|]. intros x Hx. destruct (HI x) as [->|J]; [now right| |exact J]. specialize (Ft x Hx). lia.
    + right. assert (Jt : In t l) by (destruct (HI t) as [->|J]; [now left|congruence|exact J]). apply IH; [constructor; [exact HT|now apply Forall_forall]|].
      intros x [<-|Hx]; [exact Jt|]. destruct (HI x) as [->|J]; [now right| |exact J]. specialize (Ha t Jt). specialize (Ft x Hx). lia.
Qed.

Section AStar.
Variable d : nat.
Variable pgs : nat -> pgraph.
Let gb := gbest pgs.
Hypothesis mono : forall i T T' s, incl T T' -> best pgs i T = Some s -> exists s', best pgs i T' = Some s' /\ s' <= s.
Hypothesis above : forall i T s, best pgs i T = Some s -> gb i <= s.
Variable use_ext : bool.
Variable pick : nat -> list qentry -> nat.
(** heapq: an entry of least weight. *)
Hypothesis pick_least : forall k l, l <> [] -> exists e, nth_error l (pick k l) = Some e /\ forall x, In x l -> ele (q_f e) (q_f x).
Let h := simple_h d pgs.
Let hf := fun U => Some (h U).
Notation compl := (compl d pgs).
Notation built := (built d pgs).

Lemma path_ext_spec fuel : forall U st g U' st' g', path_extension d pgs fuel U st g = (U', st', g') -> built U st g ->
  built U' st' g' /\ incl U U' /\ (length U <= length U')%nat /\ eadd g (Some (h U)) = eadd g' (Some (h U')) /\
  (forall a c, g = Some a -> compl U c -> exists a' c', g' = Some a' /\ compl U' c' /\ a' + c' <= a + c).
Proof.
  induction fuel as [|fuel IH]; intros U st g U' st' g' E HB; cbn [path_extension] in E.
  - injection E as <- <- <-. split; [exact HB|]. split; [apply incl_refl|]. split; [lia|]. split; [reflexivity|]. intros a c E Hc. exists a, c. repeat split; auto. lia.
  - destruct (find _ (out_set d U)) as [i|] eqn:EF.
    + apply find_some in EF. destruct EF as [Hi EF]. apply in_out in Hi. destruct Hi as [Hi Ni]. apply eeqb_spec in EF.
      pose proof (built_uset _ _ _ _ _ HB) as HU.
      assert (HB' : built (uplus U i) (set_nth st i (qparents (pgs i) U)) (eadd g (Some (gb i)))).
      { rewrite eadd_comm. pose proof (built_step d pgs U st g i HB Hi Ni) as H. unfold best, qpar in H. rewrite EF in H. exact H. }
      destruct (IH _ _ _ _ _ _ E HB') as (H1 & H2 & H3 & H4 & H5). split; [exact H1|]. split; [intros v Hv; apply H2, in_uplus; now right|].
      split; [rewrite (uplus_length d) in H3 by assumption; lia|]. split.
      * rewrite <- H4. unfold h. rewrite !simple_h_sum, (sum_out_step d (gbest pgs) U i Hi Ni). fold gb. destruct g; cbn; [f_equal; lia|reflexivity].
      * intros a c -> Hc. destruct (compl_exchange d pgs mono above U c Hc HU i Hi Ni) as (c1 & Hc1 & L1). destruct (H5 (a + gb i) c1) as (a' & c' & K1 & K2 & K3); [reflexivity|exact Hc1|].
        exists a', c'. split; [exact K1|]. split; [exact K2|]. fold gb in L1. lia.
    + injection E as <- <- <-. split; [exact HB|]. split; [apply incl_refl|]. split; [lia|]. split; [reflexivity|]. intros a c E Hc. exists a, c. repeat split; auto. lia.
Qed.
(** path_extension stops only when no further variable can be added. *)
Lemma path_ext_exhausted fuel : forall U st g, uset d U -> (d - length U <= fuel)%nat ->
  let U' := fst (fst (path_extension d pgs fuel U st g)) in forall i, In i (out_set d U') -> qscore (pgs i) U' <> Some (gb i).
Proof.
  induction fuel as [|fuel IH]; intros U st g HU HL; cbn [path_extension].
  - cbn. intros i Hi. apply in_out in Hi. destruct Hi as [Hi Ni]. exfalso. apply Ni. apply (uset_full d U HU); [|exact Hi]. pose proof (uset_bound d U HU). lia.
  - destruct (find _ (out_set d U)) as [i|] eqn:EF.
    + apply find_some in EF. destruct EF as [Hi _]. apply in_out in Hi. destruct Hi as [Hi Ni]. apply IH; [now apply uset_uplus|]. rewrite (uplus_length d) by assumption. lia.
    + cbn. intros i Hi E. apply (find_none _ _ EF) in Hi. rewrite E in Hi. cbn in Hi. fold gb in Hi. rewrite Z.eqb_refl in Hi. discriminate.
Qed.

Definition present (s : astate) (U : list nat) : Prop := In U (a_closed s) \/ exists e, In e (a_open s) /\ q_U e = U.
Definition good (s : astate) (U : list nat) (i : nat) : Prop :=
  forall a sc c, a_score s U = Some a -> best pgs i U = Some sc -> compl (uplus U i) c ->
  exists U' a' c', present s U' /\ (length U < length U')%nat /\ a_score s U' = Some a' /\ compl U' c' /\ a' + c' <= a + sc + c.
Record ainv (F : ext) (s : astate) : Prop := {
  ai_open : forall e, In e (a_open s) -> built (q_U e) (q_st e) (a_score s (q_U e)) /\ q_f e = eadd (a_score s (q_U e)) (hf (q_U e));
  ai_nodup : NoDup (map q_U (a_open s));
  ai_disj : forall e, In e (a_open s) -> ~ In (q_U e) (a_closed s);
  ai_closed : forall U, In U (a_closed s) -> uset d U /\ ele (eadd (a_score s U) (hf U)) F;
  ai_cnodup : NoDup (a_closed s);
  ai_ok : a_ok s = true;
  ai_F : forall e, In e (a_open s) -> ele F (q_f e) }.

Lemma opened_has_spec s U : opened_has s U = true <-> exists e, In e (a_open s) /\ q_U e = U.
Proof. unfold opened_has, has_key. rewrite existsb_exists. split; intros (e & H & E); exists e; (split; [exact H|]); [apply leqb_spec in E; auto|apply leqb_spec; auto]. Qed.

Lemma expand_spec U st s i : let F := eadd (a_score s U) (hf U) in ainv F s -> In U (a_closed s) -> built U st (a_score s U) -> (i < d)%nat -> ~ In i U ->
  let s' := expand_one d pgs use_ext hf U st s i in
  ainv F s' /\ a_closed s' = a_closed s /\ (forall W, In W (a_closed s) -> a_score s' W = a_score s W) /\
  (forall W, present s W -> present s' W /\ ele (a_score s' W) (a_score s W)) /\ good s' U i.
Proof.
  intros F HI HC HB Hi Ni. cbn zeta. unfold expand_one.
  set (g := eadd (qscore (pgs i) U) (a_score s U)).
  assert (HX : exists U' st' g', (if use_ext then path_extension d pgs d (uplus U i) (set_nth st i (qparents (pgs i) U)) g else (uplus U i, set_nth st i (qparents (pgs i) U), g)) = (U', st', g') /\
    built U' st' g' /\ (length U < length U')%nat /\ ele F (eadd g' (hf U')) /\
    (forall a sc c, a_score s U = Some a -> best pgs i U = Some sc -> compl (uplus U i) c -> exists a' c', g' = Some a' /\ compl U' c' /\ a' + c' <= a + sc + c)).
  { pose proof (built_uset _ _ _ _ _ HB) as HU.
    pose proof (built_step d pgs U st (a_score s U) i HB Hi Ni) as HB1. unfold best, qpar in HB1. fold g in HB1.
    assert (HF : ele F (eadd g (hf (uplus U i)))).
    { unfold F, g, hf, h. rewrite !simple_h_sum, (sum_out_step d (gbest pgs) U i Hi Ni). destruct (a_score s U) as [a|]; [|destruct (qscore (pgs i) U); exact I].
      destruct (qscore (pgs i) U) as [sc|] eqn:ES; [|exact I]. pose proof (above i U sc ES) as A. unfold gb in A. cbn. lia. }
    assert (HA : forall a sc c, a_score s U = Some a -> best pgs i U = Some sc -> compl (uplus U i) c -> g = Some (sc + a)).
    { intros a sc c E1 E2 _. unfold g. unfold best in E2. rewrite E1, E2. reflexivity. }
    destruct use_ext.
    - destruct (path_extension d pgs d (uplus U i) (set_nth st i (qparents (pgs i) U)) g) as [[U' st'] g'] eqn:EP.
      destruct (path_ext_spec _ _ _ _ _ _ _ EP HB1) as (H1 & H2 & H3 & H4 & H5). exists U', st', g'. split; [reflexivity|]. split; [exact H1|].
      split; [rewrite (uplus_length d) in H3 by assumption; lia|]. split; [unfold hf in *; rewrite <- H4; exact HF|].
      intros a sc c E1 E2 Hc. destruct (H5 (sc + a) c) as (a' & c' & K1 & K2 & K3); [now apply (HA a sc c)|exact Hc|]. exists a', c'. split; [exact K1|]. split; [exact K2|]. lia.
    - exists (uplus U i), (set_nth st i (qparents (pgs i) U)), g. split; [reflexivity|]. split; [exact HB1|]. split; [rewrite (uplus_length d) by assumption; lia|]. split; [exact HF|].
      intros a sc c E1 E2 Hc. exists (sc + a), c. split; [now apply (HA a sc c)|]. split; [exact Hc|]. lia. }
  destruct HX as (U' & st' & g' & -> & HB' & HL & HF' & HG). clear g.
  assert (NU : U' <> U) by (intros ->; lia).
  destruct HI as [I1 I2 I3 I4 I5 IK I6].
  destruct (lmem U' (a_closed s)) eqn:EC.
  - apply lmem_In in EC.
    assert (LE : ele (a_score s U') g').
    { destruct (I4 U' EC) as [_ L]. apply (ele_cancel _ _ (h U')). eapply ele_trans; [exact L|]. exact HF'. }
    destruct (eltb g' (a_score s U')) eqn:ET; [apply eltb_true in ET; tauto|].
    split; [constructor; assumption|]. split; [reflexivity|]. split; [reflexivity|]. split; [intros W HW; split; [exact HW|apply ele_refl]|].
    intros a sc c E1 E2 Hc. destruct (HG a sc c E1 E2 Hc) as (a' & c' & K1 & K2 & K3). rewrite K1 in LE. destruct (a_score s U') as [a2|] eqn:E3; [|destruct LE]. cbn in LE.
    exists U', a2, c'. split; [now left|]. split; [exact HL|]. split; [exact E3|]. split; [exact K2|]. lia.
  - assert (NC : ~ In U' (a_closed s)) by (intros J; apply lmem_In in J; congruence).
    assert (STEP : forall op, (forall e, In e op -> In e (a_open s) /\ q_U e <> U') -> NoDup (map q_U op) -> (forall e, In e (a_open s) -> q_U e <> U' -> In e op) ->
      (present s U' -> ele g' (a_score s U')) ->
      let s' := mkA (mkQ U' st' (eadd g' (hf U')) :: op) (a_closed s) (sput (a_score s) U' g') (a_ok s && negb (has_key op U')) in
      ainv F s' /\ a_closed s' = a_closed s /\ (forall W, In W (a_closed s) -> a_score s' W = a_score s W) /\
      (forall W, present s W -> present s' W /\ ele (a_score s' W) (a_score s W)) /\ good s' U i).
    { intros op Hop Hnd Hop' Hle. cbn zeta.
      assert (SC : forall W, In W (a_closed s) -> sput (a_score s) U' g' W = a_score s W) by (intros W HW; apply sput_other; intros ->; auto).
      split; [constructor; cbn [a_open a_closed a_score a_ok]|split; [reflexivity|split; [exact SC|split]]].
      - intros e [<-|He]; cbn [q_U q_st q_f]; [rewrite sput_same; auto|]. destruct (Hop e He) as [H1 H2]. rewrite sput_other by exact H2. auto.
      - cbn [map q_U]. constructor; [|exact Hnd]. rewrite in_map_iff. intros (e & E & He). destruct (Hop e He). auto.
      - intros e [<-|He]; cbn [q_U]; [exact NC|]. apply I3. now apply Hop.
      - intros W HW. rewrite SC by exact HW. auto.
      - exact I5.
      - rewrite IK. cbn [andb]. apply negb_true_iff. unfold has_key. apply not_true_iff_false. rewrite existsb_exists. intros (e & He & E). apply leqb_spec in E. destruct (Hop e He). auto.
      - intros e [<-|He]; cbn [q_f]; [exact HF'|]. apply I6. now apply Hop.
      - intros W HW. destruct (list_eq_dec Nat.eq_dec W U') as [->|N].
        + split; [right; eexists; split; [now left|reflexivity]|]. cbn [a_score]. rewrite sput_same. auto.
        + cbn [a_score]. rewrite sput_other by exact N. split; [|apply ele_refl]. destruct HW as [HW|(e & He & E)]; [now left|]. right. exists e. split; [|exact E]. right. apply Hop'; [exact He|congruence].
      - intros a sc c E1 E2 Hc. cbn [a_score] in E1. rewrite sput_other in E1 by congruence. destruct (HG a sc c E1 E2 Hc) as (a' & c' & K1 & K2 & K3).
        exists U', a', c'. split; [right; eexists; split; [now left|reflexivity]|]. split; [exact HL|]. cbn [a_score]. rewrite sput_same. auto. }
    destruct (opened_has s U') eqn:EO.
    + destruct (eltb g' (a_score s U')) eqn:ET.
      * apply STEP.
        -- intros e He. apply filter_In in He. destruct He as [He E]. split; [exact He|]. intros <-. rewrite (proj2 (leqb_spec (q_U e) (q_U e)) eq_refl) in E. discriminate.
        -- clear - I2. induction (a_open s) as [|x l IH]; [constructor|]. cbn [map filter] in *. inversion_clear I2 as [|? ? N ND]. destruct (negb _); [|auto]. cbn [map].
           constructor; [|auto]. intros J. apply N. apply in_map_iff in J. destruct J as (y & E & Hy). apply in_map_iff. exists y. split; [exact E|]. apply filter_In in Hy. tauto.
        -- intros e He N. apply filter_In. split; [exact He|]. destruct (leqb U' (q_U e)) eqn:E; [apply leqb_spec in E; congruence|reflexivity].
        -- intros _. apply eltb_true in ET. tauto.
      * apply eltb_false in ET. split; [constructor; assumption|]. split; [reflexivity|]. split; [reflexivity|]. split; [intros W HW; split; [exact HW|apply ele_refl]|].
        intros a sc c E1 E2 Hc. destruct (HG a sc c E1 E2 Hc) as (a' & c' & K1 & K2 & K3). rewrite K1 in ET. destruct (a_score s U') as [a2|] eqn:E3; [|destruct ET]. cbn in ET.
        exists U', a2, c'. split; [right; now apply opened_has_spec|]. split; [exact HL|]. split; [exact E3|]. split; [exact K2|]. lia.
    + assert (NO : forall e, In e (a_open s) -> q_U e <> U').
      { intros e He E. assert (opened_has s U' = true) by (apply opened_has_spec; eauto). congruence. }
      apply STEP; [intros e He; auto|exact I2|auto|]. intros [J|(e & He & E)]; [contradiction|]. destruct (NO e He E).
Qed.

Lemma good_keep s s' U i : (forall W, present s W -> present s' W /\ ele (a_score s' W) (a_score s W)) -> a_score s' U = a_score s U -> good s U i -> good s' U i.
Proof.
  intros H E G a sc c E1 E2 Hc. rewrite E in E1. destruct (G a sc c E1 E2 Hc) as (U' & a' & c' & K1 & K2 & K3 & K4 & K5).
  destruct (H U' K1) as [P L]. rewrite K3 in L. destruct (a_score s' U') as [a2|] eqn:E3; [|destruct L]. cbn in L. exists U', a2, c'.
  split; [exact P|]. split; [exact K2|]. split; [exact E3|]. split; [exact K4|]. lia.
Qed.
Lemma expand_all U st l : forall s, let F := eadd (a_score s U) (hf U) in ainv F s -> In U (a_closed s) -> built U st (a_score s U) -> (forall i, In i l -> (i < d)%nat /\ ~ In i U) ->
  let s' := fold_left (expand_one d pgs use_ext hf U st) l s in
  ainv F s' /\ a_closed s' = a_closed s /\ (forall W, In W (a_closed s) -> a_score s' W = a_score s W) /\
  (forall W, present s W -> present s' W /\ ele (a_score s' W) (a_score s W)) /\ (forall i, In i l -> good s' U i).
Proof.
  induction l as [|i l IH]; intros s F HI HC HB Hl; cbn [fold_left].
  - cbn zeta. split; [exact HI|]. split; [reflexivity|]. split; [reflexivity|]. split; [intros W HW; split; [exact HW|apply ele_refl]|intros i []].
  - destruct (Hl i (or_introl eq_refl)) as [Hi Ni]. destruct (expand_spec U st s i HI HC HB Hi Ni) as (H1 & H2 & H3 & H4 & H5).
    set (s1 := expand_one d pgs use_ext hf U st s i) in *. pose proof (H3 U HC) as E1.
    specialize (IH s1). cbn zeta in IH. rewrite E1, H2 in IH. destruct IH as (K1 & K2 & K3 & K4 & K5); [exact H1|exact HC|exact HB|intros j Hj; apply Hl; now right|].
    cbn zeta. split; [exact K1|]. split; [exact K2|]. split; [intros W HW; rewrite K3 by exact HW; auto|]. split.
    + intros W HW. destruct (H4 W HW) as [P L]. destruct (K4 W P) as [P' L']. split; [exact P'|]. eapply ele_trans; eauto.
    + intros j [<-|Hj]; [|auto]. apply (good_keep s1); [exact K4|now apply K3|exact H5].
Qed.

(** The loop invariant. *)
Definition linv (F : ext) (s : astate) : Prop :=
  ainv F s /\ (forall U, In U (a_closed s) -> (length U < d)%nat /\ forall i, (i < d)%nat -> ~ In i U -> good s U i) /\
  present s [] /\ a_score s [] = Some 0.

Lemma open_witness F s c0 : linv F s -> compl [] c0 -> exists e a c, In e (a_open s) /\ a_score s (q_U e) = Some a /\ compl (q_U e) c /\ a + c <= c0.
Proof.
  intros (HI & HG & HP & HZ) Hc0.
  assert (G : forall m U a c, (d - length U <= m)%nat -> present s U -> a_score s U = Some a -> compl U c -> a + c <= c0 ->
    exists e a c, In e (a_open s) /\ a_score s (q_U e) = Some a /\ compl (q_U e) c /\ a + c <= c0).
  { induction m as [|m IH]; intros U a c Hm HU Ha Hc L.
    - destruct HU as [HU|(e & He & E)]; [destruct (HG U HU); lia|]. subst. exists e, a, c. auto.
    - destruct HU as [HU|(e & He & E)]; [|subst; exists e, a, c; auto]. destruct (HG U HU) as [HL HGU]. destruct (ai_closed _ _ HI U HU) as [HS _].
      destruct (compl_not_full d pgs U c Hc) as (i & sc & c' & Hi & Ni & Es & Hc' & ->).
      + destruct (out_set d U) as [|v l] eqn:EO.
        * exfalso. pose proof (full_length d U HS). rewrite H in HL; [lia|]. intros v Hv. destruct (in_dec Nat.eq_dec v U) as [J|J]; [exact J|].
          assert (K : In v (out_set d U)) by (apply in_out; auto). rewrite EO in K. destruct K.
        * exists v. apply in_out. rewrite EO. now left.
      + destruct (HGU i Hi Ni a sc c' Ha Es Hc') as (U' & a2 & c2 & P & LL & E2 & C2 & L2). apply (IH U' a2 c2); auto; lia. }
  apply (G d [] 0 c0); auto; [cbn; lia|lia].
Qed.

Lemma nth_split_rest {A} (l : list A) k e : nth_error l k = Some e -> Permutation l (e :: firstn k l ++ skipn (S k) l).
Proof.
  intros H. apply nth_error_split in H. destruct H as (l1 & l2 & -> & <-). rewrite firstn_app, firstn_all, Nat.sub_diag. cbn [firstn]. rewrite app_nil_r.
  rewrite skipn_app. rewrite skipn_all2 by lia. replace (S (length l1) - length l1)%nat with 1%nat by lia. cbn [skipn app]. apply Permutation_sym, Permutation_middle.
Qed.

Lemma astar_loop_spec c0 : compl [] c0 -> forall fuel last F s, linv F s -> (2 ^ d - length (a_closed s) < fuel)%nat ->
  exists st U a, astar_loop d pgs use_ext hf pick fuel last s = Some st /\ built U st (Some a) /\ length U = d /\ (forall c, compl [] c -> a <= c).
Proof.
  intros Hc0. induction fuel as [|fuel IH]; intros last F s HL Hfuel; [lia|]. cbn [astar_loop].
  replace (negb (a_ok s)) with false by (rewrite (ai_ok _ _ (proj1 HL)); reflexivity).
  destruct (open_witness F s c0 HL Hc0) as (e0 & _ & _ & He0 & _).
  assert (NE : a_open s <> []) by (intros E; rewrite E in He0; destruct He0). clear He0.
  destruct (pick_least fuel (a_open s) NE) as (e & Ee & Hmin).
  destruct (a_open s) as [|x op] eqn:EO; [congruence|]. rewrite <- EO in *. clear EO. clear x op NE. rewrite Ee.
  pose proof (nth_split_rest _ _ _ Ee) as Perm. set (rest := firstn _ _ ++ skipn _ _) in *.
  destruct HL as (HI & HG & HP & HZ). pose proof HI as [I1 I2 I3 I4 I5 IK I6].
  assert (He : In e (a_open s)) by (apply (Permutation_in _ (Permutation_sym Perm)); now left).
  assert (Hrest : forall x, In x rest -> In x (a_open s)) by (intros x Hx; apply (Permutation_in _ (Permutation_sym Perm)); now right).
  assert (Hor : forall x, In x (a_open s) -> x = e \/ In x rest) by (intros x Hx; apply (Permutation_in _ Perm) in Hx; destruct Hx; auto).
  assert (HND : NoDup (map q_U (e :: rest))) by (eapply Permutation_NoDup; [apply Permutation_map, Perm|exact I2]). cbn [map] in HND. inversion_clear HND as [|? ? N ND].
  pose proof (I3 e He) as NC. destruct (I1 e He) as [HB Ef]. pose proof (built_uset _ _ _ _ _ HB) as HU.
  destruct (lmem (q_U e) (a_closed s)) eqn:EM; [apply lmem_In in EM; contradiction|]. clear EM.
  destruct (Nat.eqb_spec (length (q_U e)) d) as [ED|ED].
  - assert (Hh : h (q_U e) = 0) by (unfold h; rewrite simple_h_sum; apply sum_out_full; now apply uset_full).
    destruct (open_witness F s c0 (conj HI (conj HG (conj HP HZ))) Hc0) as (e1 & a1 & c1 & H1 & H2 & H3 & H4).
    pose proof (Hmin e1 H1) as LM. destruct (I1 e1 H1) as [_ Ef1]. rewrite Ef, Ef1 in LM. unfold hf in LM. rewrite H2, Hh in LM.
    destruct (a_score s (q_U e)) as [a|] eqn:EA; [|destruct LM]. exists (q_st e), (q_U e), a. split; [reflexivity|]. split; [exact HB|]. split; [exact ED|].
    intros c Hc. destruct (open_witness F s c (conj HI (conj HG (conj HP HZ))) Hc) as (e2 & a2 & c2 & K1 & K2 & K3 & K4).
    pose proof (Hmin e2 K1) as LM2. destruct (I1 e2 K1) as [_ Ef2]. rewrite Ef, Ef2 in LM2. unfold hf in LM2. rewrite K2, Hh in LM2. cbn in LM2.
    pose proof (compl_lower d pgs above _ _ K3) as LL. unfold h in LM2. rewrite simple_h_sum in LM2. lia.
  - set (s1 := mkA rest (q_U e :: a_closed s) (a_score s) (a_ok s)).
    assert (HI1 : ainv (eadd (a_score s1 (q_U e)) (hf (q_U e))) s1).
    { cbn [s1 a_score]. rewrite <- Ef. constructor; cbn [s1 a_open a_closed a_score a_ok].
      - intros x Hx. auto.
      - exact ND.
      - intros x Hx [E|J]; [apply N; rewrite E; now apply in_map|]. apply (I3 x); auto.
      - intros U [<-|HW]; [split; [exact HU|rewrite Ef; apply ele_refl]|]. destruct (I4 U HW) as [K1 K2]. split; [exact K1|]. eapply ele_trans; [exact K2|]. now apply I6.
      - constructor; assumption.
      - exact IK.
      - intros x Hx. apply Hmin. auto. }
    destruct (expand_all (q_U e) (q_st e) (out_set d (q_U e)) s1) as (J1 & J2 & J3 & J4 & J5); [exact HI1|now left|exact HB|intros i Hi; now apply in_out|].
    set (s2 := fold_left _ _ s1) in *.
    assert (PR : forall W, present s W -> present s1 W).
    { intros W [HW|(x & Hx & E)]; [left; now right|]. destruct (Hor x Hx) as [->|Hx']; [left; now left|]. right. exists x. auto. }
    assert (HL2 : linv (eadd (a_score s1 (q_U e)) (hf (q_U e))) s2).
    { split; [exact J1|]. split; [|split].
      - rewrite J2. intros U [<-|HW].
        + pose proof (uset_bound d _ HU). split; [lia|]. intros i Hi Ni. apply J5, in_out. auto.
        + destruct (HG U HW) as [K1 K2]. split; [exact K1|]. intros i Hi Ni. apply (good_keep s).
          * intros W HP'. destruct (J4 W (PR W HP')) as [P L]. split; [exact P|exact L].
          * rewrite J3; [reflexivity|now right].
          * auto.
      - apply (J4 [] (PR [] HP)).
      - destruct HP as [HP|(x & Hx & E)].
        + rewrite J3 by now right. exact HZ.
        + assert (HP1 : In [] (a_closed s1) \/ ~ In [] (a_closed s1)) by (destruct (in_dec (list_eq_dec Nat.eq_dec) [] (a_closed s1)); auto).
          destruct HP1 as [HP1|HP1]; [rewrite J3 by exact HP1; exact HZ|].
          destruct (J4 [] (PR [] (or_intror (ex_intro _ x (conj Hx E))))) as [P2 L2]. cbn [s1 a_score] in L2. rewrite HZ in L2.
          destruct P2 as [P2|(y & Hy & E2)]; [rewrite J2 in P2; contradiction|]. destruct (ai_open _ _ J1 y Hy) as [B2 _]. rewrite E2 in B2.
          inversion B2 as [? HLn Heq1 Heq2|U2 st2 g2 i2 B3 Hi2 Ni2 Heq1 Heq2]; [reflexivity|]. exfalso.
          assert (K : In i2 (uplus U2 i2)) by (apply in_uplus; now left). rewrite Heq1 in K. destruct K. }
    apply (IH (q_st e) _ s2 HL2). rewrite J2. cbn [s1 a_closed length].
    assert (BD : (length (q_U e :: a_closed s) <= 2 ^ d)%nat).
    { replace (2 ^ d)%nat with (length (subs (seq 0 d))) by (rewrite subs_length, seq_length; reflexivity). apply NoDup_incl_length; [constructor; assumption|]. intros W HW. apply subs_in; [apply seq_increasing| |].
      - destruct HW as [<-|HW]; [apply HU|apply (I4 W HW)].
      - intros v Hv. apply in_seq0. destruct HW as [<-|HW]; [now apply HU|now apply (I4 W HW)]. }
    cbn [length] in BD. lia.
Qed.

Lemma astar_spec c0 fuel : compl [] c0 -> (2 ^ d < fuel)%nat ->
  exists st U a, astar d pgs use_ext hf pick fuel = Some st /\ built U st (Some a) /\ length U = d /\ (forall c, compl [] c -> a <= c).
Proof.
  intros Hc0 Hf. unfold astar. refine (astar_loop_spec c0 Hc0 fuel [] (Some (h [])) (astar_init d pgs) _ _).
  - assert (E0 : out_set d [] = seq 0 d) by (unfold out_set; clear; induction (seq 0 d); cbn; [reflexivity|f_equal; exact IHl]).
    split; [constructor|split; [|split]]; unfold astar_init; cbn [a_open a_closed a_score a_ok].
    + intros e [<-|[]]. cbn [q_U q_st q_f leqb]. split; [constructor; apply repeat_length|]. unfold hf, h, simple_h. rewrite E0. cbn. f_equal.
    + repeat constructor. intros [].
    + intros e _ [].
    + intros U [].
    + constructor.
    + reflexivity.
    + intros e [<-|[]]. cbn [q_f]. unfold h, simple_h. rewrite E0. cbn. lia.
    + intros U [].
    + right. eexists. split; [now left|reflexivity].
    + reflexivity.
  - cbn [astar_init a_closed length]. lia.
Qed.
End AStar.
