(** C20, C21, C22, C48, C49: Meek orientation and orientation by background knowledge. *)
From Verif Require Import Base EdgeModel EdgeProofs GraphModel GraphSpec GraphProofs DpathProofs DsepSpec DsepProofs
  NamedModel KnowledgeModel KnowledgeProps MeekModel MeekSpec MeekProofs CheckLib.
Local Open Scope Z_scope.

(* ---------- C20 ---------- *)
(** meek returns (with any fuel above the number of node pairs, i.e. the loop terminates), and the result differs from
    the input only in that some undirected edges have become directed. *)
Theorem C20_meek_conservative : forall rx nm K g fuel, wf g -> (gn g * gn g < fuel)%nat ->
  exists g', meek fuel rx nm K g = Some g' /\ wf g' /\ only_orients g g'.
Proof.
  intros rx nm K g fuel Hw Hf. unfold meek, meek_with.
  destruct (loop_total (bk_block rx nm K) g fuel g Hw (orients_refl g)) as [g' E].
  { pose proof (ucount_bound g). lia. }
  exists g'. split; [exact E|].
  destruct (loop_inv (bk_block rx nm K) g (fun _ => True) fuel g g') as (H1 & H2 & _); auto.
  apply orients_refl.
Qed.

(** In the words of the property: same adjacencies, directed edges kept, nothing but undirected edges changed. *)
Theorem C20_meek_edges : forall rx nm K g fuel g', wf g -> meek fuel rx nm K g = Some g' ->
  gn g' = gn g /\
  (forall a b, joined g' a b <-> joined g a b) /\
  (forall a b, directed g a b -> directed g' a b) /\
  (forall a b, (a < gn g)%nat -> (b < gn g)%nat -> ~ undirected g a b -> gm g' a b = gm g a b) /\
  (forall a b, directed g' a b -> directed g a b \/ undirected g a b).
Proof.
  intros rx nm K g fuel g' Hw E. unfold meek, meek_with in E.
  destruct (loop_inv (bk_block rx nm K) g (fun _ => True) fuel g g') as (Hw' & Ho & _ & _); auto using orients_refl.
  destruct Ho as [Hn Ho]. split; [exact Hn|]. split; [|split; [|split]].
  - intros a b. unfold joined. rewrite Hn. split; intros (Ha & Hb & J); (split; [exact Ha|]; split; [exact Hb|]);
    destruct (Ho a b Ha Hb) as [[K1 K2]|[(_ & _ & K1 & K2) [(_ & _ & K3 & K4)|(_ & _ & K3 & K4)]]]; lia.
  - intros a b (Ha & Hb & E1 & E2). destruct (Ho a b Ha Hb) as [[K1 K2]|[(_ & _ & K1 & K2) _]]; [|lia].
    unfold directed. rewrite Hn, K1, K2. auto.
  - intros a b Ha Hb N. destruct (Ho a b Ha Hb) as [[K1 _]|[K1 _]]; [exact K1|contradiction].
  - intros a b (Ha & Hb & E1 & E2). rewrite Hn in Ha, Hb. destruct (Ho a b Ha Hb) as [[K1 K2]|[K1 _]]; [|auto].
    left. unfold directed. rewrite <- K1, <- K2. auto.
Qed.

(* ---------- C21 ---------- *)
(** Every edge directed in the result is directed that way in every consistent extension of the input; hence every
    consistent extension of the input is one of the result. *)
Theorem C21_meek_sound : forall rx nm K g fuel g' D, wf g -> meek fuel rx nm K g = Some g' -> extension g D ->
  (forall a b, directed g' a b -> directed D a b) /\ extension g' D.
Proof.
  intros rx nm K g fuel g' D Hw E HX. unfold meek, meek_with in E.
  destruct (loop_inv (bk_block rx nm K) g (fun h => forall a b, directed h a b -> directed D a b) fuel g g')
    as (Hw' & Ho & HD & _); auto using orients_refl.
  - intros h a b Hwh Hoh HDh Hu Hc _ _ x y Hxy. apply dirg_directed in Hxy; auto.
    destruct Hxy as [[-> ->]|Hxy]; [|auto]. apply (calls_sound g h D a b); auto.
  - destruct HX as (_ & _ & _ & HXd & _). exact HXd.
  - split; [exact HD|]. destruct HX as (Hn & Hdag & Hj & Hd & Hu).
    pose proof (C20_meek_edges rx nm K g fuel g' Hw E) as (En & Ej & _ & Es & _).
    split; [congruence|]. split; [exact Hdag|]. split; [intros a b; now rewrite Hj, Ej|]. split; [exact HD|].
    intros a b c Hc. apply Hu in Hc. destruct Hc as (Ha & Hb & Hc & Hne & E1 & E2 & E3 & E4 & E5).
    unfold ucollider. rewrite En.
    assert (F : forall x y, (x < gn g)%nat -> (y < gn g)%nat -> gm g x y <> -1 \/ gm g y x <> -1 -> gm g' x y = gm g x y).
    { intros x y Hx Hy N. apply Es; auto. unfold undirected. tauto. }
    rewrite !(F b a), !(F b c), (F a b), (F c b), (F a c) by (auto; lia). tauto.
Qed.

(* ---------- C22 ---------- *)
(** An undirected edge that meek turned into a --> b is not forbidden, and b --> a is not required. *)
Theorem C22_meek_respects_knowledge : forall rx nm K g fuel g' a b, wf g -> meek fuel rx nm (Some K) g = Some g' ->
  undirected g a b -> directed g' a b ->
  is_forbidden rx K (nm a) (nm b) = false /\ is_required rx K (nm b) (nm a) = false.
Proof.
  intros rx nm K g fuel g' a b Hw E Hu Hd. unfold meek, meek_with in E.
  destruct (loop_inv (bk_block rx nm (Some K)) g
     (fun h => forall a b, undirected g a b -> directed h a b -> bk_block rx nm (Some K) a b = false) fuel g g')
    as (Hw' & Ho & HD & _); auto using orients_refl.
  - intros h x y Hwh Hoh HP Hu' _ Hb _ u v Huv Hd'. apply dirg_directed in Hd'; auto.
    destruct Hd' as [[-> ->]|Hd']; auto.
  - intros x y (_ & _ & _ & H1) (_ & _ & _ & H2). lia.
  - specialize (HD a b Hu Hd). cbn in HD. now apply orb_false_iff in HD.
Qed.

(* ---------- C48 ---------- *)
Lemma exit_blocked blk g fuel g' a b : wf g -> meek_with blk fuel g = Some g' -> calls_for g' a b ->
  blk a b = true \/ is_ancestor_of g' b a = true.
Proof.
  intros Hw E Hc. unfold meek_with in E.
  destruct (loop_inv blk g (fun _ => True) fuel g g') as (Hw' & Ho & _ & HR); auto using orients_refl.
  apply round_quiet in HR. destruct HR as (_ & R1 & R2 & R3).
  pose proof (proj1 Ho) as Hn.
  assert (Hz : forall x y, (x < gn g)%nat -> (y < gn g)%nat -> gm g' x y = 0 -> gm g x y = 0).
  { intros x y Hx Hy Z0. destruct (proj2 Ho x y Hx Hy) as [[<- _]|[_ [(_ & _ & K & _)|(_ & _ & _ & K)]]]; lia. }
  assert (Ad : forall x y, directed g' x y -> In (x, y) (find_adj g)).
  { intros x y (Hx & Hy & E1 & E2). rewrite Hn in Hx, Hy. apply in_adj. split; [exact Hx|]. split; [exact Hy|].
    destruct (proj2 Ho x y Hx Hy) as [[_ <-]|[(_ & _ & _ & K) _]]; auto. }
  assert (Au : forall x y, undirected g' x y -> In (x, y) (find_adj g)).
  { intros x y Hxy. apply (orients_undirected _ _ _ _ Ho) in Hxy. destruct Hxy as (Hx & Hy & E1 & E2).
    apply in_adj. auto. }
  destruct Hc as [i a b Hia Hab Hib Hne | a j b Haj Hjb Hab | a j k b Haj Hak Hjb Hkb Hab Hne Hjk].
  - assert (T : rule1 blk (g', false) (i, a, b) = (g', false)).
    { apply R1, in_ut. split; [now apply Ad|]. split; [now apply Au|]. split; [exact Hne|].
      apply Hz; auto; [destruct Hia|destruct Hab]; lia. }
    cbn in T. pose proof Hia as Hia'. pose proof Hab as Hab'.
    apply is_directed_iff in Hia'; try apply Hia. apply is_undirected_iff in Hab'; try apply Hab.
    rewrite Hia', Hab' in T. cbn in T. eapply orient_blocked; eauto.
  - assert (T : rule2 blk (g', false) (a, j, b) = (g', false)).
    { apply R2, in_tri. split; [now apply Ad|]. split; [now apply Ad|]. split; [|now apply Au].
      eapply undirected_neq; eauto. }
    cbn in T. pose proof Haj as Haj'. pose proof Hjb as Hjb'. pose proof Hab as Hab'.
    apply is_directed_iff in Haj'; try apply Haj. apply is_directed_iff in Hjb'; try apply Hjb.
    apply is_undirected_iff in Hab'; try apply Hab.
    rewrite Haj', Hjb', Hab' in T. cbn in T. eapply orient_blocked; eauto.
  - assert (W : forall j k, undirected g' a j -> undirected g' a k -> directed g' j b -> directed g' k b ->
       (j < k)%nat -> gm g' j k = 0 -> rule3 blk (g', false) (a, j, k, b) = (g', false)).
    { clear j k Haj Hak Hjb Hkb Hne Hjk. intros j k Haj Hak Hjb Hkb Hlt Hjk. apply R3, in_kite. rewrite !in_tri.
      assert (a <> b) by (eapply undirected_neq; eauto).
      split; [|split; [|split; [exact Hlt|]]].
      - split; [now apply Au|]. split; [now apply Ad|]. split; [assumption|now apply Au].
      - split; [now apply Au|]. split; [now apply Ad|]. split; [assumption|now apply Au].
      - apply Hz; auto; [destruct Hjb|destruct Hkb]; lia. }
    assert (T : orient blk (g', false) a b = (g', false)).
    { assert (Hkj : gm g' k j = 0).
      { destruct Hw' as [_ Hl]. specialize (Hl j k). rewrite Hjk in Hl.
        assert (L : legal_pair 0 (gm g' k j)) by (apply Hl; [apply Hjb|apply Hkb]).
        clear -L. unfold legal_pair, legal_pairs in L. cbn in L. intuition congruence. }
      assert (Hlt : (j < k \/ k < j)%nat) by lia.
      destruct Hlt as [Hlt|Hlt];
      [specialize (W j k Haj Hak Hjb Hkb Hlt Hjk)|specialize (W k j Hak Haj Hkb Hjb Hlt Hkj)]; cbn in W;
      pose proof Haj as Haj'; pose proof Hak as Hak'; pose proof Hjb as Hjb'; pose proof Hkb as Hkb'; pose proof Hab as Hab';
      apply is_undirected_iff in Haj'; try apply Haj; apply is_undirected_iff in Hak'; try apply Hak;
      apply is_directed_iff in Hjb'; try apply Hjb; apply is_directed_iff in Hkb'; try apply Hkb;
      apply is_undirected_iff in Hab'; try apply Hab;
      rewrite Haj', Hak', Hjb', Hkb', Hab' in W; cbn in W; exact W. }
    eapply orient_blocked; eauto.
Qed.

(** When meek returns, an orientation still called for by one of its three rules is withheld only because the knowledge
    rules it out or because the graph reports it would close a directed cycle. *)
Theorem C48_meek_exhausts_rules : forall rx nm K g fuel g' a b, wf g -> meek fuel rx nm K g = Some g' ->
  calls_for g' a b -> bk_block rx nm K a b = true \/ is_ancestor_of g' b a = true.
Proof. intros. eapply exit_blocked; eauto. Qed.

Lemma meek_closed rx nm g fuel g' D : wf g -> simple g -> gsound g -> meek fuel rx nm None g = Some g' -> extension g D ->
  forall a b, ~ calls_for g' a b.
Proof.
  intros Hw Hs Hg E HX a b Hc.
  pose proof E as E0. unfold meek, meek_with in E0.
  destruct (loop_inv (bk_block rx nm None) g (fun h => gsound h) fuel g g') as (Hw' & Ho & HG & _); auto using orients_refl.
  { intros. now apply dirg_gsound. }
  destruct (C48_meek_exhausts_rules rx nm None g fuel g' a b Hw E Hc) as [|Hanc]; [discriminate|].
  pose proof (C21_meek_sound rx nm None g fuel g' D Hw E HX) as [HD HX'].
  assert (Hdag : dag D) by apply HX.
  assert (Hab : directed D a b) by (eapply calls_sound with (g := g'); eauto using orients_refl).
  assert (Hba : reach (dedge D) b a).
  { unfold is_ancestor_of in Hanc. apply Z.eqb_eq in Hanc. apply HG in Hanc. eapply reach_mono; [|exact Hanc].
    intros x y (Hx & Hy & HE). apply dag_dedge; [exact Hdag|]. apply HD. split; [exact Hx|]. split; [exact Hy|].
    destruct HE as [HE|HE]; [exact HE|]. exfalso.
    assert (Hx0 := Hx). assert (Hy0 := Hy). rewrite (proj1 Ho) in Hx0, Hy0.
    destruct (proj2 Ho x y Hx0 Hy0) as [[K1 K2]|[_ [(_ & _ & K1 & K2)|(_ & _ & K1 & K2)]]]; [|lia|lia].
    destruct (Hs x y Hx0 Hy0) as [K|[K|[K|K]]]; lia. }
  destruct Hdag as (_ & Hacy & _). apply (Hacy a). exists b. split; [|exact Hba]. apply dag_dedge; [apply HX|exact Hab].
Qed.
(** Without background knowledge, on a graph built by ordinary edits that has a consistent extension at all,
    nothing is withheld: the result is closed under the three rules. *)
Theorem C48_meek_closed : forall rx nm n g fuel g' D, built n g -> meek fuel rx nm None g = Some g' -> extension g D ->
  forall a b, ~ calls_for g' a b.
Proof.
  intros rx nm n g fuel g' D HB. destruct (built_inv n g HB) as (Hn & Hw & Hs & Hg). now apply meek_closed.
Qed.

(* ---------- definite_meek ---------- *)
Inductive definite_calls (UC NUC : list triple) (g : ggraph) : nat -> nat -> Prop :=
| dcalls1 : forall i a b, In (i, a, b) NUC \/ In (b, a, i) NUC -> directed g i a -> undirected g a b -> definite_calls UC NUC g a b
| dcalls2 : forall a j b, directed g a j -> directed g j b -> undirected g a b -> definite_calls UC NUC g a b
| dcalls3 : forall a j k b, In (j, b, k) UC \/ In (k, b, j) UC -> In (j, a, k) NUC \/ In (k, a, j) NUC ->
    gm g a j <> 0 -> gm g a k <> 0 -> undirected g a b -> definite_calls UC NUC g a b.

Lemma tmem_In t l : tmem t l = true <-> In t l.
Proof.
  unfold tmem. rewrite existsb_exists. split.
  - intros ([[a b] c] & H & E). destruct t as [[x y] z]. unfold t1, t2, t3 in E. cbn in E.
    rewrite !andb_true_iff, !Nat.eqb_eq in E. destruct E as [[-> ->] ->]. exact H.
  - intros H. exists t. split; [exact H|]. now rewrite !Nat.eqb_refl.
Qed.

Section Definite.
Variable block : nat -> nat -> bool.
Variable g0 : ggraph.
Variables UC NUC : list triple.
Hypothesis Hw0 : wf g0.
Hypothesis Hb : forall i j k, In (i, j, k) NUC -> (i < gn g0)%nat /\ (j < gn g0)%nat /\ (k < gn g0)%nat.

Lemma drule1_fires s t : sinv g0 s -> In t NUC -> fires block (definite_calls UC NUC) s (drule1 block s t).
Proof.
  intros [Hw Ho] Hin. destruct t as [[i j] k]. pose proof (Hb _ _ _ Hin) as (H1 & H2 & H3). pose proof (proj1 Ho) as Hn.
  unfold drule1. destruct (is_fully_directed (fst s) i j && _ && _) eqn:E.
  { rewrite !andb_true_iff in E. destruct E as [[E1 E2] E3].
    apply is_directed_iff in E1; [|lia|lia]. apply is_undirected_iff in E2; [|lia|lia].
    apply fires_orient; auto. apply dcalls1 with (i := i); auto. }
  destruct (is_fully_directed (fst s) k j && _ && _) eqn:E'; [|left; reflexivity].
  rewrite !andb_true_iff in E'. destruct E' as [[E1 E2] E3].
  apply is_directed_iff in E1; [|lia|lia]. apply is_undirected_iff in E2; [|lia|lia].
  apply fires_orient; auto. apply dcalls1 with (i := k); auto.
Qed.
Lemma drule2_fires s t : sinv g0 s -> In t (find_triangles g0) -> fires block (definite_calls UC NUC) s (rule2 block s t).
Proof.
  intros [Hw Ho] Hin. destruct t as [[i j] k]. apply (tri_bounds block) in Hin. destruct Hin as (H1 & H2 & H3).
  pose proof (proj1 Ho) as Hn.
  unfold rule2. destruct (is_fully_directed (fst s) i j && _ && _) eqn:E; [|left; reflexivity].
  rewrite !andb_true_iff in E. destruct E as [[E1 E2] E3].
  apply is_directed_iff in E1; [|lia|lia]. apply is_directed_iff in E2; [|lia|lia]. apply is_undirected_iff in E3; [|lia|lia].
  apply fires_orient; auto. apply dcalls2 with (j := j); auto.
Qed.
Lemma orients_nonzero g a b : only_orients g0 g -> (a < gn g0)%nat -> (b < gn g0)%nat -> gm g0 a b <> 0 -> gm g a b <> 0.
Proof. intros [Hn H] Ha Hb' E. destruct (H a b Ha Hb') as [[-> _]|[_ [(_ & _ & K & _)|(_ & _ & _ & K)]]]; [exact E|lia|lia]. Qed.
Lemma drule3_fires s t : sinv g0 s -> In t (find_kites g0) -> fires block (definite_calls UC NUC) s (drule3 block UC NUC s t).
Proof.
  intros [Hw Ho] Hin. destruct t as [[[i j] k] l]. apply in_kite in Hin. destruct Hin as (H1 & H2 & H3 & H4).
  pose proof (proj1 (in_tri _ _ _ _) H1) as (A1 & _ & _ & _). pose proof (proj1 (in_tri _ _ _ _) H2) as (A2 & _ & _ & _).
  rewrite in_adj in A1, A2.
  apply (tri_bounds block) in H1, H2. destruct H1 as (? & ? & ?), H2 as (_ & ? & _).
  pose proof (proj1 Ho) as Hn.
  unfold drule3. destruct ((tmem (j, l, k) UC || _) && _ && _) eqn:E; [|left; reflexivity].
  rewrite !andb_true_iff, !orb_true_iff, !tmem_In in E. destruct E as [[E1 E2] E3].
  apply is_undirected_iff in E3; [|lia|lia].
  assert (Nz : forall x, (x < gn g0)%nat -> gm g0 x i <> 0 -> gm (fst s) i x <> 0).
  { intros x Hx N Z0. assert (M : gm (fst s) x i <> 0) by (eapply orients_nonzero; eauto).
    destruct Hw as [_ Hl]. specialize (Hl i x). rewrite Hn, Z0 in Hl. apply M.
    assert (L : legal_pair 0 (gm (fst s) x i)) by (apply Hl; lia).
    clear -L. unfold legal_pair, legal_pairs in L. cbn in L. intuition congruence. }
  apply fires_orient; auto. apply dcalls3 with (j := j) (k := k); auto; apply Nz; auto; lia.
Qed.

Lemma dround_inv (P : ggraph -> Prop) g :
  (forall g a b, wf g -> only_orients g0 g -> P g -> undirected g a b -> definite_calls UC NUC g a b -> block a b = false ->
     is_ancestor_of g b a = false -> P (dirg g a b)) ->
  wf g -> only_orients g0 g -> P g ->
  let s := definite_round block UC NUC (find_triangles g0) (find_kites g0) g in
  sinv g0 s /\ P (fst s) /\ finv g s.
Proof.
  intros HP Hw Ho Hp. unfold definite_round. cbn zeta.
  set (Q := fun s : ggraph * bool => sinv g0 s /\ P (fst s) /\ finv g s).
  assert (St : forall s s', fires block (definite_calls UC NUC) s s' -> Q s -> Q s').
  { intros s s' Hf (Hs & Hps & Hfl). destruct (fires_inv block g0 _ P s s' HP Hf Hs Hps) as [I1 I2].
    split; [exact I1|]. split; [exact I2|]. eapply fires_flag; eauto. apply Hs. }
  change (Q (fold_left (drule3 block UC NUC) (find_kites g0) (fold_left (rule2 block) (find_triangles g0) (fold_left (drule1 block) NUC (g, false))))).
  apply fold_left_inv; [apply fold_left_inv; [apply fold_left_inv|]|].
  - split; [split; auto|]. split; [exact Hp|]. split; cbn; auto; discriminate.
  - intros s t Hin Hq. eapply St; [|exact Hq]. apply drule1_fires; [apply Hq|exact Hin].
  - intros s t Hin Hq. eapply St; [|exact Hq]. apply drule2_fires; [apply Hq|exact Hin].
  - intros s t Hin Hq. eapply St; [|exact Hq]. apply drule3_fires; [apply Hq|exact Hin].
Qed.
Lemma dloop_spec (P : ggraph -> Prop) fuel : forall g,
  (forall g a b, wf g -> only_orients g0 g -> P g -> undirected g a b -> definite_calls UC NUC g a b -> block a b = false ->
     is_ancestor_of g b a = false -> P (dirg g a b)) ->
  wf g -> only_orients g0 g -> P g -> (ucount g < fuel)%nat ->
  exists g', definite_loop block fuel UC NUC (find_triangles g0) (find_kites g0) g = Some g' /\
    wf g' /\ only_orients g0 g' /\ P g'.
Proof.
  induction fuel as [|f IH]; intros g HP Hw Ho Hp Hf; [lia|]. cbn.
  pose proof (dround_inv P g HP Hw Ho Hp) as HR. cbn zeta in HR.
  destruct (definite_round block _ _ _ _ g) as [g1 lp]. destruct HR as [[H1 H2] [H3 [F1 F2]]]. cbn in *.
  destruct lp; [|eauto]. apply IH; auto. specialize (F1 eq_refl). lia.
Qed.
End Definite.

(** The same conservativity for definite_meek, for any lists of in-range definite (non-)colliders. *)
Theorem C20_definite_meek_conservative : forall rx nm K UC NUC g fuel, wf g ->
  (forall i j k, In (i, j, k) NUC -> (i < gn g)%nat /\ (j < gn g)%nat /\ (k < gn g)%nat) ->
  (gn g * gn g < fuel)%nat ->
  exists g', definite_meek fuel rx nm K UC NUC g = Some g' /\ wf g' /\ only_orients g g' /\
    (forall a b, undirected g a b -> directed g' a b -> bk_block rx nm K a b = false).
Proof.
  intros rx nm K UC NUC g fuel Hw Hb Hf. unfold definite_meek, definite_meek_with.
  destruct (dloop_spec (bk_block rx nm K) g UC NUC Hb
     (fun h => forall a b, undirected g a b -> directed h a b -> bk_block rx nm K a b = false) fuel g) as (g' & E & H1 & H2 & H3);
    auto using orients_refl.
  - intros h x y Hwh Hoh HP Hu' _ Hbl _ u v Huv Hd'. apply dirg_directed in Hd'; auto.
    destruct Hd' as [[-> ->]|Hd']; auto.
  - intros x y (_ & _ & _ & X1) (_ & _ & _ & X2). lia.
  - pose proof (ucount_bound g). lia.
  - exists g'. auto.
Qed.

(** Soundness of definite_meek: a DAG over the same adjacencies that keeps the directed edges, in which every definite
    collider is a collider and no definite non-collider is one, has every edge direction of the result. *)
Theorem C21_definite_meek_sound : forall rx nm K UC NUC g fuel g' D, wf g ->
  (forall i j k, In (i, j, k) NUC -> (i < gn g)%nat /\ (j < gn g)%nat /\ (k < gn g)%nat) ->
  (gn g * gn g < fuel)%nat -> definite_meek fuel rx nm K UC NUC g = Some g' ->
  gn D = gn g -> dag D -> (forall a b, joined D a b <-> joined g a b) -> (forall a b, directed g a b -> directed D a b) ->
  (forall i j k, In (i, j, k) UC -> directed D i j /\ directed D k j) ->
  (forall i j k, In (i, j, k) NUC -> ~ (directed D i j /\ directed D k j)) ->
  forall a b, directed g' a b -> directed D a b.
Proof.
  intros rx nm K UC NUC g fuel g' D Hw Hb Hf E Hn Hdag Hj Hd HU HN.
  unfold definite_meek, definite_meek_with in E.
  destruct (dloop_spec (bk_block rx nm K) g UC NUC Hb (fun h => forall a b, directed h a b -> directed D a b) fuel g)
    as (h & E' & _ & _ & H3); auto using orients_refl.
  - intros h x y Hwh Hoh HP Hu Hc _ _ u v Huv. apply dirg_directed in Huv; auto.
    destruct Huv as [[-> ->]|Huv]; [|auto].
    assert (Hsk : forall x y, (x < gn g)%nat -> (y < gn g)%nat -> gm h x y <> 0 -> directed D x y \/ directed D y x).
    { intros p q Hp Hq N. assert (J : joined D p q).
      { apply Hj. split; [exact Hp|]. split; [exact Hq|]. intros Z0. apply N. eapply orients_zero; eauto. }
      destruct J as (J1 & J2 & J3). destruct Hdag as (_ & _ & HH). destruct (HH p q J1 J2 J3) as [[]|[]]; [left|right]; unfold directed; auto. }
    assert (Hxy : directed D x y \/ directed D y x).
    { pose proof (orients_undirected _ _ _ _ Hoh Hu) as (B1 & B2 & _ & _). apply Hsk; auto. destruct Hu as (_ & _ & U & _). lia. }
    destruct Hxy as [|Hyx]; [assumption|]. exfalso.
    assert (Bx : (x < gn g)%nat /\ (y < gn g)%nat) by (destruct (orients_undirected _ _ _ _ Hoh Hu) as (B1 & B2 & _); auto).
    destruct Hc as [i x y Hin Hia Hu' | x j y Haj Hjb Hu' | x j k y HinU HinN Hxj Hxk Hu'].
    + destruct Hin as [Hin|Hin]; apply (HN _ _ _ Hin); auto.
    + apply (dag_no_cycle3 D x j y); auto.
    + assert (DU : directed D j y /\ directed D k y) by (destruct HinU as [HI|HI]; destruct (HU _ _ _ HI); auto).
      assert (Bj : (j < gn g)%nat /\ (k < gn g)%nat) by (rewrite <- Hn; destruct DU as [(? & _) (? & _)]; auto).
      assert (Dj : directed D j x).
      { destruct (Hsk x j); try tauto. exfalso. apply (dag_no_cycle3 D x j y); tauto. }
      assert (Dk : directed D k x).
      { destruct (Hsk x k); try tauto. exfalso. apply (dag_no_cycle3 D x k y); tauto. }
      destruct HinN as [HI|HI]; apply (HN _ _ _ HI); auto.
  - pose proof (ucount_bound g). lia.
  - rewrite E' in E. injection E as <-. exact H3.
Qed.

(* ---------- orient_by_background_knowledge ---------- *)
Definition bk_target (forb req : nat -> nat -> bool) (a b : nat) : option (nat * nat) :=
  if forb b a then Some (a, b) else if forb a b then Some (b, a)
  else if req b a then Some (b, a) else if req a b then Some (a, b) else None.

Lemma dir_is g a b : wf g -> undirected g a b ->
  gm (add_directed_edge (remove_edge g (Edge a b TAIL TAIL)) a b) = gm (dirg g a b) /\
  gn (add_directed_edge (remove_edge g (Edge a b TAIL TAIL)) a b) = gn g.
Proof.
  intros Hw Hu. pose proof (undirected_neq _ _ _ Hw Hu) as Hne. destruct Hu as (Ha & Hb & E1 & E2).
  unfold remove_edge, Edge. cbn [pointing_left ep_eqb ev Z.eqb e_node1 e_node2 e_num1 e_num2 andb orb].
  unfold is_parent_of. rewrite E1, E2. cbn [Z.eqb andb orb Pos.eqb]. split; reflexivity.
Qed.

(** Facts about a graph depend on its size and matrix only. *)
Lemma same_gm_directed g g' a b : gn g = gn g' -> gm g = gm g' -> directed g a b <-> directed g' a b.
Proof. intros E1 E2. unfold directed. now rewrite E1, E2. Qed.
Lemma same_gm_undirected g g' a b : gn g = gn g' -> gm g = gm g' -> undirected g a b <-> undirected g' a b.
Proof. intros E1 E2. unfold undirected. now rewrite E1, E2. Qed.
Lemma same_gm_wf g g' : gn g = gn g' -> gm g = gm g' -> wf g -> wf g'.
Proof. intros E1 E2. unfold wf. now rewrite E1, E2. Qed.
Lemma same_gm_orients g0 g g' : gn g = gn g' -> gm g = gm g' -> only_orients g0 g -> only_orients g0 g'.
Proof. intros E1 E2. unfold only_orients, directed. now rewrite E1, E2. Qed.

Section Knowledge.
Variables forb req : nat -> nat -> bool.
Variable g0 : ggraph.
Hypothesis Hw0 : wf g0.

Lemma edge_undirected e i j h : (i < j)%nat -> (j < gn g0)%nat -> only_orients g0 h -> In e (pair_edges g0 i j) ->
  is_undirected_from_to h (e_node1 e) (e_node2 e) = true ->
  e = Edge i j TAIL TAIL /\ undirected h i j.
Proof.
  intros Hij Hj Ho Hin Hu. pose proof (pair_edges_nodes g0 i j e Hin) as Hnd.
  assert (Hi : (i < gn g0)%nat) by lia. pose proof (proj1 Ho) as Hn.
  assert (U : undirected h i j).
  { unfold is_undirected_from_to in Hu. apply andb_true_iff in Hu. rewrite !Z.eqb_eq in Hu. unfold undirected. rewrite Hn.
    destruct Hnd as [[E1 E2]|[E1 E2]]; rewrite E1, E2 in Hu; tauto. }
  split; [|exact U]. pose proof (orients_undirected _ _ _ _ Ho U) as (_ & _ & E1 & E2).
  unfold pair_edges in Hin. rewrite E1, E2 in Hin. cbn [Z.eqb orb Pos.eqb] in Hin.
  unfold get_edge in Hin. rewrite E1, E2 in Hin. cbn in Hin. destruct Hin as [<-|[]]. reflexivity.
Qed.

Definition settled (h : ggraph) (i j : nat) : Prop :=
  match bk_target forb req i j with Some (x, y) => directed h x y | None => undirected h i j end.

Lemma dirg_sym_gm g a b x y : undirected g a b -> wf g -> (x = a /\ y = b) \/ (x = b /\ y = a) -> undirected g x y.
Proof. intros Hu Hw [[-> ->]|[-> ->]]; [exact Hu|now apply undirected_sym]. Qed.

Lemma remove_tt_sym g a b : wf g -> undirected g a b ->
  gm (remove_edge g (Edge a b TAIL TAIL)) = upd2 (gm g) a b 0 0 /\ gn (remove_edge g (Edge a b TAIL TAIL)) = gn g.
Proof.
  intros Hw Hu. pose proof (undirected_neq _ _ _ Hw Hu) as Hne. destruct Hu as (Ha & Hb & E1 & E2).
  unfold remove_edge, Edge. cbn [pointing_left ep_eqb ev Z.eqb e_node1 e_node2 e_num1 e_num2 andb orb].
  unfold is_parent_of. rewrite E1, E2. cbn [Z.eqb andb orb Pos.eqb]. split; reflexivity.
Qed.

Lemma add_dir_spec g a b x y : wf g -> undirected g a b -> (x = a /\ y = b) \/ (x = b /\ y = a) ->
  let h := add_directed_edge (remove_edge g (Edge a b TAIL TAIL)) x y in
  gn h = gn g /\ (forall u v, gm h u v = gm (dirg g x y) u v).
Proof.
  intros Hw Hu Hxy h. pose proof (undirected_neq _ _ _ Hw Hu) as Hne.
  destruct (remove_tt_sym g a b Hw Hu) as [Em En]. unfold h, add_directed_edge. cbn [gn gm dirg]. rewrite Em, En.
  split; [reflexivity|]. intros u v.
  destruct Hxy as [[-> ->]|[-> ->]]; [reflexivity|].
  unfold upd2, upd. destruct (Nat.eqb_spec u b), (Nat.eqb_spec v a), (Nat.eqb_spec u a), (Nat.eqb_spec v b); subst; cbn; congruence.
Qed.

Definition same_gm (g h : ggraph) : Prop := gn h = gn g /\ forall u v, gm h u v = gm g u v.
Lemma same_directed g h a b : same_gm g h -> directed h a b <-> directed g a b.
Proof. intros [E1 E2]. unfold directed. now rewrite E1, !E2. Qed.
Lemma same_undirected g h a b : same_gm g h -> undirected h a b <-> undirected g a b.
Proof. intros [E1 E2]. unfold undirected. now rewrite E1, !E2. Qed.
Lemma same_wf g h : same_gm g h -> wf g -> wf h.
Proof. intros [E1 E2] [H1 H2]. split; intros; rewrite ?E1, ?E2 in *; auto. Qed.
Lemma same_orients g h : same_gm g h -> only_orients g0 g -> only_orients g0 h.
Proof.
  intros S [H1 H2]. pose proof S as [E1 E2]. split; [congruence|]. intros a b Ha Hb. rewrite !E2, !(same_directed g h) by exact S.
  now apply H2.
Qed.

Definition kinv (h : ggraph) : Prop :=
  wf h /\ only_orients g0 h /\
  forall i j, (i < j)%nat -> undirected g0 i j -> undirected h i j \/ (bk_target forb req i j <> None /\ settled h i j).

Lemma kstep h e i j : kinv h -> (i < j)%nat -> (j < gn g0)%nat -> In e (pair_edges g0 i j) ->
  kinv (bk_orient_step forb req h e) /\
  (forall u v, (u < v)%nat -> undirected g0 u v -> settled h u v -> settled (bk_orient_step forb req h e) u v) /\
  (e = Edge i j TAIL TAIL -> undirected g0 i j -> settled (bk_orient_step forb req h e) i j).
Proof.
  intros (Hw & Ho & Hk) Hij Hj Hin.
  assert (Case : (bk_orient_step forb req h e = h /\ (e = Edge i j TAIL TAIL -> undirected g0 i j -> settled h i j)) \/
     (undirected h i j /\ exists x y, bk_target forb req i j = Some (x, y) /\ ((x = i /\ y = j) \/ (x = j /\ y = i)) /\
        same_gm (dirg h x y) (bk_orient_step forb req h e))).
  { unfold bk_orient_step. destruct (is_undirected_from_to h (e_node1 e) (e_node2 e)) eqn:EU.
    - destruct (edge_undirected e i j h Hij Hj Ho Hin EU) as [-> U]. cbn [Edge pointing_left ep_eqb ev Z.eqb andb e_node1 e_node2].
      unfold settled, bk_target.
      destruct (forb j i); [right; split; [exact U|]; exists i, j; split; [reflexivity|]; split; [auto|]; apply (add_dir_spec h i j i j); auto|].
      destruct (forb i j); [right; split; [exact U|]; exists j, i; split; [reflexivity|]; split; [auto|]; apply (add_dir_spec h i j j i); auto|].
      destruct (req j i); [right; split; [exact U|]; exists j, i; split; [reflexivity|]; split; [auto|]; apply (add_dir_spec h i j j i); auto|].
      destruct (req i j); [right; split; [exact U|]; exists i, j; split; [reflexivity|]; split; [auto|]; apply (add_dir_spec h i j i j); auto|].
      left. auto.
    - left. split; [reflexivity|]. intros -> U0. destruct (Hk i j Hij U0) as [U|[_ S]]; [|exact S]. exfalso.
      cbn in EU. unfold is_undirected_from_to in EU. destruct U as (_ & _ & U1 & U2). rewrite U1, U2 in EU. discriminate. }
  destruct Case as [[-> S]|(U & x & y & ET & Hxy & SG)].
  { split; [split; auto|]. auto. }
  assert (Ux : undirected h x y) by (destruct Hxy as [[-> ->]|[-> ->]]; [exact U|now apply undirected_sym]).
  assert (Pres : forall u v, (u < v)%nat -> undirected g0 u v -> settled h u v -> settled (bk_orient_step forb req h e) u v).
  { intros u v Huv Hu0 S. unfold settled in *. destruct (bk_target forb req u v) as [[p q]|] eqn:EP.
    - rewrite same_directed by exact SG. apply dirg_directed; auto.
    - rewrite same_undirected by exact SG. apply dirg_undirected; auto. split; [exact S|].
      assert (u = i /\ v = j -> False) by (intros [-> ->]; congruence).
      destruct Hxy as [[-> ->]|[-> ->]]; split; intros [-> ->]; lia. }
  assert (Here : settled (bk_orient_step forb req h e) i j).
  { unfold settled. rewrite ET. rewrite same_directed by exact SG. apply dirg_directed; auto. }
  split; [|split; [exact Pres|auto]].
  split; [eapply same_wf; [exact SG|now apply dirg_wf]|]. split; [eapply same_orients; [exact SG|now apply orients_dirg]|].
  intros u v Huv Hu0. destruct (Nat.eq_dec u i) as [->|Nu]; [destruct (Nat.eq_dec v j) as [->|Nv]|].
  - right. split; [congruence|exact Here].
  - destruct (Hk i v Huv Hu0) as [K|[K1 K2]]; [|right; split; auto].
    left. rewrite same_undirected by exact SG. apply dirg_undirected; auto. split; [exact K|]. destruct Hxy as [[-> ->]|[-> ->]]; lia.
  - destruct (Hk u v Huv Hu0) as [K|[K1 K2]]; [|right; split; auto].
    left. rewrite same_undirected by exact SG. apply dirg_undirected; auto. split; [exact K|]. destruct Hxy as [[-> ->]|[-> ->]]; lia.
Qed.

Lemma in_graph_edges e : In e (get_graph_edges g0) <-> exists i j, (i < j)%nat /\ (j < gn g0)%nat /\ In e (pair_edges g0 i j).
Proof.
  unfold get_graph_edges. rewrite in_flat_map. split.
  - intros (i & Hi & H). apply in_flat_map in H. destruct H as (j & Hj & H). apply in_seq in Hi, Hj. exists i, j. split; [lia|]. split; [lia|exact H].
  - intros (i & j & H1 & H2 & H3). exists i. split; [apply in_seq; lia|]. apply in_flat_map. exists j. split; [apply in_seq; lia|exact H3].
Qed.

Lemma kfold l : forall h, kinv h -> incl l (get_graph_edges g0) ->
  kinv (fold_left (bk_orient_step forb req) l h) /\
  forall u v, (u < v)%nat -> undirected g0 u v -> settled h u v \/ In (Edge u v TAIL TAIL) l ->
    settled (fold_left (bk_orient_step forb req) l h) u v.
Proof.
  induction l as [|e l IH]; intros h Hk Hl; cbn.
  - split; [exact Hk|]. intros u v _ _ [H|[]]; exact H.
  - pose proof (Hl e (or_introl eq_refl)) as He. apply in_graph_edges in He. destruct He as (i & j & Hij & Hj & He).
    destruct (kstep h e i j Hk Hij Hj He) as (K1 & K2 & K3).
    destruct (IH _ K1) as [I1 I2]; [intros z Hz; apply Hl; now right|]. split; [exact I1|].
    intros u v Huv Hu [S|[E|Hin]].
    + apply I2; auto.
    + apply I2; auto. left.
      assert (Hpe : (i = u /\ j = v)).
      { rewrite E in He. apply pair_edges_nodes in He. cbn in He. lia. }
      destruct Hpe as [-> ->]. apply K3; auto.
    + apply I2; auto.
Qed.

Lemma knowledge_result :
  let g' := orient_by_knowledge forb req g0 in
  wf g' /\ only_orients g0 g' /\ forall u v, (u < v)%nat -> undirected g0 u v -> settled g' u v.
Proof.
  cbn zeta. unfold orient_by_knowledge.
  assert (K0 : kinv g0) by (split; [exact Hw0|]; split; [apply orients_refl|auto]).
  destruct (kfold (get_graph_edges g0) g0 K0 (fun _ H => H)) as [(K1 & K2 & _) K3].
  split; [exact K1|]. split; [exact K2|]. intros u v Huv Hu. apply K3; auto. right.
  apply in_graph_edges. exists u, v. destruct Hu as (H1 & H2 & E1 & E2). split; [exact Huv|]. split; [exact H2|].
  unfold pair_edges. rewrite E1, E2. cbn [Z.eqb orb Pos.eqb].
  unfold get_edge. rewrite E1, E2. cbn. auto.
Qed.
End Knowledge.

(** orient_by_background_knowledge changes nothing but undirected edges; on an undirected edge about which the knowledge
    says something non-contradictory it chooses the direction the knowledge demands, and it leaves alone the undirected
    edges about which the knowledge is silent. *)
Theorem C22_orient_by_knowledge : forall rx nm K g, wf g ->
  let forb a b := is_forbidden rx K (nm a) (nm b) in
  let req a b := is_required rx K (nm a) (nm b) in
  let g' := orient_by_background_knowledge rx nm K g in
  only_orients g g' /\
  forall a b, undirected g a b ->
    (forb a b = false -> req b a = false -> forb b a = true \/ req a b = true -> directed g' a b) /\
    (forb a b = false -> forb b a = false -> req a b = false -> req b a = false -> undirected g' a b) /\
    (directed g' a b -> forb a b = false \/ forb b a = true).
Proof.
  intros rx nm K g Hw forb req g'.
  destruct (knowledge_result forb req g Hw) as (Hw' & Ho & HS). fold g' in Hw', Ho, HS.
  change (orient_by_knowledge forb req g) with g' in Hw', Ho, HS.
  split; [exact Ho|]. intros a b Hu.
  assert (Hne : a <> b) by (apply (undirected_neq g); auto).
  assert (Hlt : (a < b \/ b < a)%nat) by lia. unfold settled, bk_target in HS.
  assert (NoTwo : forall x y, directed g' x y -> directed g' y x -> False).
  { intros x y (_ & _ & X1 & X2) (_ & _ & X3 & X4). lia. }
  assert (NoU : forall x y, directed g' x y -> undirected g' y x -> False).
  { intros x y (_ & _ & X1 & X2) (_ & _ & X3 & X4). lia. }
  assert (NoU' : forall x y, directed g' x y -> undirected g' x y -> False).
  { intros x y (_ & _ & X1 & X2) (_ & _ & X3 & X4). lia. }
  destruct Hlt as [Hlt|Hlt].
  - specialize (HS a b Hlt Hu).
    destruct (forb b a), (forb a b), (req b a), (req a b);
    (split; [intros; intuition congruence|]; split; [intros; intuition congruence|]; intros; try tauto; exfalso; eauto).
  - specialize (HS b a Hlt (undirected_sym _ _ _ Hu)).
    destruct (forb b a), (forb a b), (req b a), (req a b);
    (split; [intros; intuition congruence|]; split; [intros; try congruence; try (now apply undirected_sym)|]; intros; try tauto; exfalso; eauto).
Qed.

(* ---------- concrete cases ---------- *)
(** 0 -> 1 --- 2 --- 3 and 0 --- 4, 4 -> 1: rule 1 orients 1 -> 2 -> 3. *)
Definition mk_ex : ggraph := graph_of 5 [dir 0 1; und 1 2; und 2 3; und 0 4; dir 4 1].
Definition mk_D : ggraph := graph_of 5 [dir 0 1; dir 1 2; dir 2 3; dir 0 4; dir 4 1].
Example C20_ex : wf mk_ex /\ is_undirected mk_ex 1 2 = true /\
  match meek 26 (fun _ _ => false) (fun i => i) None mk_ex with
  | Some g' => is_fully_directed g' 1 2 && is_fully_directed g' 2 3 && is_undirected g' 0 4
  | None => false end = true.
Proof. split; [apply wfb_sound; vm_compute; reflexivity|]. split; vm_compute; reflexivity. Qed.
Example C21_ex : extension mk_ex mk_D.
Proof. apply (extb_sound (fun v => nth v [0; 2; 3; 4; 1]%nat 0%nat)). vm_compute. reflexivity. Qed.
(** Knowledge that forbids 1 -> 2 is respected. *)
Example C22_ex :
  match meek 26 (fun _ _ => false) (fun i => i) (Some (bk_run [AddForb 1 2])) mk_ex with
  | Some g' => is_undirected g' 1 2 && is_fully_directed g' 0 1 && (gm g' 0%nat 2%nat =? 0)
  | None => false end = true /\
  bk_block (fun _ _ => false) (fun i => i) (Some (bk_run [AddForb 1 2])) 1 2 = true.
Proof. split; vm_compute; reflexivity. Qed.
Example C22_orient_ex :
  let g' := orient_by_background_knowledge (fun _ _ => false) (fun i => i) (bk_run [AddForb 1 2; AddReq 3 2]) mk_ex in
  is_fully_directed g' 2 1 && is_fully_directed g' 3 2 && is_undirected g' 0 4 = true.
Proof. vm_compute. reflexivity. Qed.
Lemma mk_ex_built : built 5 mk_ex.
Proof.
  unfold mk_ex, graph_of. cbn [fold_left].
  repeat (apply built_add; [|unfold op_on; cbn; lia|apply simpleb_sound; vm_compute; reflexivity]). constructor.
Qed.

(* ---------- C49 ---------- *)
(** meek does not implement the fourth rule.  0 --- 1, 0 --- 2, 0 --- 3, 2 -> 3 -> 1: every consistent extension has
    0 -> 1, but meek leaves 0 --- 1 undirected. *)
Definition mk_r4 : ggraph := graph_of 4 [und 0 1; und 0 2; und 0 3; dir 2 3; dir 3 1].
Theorem C49_meek_not_maximal_refuted :
  exists g g' a b, built 4 g /\ meek 17 (fun _ _ => false) (fun i => i) None g = Some g' /\
    (exists D, extension g D) /\ (forall D, extension g D -> directed D a b) /\ undirected g' a b.
Proof.
  assert (C : match meek 17 (fun _ _ => false) (fun i => i) None mk_r4 with
              | Some g' => Nat.eqb (gn g') 4 && is_undirected g' 0 1 | None => false end = true) by (vm_compute; reflexivity).
  destruct (meek 17 (fun _ _ => false) (fun i => i) None mk_r4) as [g'|] eqn:EM; [|discriminate].
  apply andb_true_iff in C. destruct C as [C1 C2]. apply Nat.eqb_eq in C1.
  apply is_undirected_iff in C2; [|lia|lia].
  exists mk_r4, g', 0%nat, 1%nat.
  split. { unfold mk_r4, graph_of. cbn [fold_left].
    repeat (apply built_add; [|unfold op_on; cbn; lia|apply simpleb_sound; vm_compute; reflexivity]). constructor. }
  split; [exact EM|]. split; [|split; [|exact C2]].
  - exists (graph_of 4 [dir 0 1; dir 0 2; dir 0 3; dir 2 3; dir 3 1]).
    apply (extb_sound (fun v => nth v [0; 3; 1; 2]%nat 0%nat)). vm_compute. reflexivity.
  - intros D HX.
    assert (Hw : wf mk_r4) by (apply wfb_sound; vm_compute; reflexivity).
    assert (J : forall a b, (a < 4)%nat -> (b < 4)%nat -> gm mk_r4 a b <> 0 -> directed D a b \/ directed D b a).
    { intros a b Ha Hb N. apply (ext_joined_dir mk_r4 D a b Hw HX Ha Hb N). }
    destruct HX as (Hn & Hdag & Hj & Hd & Hu).
    assert (D23 : directed D 2 3) by (apply Hd; split; [vm_compute; lia|]; split; [vm_compute; lia|]; split; vm_compute; reflexivity).
    assert (D31 : directed D 3 1) by (apply Hd; split; [vm_compute; lia|]; split; [vm_compute; lia|]; split; vm_compute; reflexivity).
    destruct (J 0 1)%nat as [|D10]; try lia; [vm_compute; discriminate|assumption|].
    destruct (J 0 3)%nat as [D03|D30]; try lia; [vm_compute; discriminate| |].
    { exfalso. apply (dag_no_cycle3 D 0 3 1); auto. }
    destruct (J 0 2)%nat as [D02|D20]; try lia; [vm_compute; discriminate| |].
    { exfalso. apply (dag_no_cycle3 D 0 2 3); auto. }
    exfalso. assert (C : ucollider D 2 0 1).
    { destruct D20 as (X1 & X2 & X3 & X4), D10 as (X5 & X6 & X7 & X8).
      repeat (split; [first [assumption|lia]|]).
      destruct (Z.eq_dec (gm D 2%nat 1%nat) 0) as [|N]; [assumption|]. exfalso.
      assert (JJ : joined D 2 1) by (split; auto). apply Hj in JJ. destruct JJ as (_ & _ & JJ). apply JJ. reflexivity. }
    apply Hu in C. destruct C as (_ & _ & _ & _ & C & _). vm_compute in C. discriminate.
Qed.

Print Assumptions C20_meek_conservative.
Print Assumptions C20_meek_edges.
Print Assumptions C20_definite_meek_conservative.
Print Assumptions C21_meek_sound.
Print Assumptions C21_definite_meek_sound.
Print Assumptions C22_meek_respects_knowledge.
Print Assumptions C22_orient_by_knowledge.
Print Assumptions C48_meek_exhausts_rules.
Print Assumptions C48_meek_closed.
Print Assumptions C49_meek_not_maximal_refuted.
