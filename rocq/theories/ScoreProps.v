(** Score functions: equivalent DAGs get equal scores. *)
From Verif Require Import Base EdgeModel GraphModel GraphSpec GraphProofs UtilsModel UtilsProofs DsepSpec MeekSpec MeekProofs CheckLib CpdagSpec CpdagProps
  PdagModel ExactSpec GESSpec GESTheory GESModel GESMain GESProps ScoreEqProofs BDeuModel BDeuProofs.
From Coq Require Import Permutation.
Local Open Scope Z_scope.

Lemma family_perm D v : dag D -> (v < gn D)%nat -> Permutation (v :: parents D v) (family D v).
Proof.
  intros Hd Hv. apply NoDup_Permutation.
  - constructor; [|apply nodup_parents]. rewrite in_parents by auto. now apply dag_irr.
  - apply NoDup_filter, seq_NoDup.
  - intros p. unfold family, parents. cbn [In]. rewrite !filter_In, orb_true_iff, Nat.eqb_eq. split.
    + intros [<-|H]; [split; [now apply in_seq0|now left]|tauto].
    + intros [H1 [H2|H2]]; [now left|tauto].
Qed.

(** C96: the BDeu score of a DAG is the same for all DAGs of an equivalence class, whatever the data, the numbers of states
    and the values of the log-gamma function and of the structure prior; it does not depend on the order of the parents. *)
Theorem C96_BDeu_score_equivalent lg la lb r rows n : score_equivalent n (local_score_BDeu lg la lb r rows).
Proof.
  intros D D' Hn HE. pose proof HE as (Hn' & Hd & Hd' & _).
  assert (K : forall G, dag G -> dag_score (local_score_BDeu lg la lb r rows) G =
     zsum (map (fun v => - (Z.of_nat (length rows) - 1) * lb) (seq 0 (gn G))) + dag_score (wsc (fun _ _ => lb - la)) G
     + - family_score Z Z.add 0 Z.opp (hset lg r rows) G).
  { intros G HG. unfold dag_score, family_score, ScoreEqProofs.sum, ScoreEqProofs.sub.
    change (fold_right Z.add 0) with zsum. 
    assert (Q : forall l, (forall v, In v l -> (v < gn G)%nat) ->
      zsum (map (fun v => local_score_BDeu lg la lb r rows v (parents G v)) l) =
      zsum (map (fun _ => - (Z.of_nat (length rows) - 1) * lb) l) + zsum (map (fun v => wsc (fun _ _ => lb - la) v (parents G v)) l) +
      - zsum (map (fun v => hset lg r rows (family G v) + - hset lg r rows (parents G v)) l)).
    { induction l as [|v l IH]; intros Hl; [reflexivity|]. cbn [map]. unfold zsum in *. cbn [fold_right].
      rewrite IH by (intros; apply Hl; now right).
      rewrite bdeu_set_function.
      rewrite (hset_perm lg r rows _ _ (family_perm G v HG (Hl v (or_introl eq_refl)))).
      replace (wsc (fun _ _ => lb - la) v (parents G v)) with (Z.of_nat (length (parents G v)) * (lb - la)); [lia|].
      unfold wsc. induction (parents G v) as [|x P IHP]; [reflexivity|]. cbn [map fold_right length]. rewrite <- IHP. lia. }
    apply Q. intros v Hv. now apply in_seq0. }
  rewrite !K, Hn' by auto. f_equal; [f_equal|].
  - now apply (wsc_equiv (fun _ _ => lb - la) n).
  - f_equal. apply family_score_equivalent; auto; intros; lia.
Qed.
Theorem C96_BDeu_parent_order lg la lb r rows : set_score (local_score_BDeu lg la lb r rows).
Proof.
  intros i P P' H. 
  assert (K : forall Q, local_score_BDeu lg la lb r rows i Q = - (Z.of_nat (length Q) * la + (Z.of_nat (length rows) - 1 - Z.of_nat (length Q)) * lb) - (hset lg r rows (i :: Q) - hset lg r rows Q)) by (intros Q; apply bdeu_set_function).
  rewrite !K, (Permutation_length H), (hset_perm lg r rows P P' H), (hset_perm lg r rows (i :: P) (i :: P')); [reflexivity|now apply perm_skip].
Qed.
(** So the results on GES apply to the BDeu score without any assumption on the data. *)
Theorem C96_ges_with_BDeu lg la lb r rows n maxP big fuel gf vf : 0 <= big ->
  (ges_fuel n <= fuel)%nat -> (ges_fuel n <= gf)%nat -> (ges_fuel n <= vf)%nat ->
  exists R D, ges fuel gf vf n maxP big (local_score_BDeu lg la lb r rows) = Ret R /\ gn D = n /\ dag D /\ completed D (r_G R) /\
    r_score R = dag_score (local_score_BDeu lg la lb r rows) D /\
    forall x y D', drops D x y D' -> dag_score (local_score_BDeu lg la lb r rows) D <= dag_score (local_score_BDeu lg la lb r rows) D'.
Proof.
  intros H F1 F2 F3.
  destruct (ges_spec n maxP big _ (C96_BDeu_parent_order lg la lb r rows) (C96_BDeu_score_equivalent lg la lb r rows n) H fuel gf vf F1 F2 F3)
    as (R & C0 & C1 & E & _ & _ & _ & _ & (D & Dn & Hd & HC & Es) & _).
  destruct (C89_backward_local_optimum n maxP big _ fuel gf vf (C96_BDeu_parent_order lg la lb r rows) (C96_BDeu_score_equivalent lg la lb r rows n) H F1 F2 F3) as (R' & E' & Opt).
  assert (R' = R) by congruence. subst R'.
  exists R, D. split; [exact E|]. split; [exact Dn|]. split; [exact Hd|]. split; [exact HC|]. split; [exact Es|].
  intros x y D' HA. eapply Opt; eauto.
Qed.
(** A table of five rows; a stand-in for log-gamma that makes the score of 1 depend on the parent. *)
Example bdeu_example :
  let rows := [[0; 0]; [0; 0]; [1; 1]; [1; 1]; [1; 0]]%nat in let lg := fun m q => Z.of_nat (m * m * 12 / q) in
  let sc := local_score_BDeu lg 0 0 (distinct_values rows) rows in
  (sc 1 [], sc 1 [0], sc 0 [], sc 0 [1])%nat = (222, 51, 222, 51)%Z /\ distinct_values rows 0 = 2%nat.
Proof. vm_compute. auto. Qed.
