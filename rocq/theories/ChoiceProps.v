(** C27, C28, C45: the combination generators. *)
From Verif Require Import Base ChoiceModel ChoiceSpec ChoiceProofs.
From Coq Require Import Sorted.
Local Open Scope Z_scope.

Lemma seq_shift0 k {A} (f : nat -> A) : map f (seq 1 k) = map (fun n => f (S n)) (seq 0 k).
Proof. rewrite <- seq_shift, map_map. reflexivity. Qed.

Lemma cg_chain a b c l e : chain a b c l e -> length c = b -> forall r, length r = b ->
  forall k, cg_calls k (mkCG a b c r true) = Ok (map (nth_error l) (seq 0 k)).
Proof.
  induction 1 as [c H|c i l e H K IH]; intros Hl r Hr k.
  - induction k as [|k IHk]; [reflexivity|]. cbn [cg_calls]. unfold cg_next, cg_diff. cbn [cg_a cg_b cg_local cg_begun]. 
    fold (diff a b). rewrite H. rewrite IHk. cbn [seq map nth_error]. rewrite seq_shift0. do 2 f_equal.
    apply map_ext. intros n. now destruct n.
  - pose proof (scan_ok c (diff a b) b ltac:(lia)) as S0. rewrite H in S0.
    assert (Hf : length (fill b c i) = b) by (apply fill_spec; lia).
    destruct k as [|k]; [reflexivity|]. cbn [cg_calls]. unfold cg_next, cg_diff. cbn [cg_a cg_b cg_local cg_begun cg_returned].
    fold (diff a b). rewrite H. rewrite copy_into_id by lia. rewrite IH by lia. cbn [seq map nth_error]. now rewrite seq_shift0.
Qed.

(** C27.  For all a >= b >= 0 there is a list L of exactly the b-element subsets of {0..a-1}, in strictly increasing
    lexicographic order (hence without repetition), such that the n-th call of next() answers the n-th element of L and
    every call after the last element answers None; no call raises. *)
Theorem C27_enumerates_all_combinations : forall a b, (b <= a)%nat ->
  exists L, (forall c, In c L <-> combination a b c) /\ StronglySorted lexlt L /\
    forall k, cg_calls k (new_cgen a b) = Ok (map (nth_error L) (seq 0 k)).
Proof.
  intros a b Hab. destruct b as [|b].
  - exists [[]]. split; [|split].
    + intros c. split.
      * intros [<-|[]]. split; [reflexivity|]. split; [constructor|]. intros x [].
      * intros (H & _). destruct c; [now left|discriminate].
    + repeat constructor.
    + intros [|k]; [reflexivity|]. cbn [cg_calls]. unfold cg_next. cbn [cg_next new_cgen cg_a cg_b cg_local cg_begun scan].
      change (copy_into 0 (init_choice 0) (cg_returned (new_cgen a 0))) with (@nil Z).
      rewrite (cg_chain a 0 [] [] []); [|now constructor|reflexivity|reflexivity].
      cbn [seq map nth_error]. rewrite seq_shift0. do 2 f_equal. 
  - destruct (chain_init a (S b) ltac:(lia)) as (L & e & H1 & H2 & H3 & H4).
    exists L. split; [exact H4|]. split; [exact H3|]. intros k.
    destruct (init_scan a (S b) ltac:(lia)) as [i Hi].
    rewrite <- (cg_chain a (S b) _ _ _ H1 (init_length _) (repeat 0 (S b)) (repeat_length _ _) k).
    destruct k as [|k]; [reflexivity|]. cbn [cg_calls]. unfold cg_next, cg_diff, new_cgen. cbn [cg_a cg_b cg_local cg_begun cg_returned].
    fold (diff a (S b)). now rewrite Hi.
Qed.
Print Assumptions C27_enumerates_all_combinations.

Example C27_ex : cg_calls 8 (new_cgen 4 2) =
  Ok [Some [0; 1]; Some [0; 2]; Some [0; 3]; Some [1; 2]; Some [1; 3]; Some [2; 3]; None; None].
Proof. reflexivity. Qed.

(** C45 refuted: next() hands out its internal buffer, so a combination kept by the caller turns into the next
    combination at the next call.  Whatever the state, after a call that answers [Some r] the buffer holds [r]. *)
Theorem C45_returned_list_is_overwritten_refuted : forall a b c1 c2 g1 g2, (0 < b <= a)%nat ->
  cg_next (new_cgen a b) = Ok (Some c1, g1) -> cg_next g1 = Ok (Some c2, g2) ->
  cg_returned g1 = c1 /\ cg_returned g2 = c2 /\ c1 <> c2.
Proof.
  intros a b c1 c2 g1 g2 Hab H1 H2. split; [|split].
  - unfold cg_next in H1. destruct (scan _ _ _) as [[i|]|]; [|destruct (cg_begun _)|discriminate]; try discriminate; now injection H1 as <- <-.
  - unfold cg_next in H2. destruct (scan _ _ _) as [[i|]|]; [|destruct (cg_begun _)|discriminate]; try discriminate; now injection H2 as <- <-.
  - destruct (C27_enumerates_all_combinations a b ltac:(lia)) as (L & _ & HS & HC). specialize (HC 2%nat). cbn [cg_calls] in HC.
    rewrite H1, H2 in HC. cbn in HC. injection HC as E1 E2. destruct L as [|x [|y L]]; cbn in *; try discriminate.
    injection E1 as <-. injection E2 as <-. intros ->. inversion_clear HS as [|? ? _ F]. inversion_clear F as [|? ? Fy _]. now apply lex_irrefl in Fy.
Qed.
Print Assumptions C45_returned_list_is_overwritten_refuted.

Example C45_ex : exists g1 g2, cg_next (new_cgen 3 2) = Ok (Some [0; 1], g1) /\ cg_next g1 = Ok (Some [0; 2], g2).
Proof. do 2 eexists. split; reflexivity. Qed.

(* ---------- DepthChoiceGenerator ---------- *)
Definition dstate (a b eff : nat) (c r : list Z) (begun : bool) : dgen := mkDG a b eff (diff a b) c r begun.

(** Calls along one size, from a state that has begun. *)
Lemma dg_chain a b eff c l e : chain a b c l e -> length c = b -> forall r, length r = b ->
  exists r', length r' = b /\ forall k,
    dg_calls (length l + k) (dstate a b eff c r true) =
    match dg_calls k (dstate a b eff e r' true) with Ok t => Ok (map Some l ++ t) | Raise => Raise end.
Proof.
  induction 1 as [c H|c i l e H K IH]; intros Hl r Hr.
  - exists r. split; [exact Hr|]. intros k. cbn. now destruct (dg_calls _ _).
  - pose proof (scan_ok c (diff a b) b ltac:(lia)) as S0. rewrite H in S0.
    assert (Hf : length (fill b c i) = b) by (apply fill_spec; lia).
    destruct (IH Hf (fill b c i) Hf) as (r' & Hr' & E). exists r'. split; [exact Hr'|]. intros k.
    cbn [length Nat.add dg_calls]. cbn [dg_next dstate dg_a dg_b dg_eff dg_diff dg_local dg_returned dg_begun]. rewrite H.
    rewrite copy_into_id by lia. fold (dstate a b eff (fill b c i) (fill b c i) true). rewrite E.
    now destruct (dg_calls _ _).
Qed.

(** All sizes from b+1 to eff, starting where size b is exhausted. *)
Lemma dg_sizes a eff : (eff <= a)%nat -> forall m b, (b + m = eff)%nat -> forall e r, length e = b -> length r = b ->
  scan e (diff a b) b = Ok None ->
  exists L, (forall c, In c L <-> exists s, (b < s <= eff)%nat /\ combination a s c) /\ StronglySorted shortlex L /\
    dg_calls (length L + 1) (dstate a b eff e r true) = Ok (map Some L ++ [None]) /\
    (forall k, dg_calls (length L + 2 + k) (dstate a b eff e r true) = Raise).
Proof.
  intros Ha m. induction m as [|m IH]; intros b Hb e r He Hr Hs.
  - exists []. split; [|split; [constructor|split]].
    + intros c. split; [intros []|]. intros (s & Hs' & _). lia.
    + cbn [length Nat.add].
      cbn [dg_calls dg_next dstate dg_a dg_b dg_eff dg_diff dg_local dg_returned dg_begun]. rewrite Hs.
      replace (Nat.ltb eff (S b)) with true by (symmetry; apply Nat.ltb_lt; lia). reflexivity.
    + intros k. cbn [length Nat.add dg_calls]. cbn [dg_next dstate dg_a dg_b dg_eff dg_diff dg_local dg_returned dg_begun]. rewrite Hs.
      replace (Nat.ltb eff (S b)) with true by (symmetry; apply Nat.ltb_lt; lia).
      cbn [dg_a dg_b dg_eff dg_diff dg_local dg_returned dg_begun scan].
      assert (N : nth_error e b = None) by (apply nth_error_None; lia). now rewrite N.
  - destruct (chain_init a (S b) ltac:(lia)) as (L1 & e1 & H1 & H2 & H3 & H4).
    destruct (init_scan a (S b) ltac:(lia)) as [i Hi].
    destruct (dg_chain a (S b) eff _ _ _ H1 (init_length _) (repeat 0 (S b)) (repeat_length _ _)) as (r1 & Hr1 & E1).
    assert (Hs1 : scan e1 (diff a (S b)) (S b) = Ok None) by (clear -H1; induction H1; auto).
    destruct (IH (S b) ltac:(lia) e1 r1 H2 Hr1 Hs1) as (L2 & M2 & S2 & C2 & R2).
    assert (Hfirst : forall k, (0 < k)%nat -> dg_calls k (dstate a b eff e r true) = dg_calls k (dstate a (S b) eff (init_choice (S b)) (repeat 0 (S b)) true)).
    { intros k Hk. destruct k as [|k]; [lia|]. cbn [dg_calls].
      cbn [dg_next dstate dg_a dg_b dg_eff dg_diff dg_local dg_returned dg_begun]. rewrite Hs.
      replace (Nat.ltb eff (S b)) with false by (symmetry; apply Nat.ltb_ge; lia).
      unfold dg_initialize. cbn [dg_a dg_b dg_eff dg_diff dg_local dg_returned dg_begun]. fold (diff a (S b)). now rewrite Hi. }
    assert (HL1 : L1 <> []). { inversion H1; subst; [congruence|discriminate]. }
    exists (L1 ++ L2). split; [|split; [|split]].
    + intros c. rewrite in_app_iff, H4, M2. split.
      * intros [H|(s & Hs' & H)]; [exists (S b)|exists s]; (split; [lia|exact H]).
      * intros (s & Hs' & H). destruct (Nat.eq_dec s (S b)) as [->|]; [now left|]. right. exists s. split; [lia|exact H].
    + assert (F : forall c d, In c L1 -> In d L2 -> shortlex c d).
      { intros c d Hc Hd. apply H4 in Hc. apply M2 in Hd. destruct Hc as [Hc _], Hd as (s & Hs' & Hd & _). left. lia. }
      assert (G : forall c d, In c L1 -> In d L1 -> lexlt c d -> shortlex c d).
      { intros c d Hc Hd L. apply H4 in Hc, Hd. destruct Hc as [Hc _], Hd as [Hd _]. right. split; [lia|exact L]. }
      clear -H3 S2 F G. induction H3 as [|c l S IH Fa]; [exact S2|]. cbn. constructor.
      * apply IH; intros; [apply F|apply G]; cbn; auto.
      * apply Forall_app. rewrite !Forall_forall in *. split; intros d Hd; [apply G; cbn; auto|apply F; cbn; auto].
    + rewrite app_length, Hfirst by lia. rewrite <- Nat.add_assoc, E1, C2. now rewrite map_app, app_assoc.
    + intros k. rewrite app_length, Hfirst by lia. rewrite <- !Nat.add_assoc, E1, Nat.add_assoc. now rewrite R2.
Qed.

(** The effective size limit: the docstring's "depth", with -1 for no limit, and never more than a. *)
Definition size_limit (a : nat) (depth : Z) : nat := if depth =? -1 then a else Nat.min (Z.to_nat depth) a.

(** C28.  For all a and depth >= -1: L lists exactly the subsets of {0..a-1} with at most [size_limit] elements, strictly
    increasing in the order "shorter first, then lexicographic" (so without repetition), and the first |L| calls of next()
    answer the elements of L in order; the call after them answers None. *)
Lemma depth_enumerates : forall a depth, -1 <= depth ->
  exists g L, new_dgen a depth = Ok g /\
    (forall c, In c L <-> exists s, (s <= size_limit a depth)%nat /\ combination a s c) /\ StronglySorted shortlex L /\
    dg_calls (length L + 1) g = Ok (map Some L ++ [None]) /\
    (forall k, dg_calls (length L + 2 + k) g = Raise).
Proof.
  intros a depth Hd.
  set (eff := if depth =? -1 then a else if depth >? Z.of_nat a then a else Z.to_nat depth).
  assert (He : eff = size_limit a depth).
  { unfold eff, size_limit. destruct (depth =? -1) eqn:E; [reflexivity|]. apply Z.eqb_neq in E. rewrite Z.gtb_ltb. destruct (Z.ltb_spec (Z.of_nat a) depth); lia. }
  assert (Hea : (eff <= a)%nat). { rewrite He. unfold size_limit. destruct (depth =? -1); lia. }
  destruct (dg_sizes a eff Hea eff 0 ltac:(lia) [] [] eq_refl eq_refl eq_refl) as (L & H1 & H2 & H3 & H4).
  exists (dg_initialize (mkDG a 0 eff 0 [] [] false)), ([] :: L). split; [|split; [|split; [|split]]].
  - unfold new_dgen. destruct (Z.ltb_spec depth (-1)); [lia|reflexivity].
  - intros c. rewrite <- He. cbn [In]. rewrite H1. split.
    + intros [<-|(s & Hs & H)]; [|exists s; split; [lia|exact H]]. exists O. split; [lia|]. split; [reflexivity|]. split; [constructor|]. intros x [].
    + intros (s & Hs & H). destruct s as [|s]; [left; destruct H as (H & _); now destruct c|]. right. exists (S s). split; [lia|exact H].
  - constructor; [exact H2|]. apply Forall_forall. intros c Hc. apply H1 in Hc. destruct Hc as (s & Hs & Hc & _). left. cbn. lia.
  - cbn [length Nat.add dg_calls]. cbn [dg_next dg_initialize dg_a dg_b dg_eff dg_diff dg_local dg_returned dg_begun scan].
    change (copy_into 0 (init_choice 0) (repeat 0 0)) with (@nil Z). change (init_choice 0) with (@nil Z).
    change (mkDG a 0 eff (Z.of_nat a - Z.of_nat 0) [] [] true) with (dstate a 0 eff [] [] true). now rewrite H3.
  - intros k. cbn [length Nat.add dg_calls]. cbn [dg_next dg_initialize dg_a dg_b dg_eff dg_diff dg_local dg_returned dg_begun scan].
    change (copy_into 0 (init_choice 0) (repeat 0 0)) with (@nil Z). change (init_choice 0) with (@nil Z).
    change (mkDG a 0 eff (Z.of_nat a - Z.of_nat 0) [] [] true) with (dstate a 0 eff [] [] true). now rewrite H4.
Qed.

Theorem C28_enumerates_subsets_by_size : forall a depth, -1 <= depth ->
  exists g L, new_dgen a depth = Ok g /\
    (forall c, In c L <-> exists s, (s <= size_limit a depth)%nat /\ combination a s c) /\ StronglySorted shortlex L /\
    dg_calls (length L + 1) g = Ok (map Some L ++ [None]).
Proof.
  intros a depth H. destruct (depth_enumerates a depth H) as (g & L & H1 & H2 & H3 & H4 & _). exists g, L. auto.
Qed.
Print Assumptions C28_enumerates_subsets_by_size.

(** C46 refuted for DepthChoiceGenerator: for every a and depth, asking again after the None raises IndexError
    (ChoiceGenerator keeps answering None, by C27). *)
Theorem C46_depth_next_after_end_raises_refuted : forall a depth g, -1 <= depth -> new_dgen a depth = Ok g ->
  exists k l, dg_calls k g = Ok (l ++ [None]) /\ dg_calls (S k) g = Raise.
Proof.
  intros a depth g H Hg. destruct (depth_enumerates a depth H) as (g' & L & H1 & _ & _ & H4 & H5).
  rewrite Hg in H1. injection H1 as <-. exists (length L + 1)%nat, (map Some L). split; [exact H4|].
  specialize (H5 0%nat). now replace (S (length L + 1)) with (length L + 2 + 0)%nat by lia.
Qed.
Print Assumptions C46_depth_next_after_end_raises_refuted.

(** ChoiceGenerator: once an answer was None all later ones are. *)
Theorem C46_choice_generator_stays_exhausted : forall a b k l, (b <= a)%nat ->
  cg_calls k (new_cgen a b) = Ok (l ++ [None]) ->
  forall m, cg_calls (k + m) (new_cgen a b) = Ok (l ++ repeat None (S m)).
Proof.
  intros a b k l Hab H m. destruct (C27_enumerates_all_combinations a b Hab) as (L & _ & _ & HC).
  rewrite HC in H |- *. injection H as H. destruct k as [|k]; [destruct l; discriminate|].
  rewrite seq_S, map_app in H. cbn [map Nat.add] in H. apply app_inj_tail in H. destruct H as [<- N].
  replace (S k + m)%nat with (k + S m)%nat by lia. rewrite seq_app, map_app. do 2 f_equal. cbn [Nat.add].
  apply nth_error_None in N. generalize (S m). intros q. revert k N. induction q as [|q IH]; intros k N; [reflexivity|].
  cbn [seq map repeat]. f_equal; [now apply nth_error_None|]. apply IH. lia.
Qed.
Print Assumptions C46_choice_generator_stays_exhausted.

Example C28_ex : exists g, new_dgen 3 2 = Ok g /\
  dg_calls 8 g = Ok [Some []; Some [0]; Some [1]; Some [2]; Some [0; 1]; Some [0; 2]; Some [1; 2]; None] /\ dg_calls 9 g = Raise.
Proof. eexists. repeat split; reflexivity. Qed.
