(** minimize: what every run satisfies. *)
From Verif Require Import Base UtilsModel BICModel BICProofs EffectModel VARModel KCIModel HSICModel GPModel.
From Coq Require Import Reals Lra Psatz.
Local Open Scope R_scope.

Lemma gtb_true a b : gtb a b = true <-> b < a.
Proof. unfold gtb. destruct (Rlt_dec b a); split; intros; try lra; try discriminate; reflexivity. Qed.
Lemma gtb_false a b : gtb a b = false <-> a <= b.
Proof. unfold gtb. destruct (Rlt_dec b a); split; intros; try lra; try discriminate; reflexivity. Qed.

Section Run.
Variable f : objective.
(** a point whose value and gradient are those of f *)
Definition valid (p : point) : Prop := let '(X, v, g) := p in f X = Some (v, g).
(** the trace grows by d points, and each of them costs one evaluation *)
Definition grows (M M' i i' : nat) (tr tr' : list rvec) : Prop := exists pts, tr' = pts ++ tr /\ i' = (i + length pts)%nat /\ M = (M' + length pts)%nat.
Lemma grows_refl M i tr : grows M M i i tr tr.
Proof. exists []. cbn. lia || (repeat split; lia). Qed.
Lemma grows_trans M M' M'' i i' i'' tr tr' tr'' : grows M M' i i' tr tr' -> grows M' M'' i' i'' tr' tr'' -> grows M M'' i i'' tr tr''.
Proof. intros (p & -> & -> & ->) (q & -> & -> & ->). exists (q ++ p). rewrite app_length, app_assoc. repeat split; lia. Qed.

Lemma try_eval_spec X s dflt : forall M x3 i tr x3' r M' i' tr', 0 < x3 -> try_eval f X s M x3 dflt i tr = (x3', r, M', i', tr') ->
  0 < x3' /\ grows M M' i i' tr tr' /\ (f (along X x3' s) = Some r /\ (0 < M)%nat /\ (M' < M)%nat \/ r = dflt /\ M' = 0%nat) /\ ((0 < M)%nat -> (i < i')%nat).
Proof.
  induction M as [|M IH]; intros x3 i tr x3' r M' i' tr' H0 E; cbn [try_eval] in E.
  - injection E as <- <- <- <- <-. repeat split; [exact H0 | apply grows_refl | now right | lia].
  - destruct (f (along X x3 s)) as [r0|] eqn:F.
    + injection E as <- <- <- <- <-. split; [exact H0|]. split; [exists [along X x3 s]; cbn; repeat split; lia|]. split; [left; repeat split; [exact F | lia | lia] | lia].
    + apply IH in E; [|lra]. destruct E as (A & (pts & E1 & E2 & E3) & C & D). split; [exact A|]. split; [exists (pts ++ [along X x3 s]); rewrite app_length; cbn; rewrite <- app_assoc; repeat split; [exact E1 | lia | lia]|].
      split; [destruct C as [(C1 & C2 & C3)|C]; [left; repeat split; [exact C1 | lia | lia] | now right]|]. intros _. lia.
Qed.
Lemma next_step_pos f1 d1 f2 d2 x2 : 0 < x2 -> 0 < next_step f1 d1 f2 d2 0 x2.
Proof.
  intros H. unfold next_step, EXT, INT. destruct (cubic_step f1 d1 f2 d2 0 x2) as [x|]; [|lra]. destruct (Rlt_dec x 0); [lra|]. destruct (Rlt_dec (x2 * 3) x); [lra|].
  destruct (Rlt_dec x (x2 + 1 / 10 * (x2 - 0))); lra.
Qed.
Lemma inter_step_pos f0 x2 f2 d2 x4 f4 d4 : 0 <= x2 -> 0 < x4 -> 0 < inter_step f0 x2 f2 d2 x4 f4 d4.
Proof. intros H2 H4. unfold inter_step. eapply Rlt_le_trans; [|apply Rmax_r]. unfold INT. lra. Qed.
Lemma keep_best_spec best X s x3 f3 df3 : valid best -> f (along X x3 s) = Some (f3, df3) \/ pval best <= f3 -> valid (keep_best best X s x3 f3 df3) /\ pval (keep_best best X s x3 f3 df3) <= pval best /\ (f (along X x3 s) = Some (f3, df3) -> pval (keep_best best X s x3 f3 df3) <= f3).
Proof.
  intros V H. unfold keep_best. destruct (Rlt_dec f3 (pval best)) as [L|L]; cbn [pval fst snd].
  - unfold pval in *. cbn [fst snd]. destruct H as [H|H]; [|lra]. repeat split; [exact H | lra | intros; lra].
  - repeat split; [exact V | lra | intros; lra].
Qed.
(** what a line search knows *)
Definition lvalid (X : rvec) (f0 : R) (df0 s : rvec) (l : lsearch) : Prop :=
  0 < l_x3 l /\ valid (l_best l) /\ pval (l_best l) <= f0 /\ l_d3 l = corner (l_df3 l) s /\
  (f (along X (l_x3 l) s) = Some (l_f3 l, l_df3 l) \/ l_f3 l = f0 /\ l_df3 l = df0 /\ l_M l = 0%nat).
Lemma extrapolate_spec X f0 df0 s d0 : forall fuel M x3 best i tr, 0 < x3 -> valid best -> pval best <= f0 -> (0 < M)%nat -> (M <= fuel)%nat ->
  let l := extrapolate fuel f X f0 df0 s d0 x3 M best i tr in
  lvalid X f0 df0 s l /\ grows M (l_M l) i (l_i l) tr (l_tr l) /\ (i < l_i l)%nat /\ (SIG * d0 < l_d3 l \/ f0 + l_x3 l * RHO * d0 < l_f3 l \/ l_M l = 0%nat).
Proof.
  induction fuel as [|fuel IH]; intros M x3 best i tr H0 V P HM HF; [lia|]. cbn zeta. cbn [extrapolate].
  destruct (try_eval f X s M x3 (f0, df0) i tr) as [[[[x3' [f3 df3]] M'] i'] tr'] eqn:E. apply try_eval_spec in E; [|exact H0]. destruct E as (A & G & C & I). specialize (I HM).
  assert (KB : valid (keep_best best X s x3' f3 df3) /\ pval (keep_best best X s x3' f3 df3) <= pval best).
  { destruct (keep_best_spec best X s x3' f3 df3 V) as (K1 & K2 & _); [|now split]. destruct C as [(C & _)|[C _]]; [now left|]. injection C as -> ->. right. exact P. }
  set (best' := keep_best best X s x3' f3 df3) in *. destruct KB as [K1 K2]. destruct (gtb (corner df3 s) (SIG * d0) || gtb f3 (f0 + x3' * RHO * d0) || Nat.eqb M' 0) eqn:B.
  - split; [|split; [exact G|split; [exact I|]]].
    + unfold lvalid. cbn. repeat split; [exact A | exact K1 | lra |]. destruct C as [(C & _)|[C ->]]; [now left|]. injection C as -> ->. right. auto.
    + cbn. apply Bool.orb_true_iff in B. destruct B as [B|B]; [apply Bool.orb_true_iff in B; destruct B as [B|B]; apply gtb_true in B; auto | apply Nat.eqb_eq in B; auto].
  - apply Bool.orb_false_iff in B. destruct B as [_ B]. apply Nat.eqb_neq in B. destruct C as [(C & C2 & C3)|[_ C]]; [|lia].
    specialize (IH M' (next_step f0 d0 f3 (corner df3 s) 0 x3') best' i' tr' (next_step_pos f0 d0 f3 (corner df3 s) x3' A) K1 ltac:(lra) ltac:(lia) ltac:(lia)).
    cbn zeta in IH. destruct IH as (J1 & J2 & J3 & J4). split; [exact J1|]. split; [exact (grows_trans _ _ _ _ _ _ _ _ _ G J2)|]. split; [lia | exact J4].
Qed.
Lemma interpolate_spec X f0 df0 s d0 : forall M x2 f2 d2 p4 l, l_M l = M -> lvalid X f0 df0 s l -> 0 <= x2 -> (forall x4 f4 d4, p4 = Some (x4, f4, d4) -> 0 < x4) ->
  (p4 = None -> SIG * d0 < l_d3 l \/ f0 + l_x3 l * RHO * d0 < l_f3 l \/ l_M l = 0%nat) ->
  match interpolate M f X f0 s d0 x2 f2 d2 p4 l with
  | IDone l' => lvalid X f0 df0 s l' /\ grows M (l_M l') (l_i l) (l_i l') (l_tr l) (l_tr l') /\ pval (l_best l') <= pval (l_best l)
  | IRaised _ => True
  | IUnset => False
  end.
Proof.
  induction M as [|M IH]; intros x2 f2 d2 p4 l EM V H2 H4 HN; cbn [interpolate]; [rewrite <- EM; repeat split; try apply V; try apply grows_refl; lra|].
  destruct (wolfe f0 d0 l) eqn:W; [|rewrite <- EM; repeat split; try apply V; try apply grows_refl; lra].
  destruct V as (V1 & V2 & V3 & V4 & V5). set (left := gtb (l_d3 l) 0 || gtb (l_f3 l) (f0 + l_x3 l * RHO * d0)).
  assert (L : left = false -> p4 <> None).
  { unfold left. intros B E. apply Bool.orb_false_iff in B. destruct B as [B1 B2]. apply gtb_false in B1, B2. unfold wolfe in W. apply Bool.orb_true_iff in W.
    destruct W as [W|W]; apply gtb_true in W; [|lra]. rewrite Rabs_left1 in W by exact B1. destruct (HN E) as [H|[H|H]]; [lra | lra | lia]. }
  assert (STEP : forall x2' f2' d2' x4 f4 d4, 0 <= x2' -> 0 < x4 ->
    match (let x3 := inter_step f0 x2' f2' d2' x4 f4 d4 in let tr := along X x3 s :: l_tr l in
           match f (along X x3 s) with None => IRaised tr
           | Some (f3, df3) => interpolate M f X f0 s d0 x2' f2' d2' (Some (x4, f4, d4)) (mkL x3 f3 df3 (corner df3 s) M (keep_best (l_best l) X s x3 f3 df3) (S (l_i l)) tr) end)
    with IDone l' => lvalid X f0 df0 s l' /\ grows (S M) (l_M l') (l_i l) (l_i l') (l_tr l) (l_tr l') /\ pval (l_best l') <= pval (l_best l) | IRaised _ => True | IUnset => False end).
  { intros x2' f2' d2' x4 f4 d4 G2 G4. cbn zeta. pose proof (inter_step_pos f0 x2' f2' d2' x4 f4 d4 G2 G4) as G3. set (x3 := inter_step f0 x2' f2' d2' x4 f4 d4) in *.
    destruct (f (along X x3 s)) as [[f3 df3]|] eqn:F; [|exact I]. destruct (keep_best_spec (l_best l) X s x3 f3 df3 V2 (or_introl F)) as (K1 & K2 & _).
    specialize (IH x2' f2' d2' (Some (x4, f4, d4)) (mkL x3 f3 df3 (corner df3 s) M (keep_best (l_best l) X s x3 f3 df3) (S (l_i l)) (along X x3 s :: l_tr l)) eq_refl).
    match type of IH with ?A -> _ => assert (HA : A) by (unfold lvalid; cbn; repeat split; [exact G3 | exact K1 | lra | now left]); specialize (IH HA) end. cbn in IH. specialize (IH G2).
    match type of IH with ?A -> ?B -> _ => assert (HA2 : A) by (intros ? ? ? [= <- _ _]; exact G4); specialize (IH HA2); assert (HB : B) by discriminate; specialize (IH HB) end.
    destruct (interpolate M f X f0 s d0 x2' f2' d2' (Some (x4, f4, d4)) _) as [l'| |]; [|exact I|exact IH]. destruct IH as (I1 & I2 & I3). split; [exact I1|]. split; [|lra].
    destruct I2 as (pts & E1 & E2 & E3). exists (pts ++ [along X x3 s]). rewrite app_length. cbn. rewrite <- app_assoc. repeat split; [exact E1 | lia | lia]. }
  destruct left eqn:EL; [now apply STEP|]. destruct p4 as [[[x4 f4] d4]|]; [|exfalso; now apply L]. apply STEP; [lra | exact (H4 _ _ _ eq_refl)].
Qed.
(** the whole run *)
Lemma min_loop_spec tiny dim N finit : 0 < tiny -> forall fuel cur s d0 x3 i failed tr, (N <= fuel + i)%nat -> valid cur -> pval cur <= finit -> d0 <= 0 -> d0 = corner (snd cur) s -> 0 < x3 -> i = length tr -> (i <= N)%nat ->
  match min_loop fuel tiny f dim N cur s d0 x3 i failed tr with
  | MDone p i' tr' => valid p /\ pval p <= finit /\ i' = length tr' /\ (i' <= N)%nat /\ exists pts, tr' = pts ++ tr
  | MUnset => False
  | _ => True
  end.
Proof.
  intros HT. induction fuel as [|fuel IH]; intros cur s d0 x3 i failed tr HF V P D DC H0 EI HN; cbn [min_loop].
  - destruct (Nat.ltb_spec i N); [lia|]. cbn [negb]. repeat split; try assumption. now exists [].
  - destruct (Nat.ltb_spec i N) as [L|L]; cbn [negb]; [|repeat split; try assumption; now exists []].
    destruct cur as [[X f0] df0]. cbn [fst snd] in DC. unfold pval in P. cbn [fst snd] in P. set (M := Nat.min MAXE (N - i)).
    assert (HM : (0 < M)%nat) by (unfold M, MAXE; lia). pose proof (extrapolate_spec X f0 df0 s d0 M M x3 (X, f0, df0) i tr H0 V (Rle_refl _) HM (le_n _)) as ES. cbn zeta in ES.
    set (l := extrapolate M f X f0 df0 s d0 x3 M (X, f0, df0) i tr) in *. destruct ES as (E1 & E2 & E3 & E4).
    pose proof (interpolate_spec X f0 df0 s d0 (l_M l) 0 f0 d0 None l eq_refl E1 (Rle_refl 0) ltac:(discriminate) (fun _ => E4)) as IS.
    destruct (interpolate (l_M l) f X f0 s d0 0 f0 d0 None l) as [l'| |]; [|exact I|exact IS]. destruct IS as (I1 & I2 & I3).
    pose proof (grows_trans _ _ _ _ _ _ _ _ _ E2 I2) as (pts & G1 & G2 & G3). destruct I1 as (V1 & V2 & V3 & V4 & V5).
    assert (LI : l_i l' = length (l_tr l')) by (rewrite G1, app_length; lia). assert (LN : (l_i l' <= N)%nat) by (unfold M in G3; lia).
    assert (LT : (i < l_i l')%nat) by (destruct I2 as (q & _ & Q & _); lia).
    destruct (gtb (- SIG * d0) (Rabs (l_d3 l')) && gtb (f0 + l_x3 l' * RHO * d0) (l_f3 l')) eqn:B.
    + apply andb_prop in B. destruct B as [B1 B2]. apply gtb_true in B1, B2. unfold SIG, RHO, SIG in *. pose proof (Rabs_pos (l_d3 l')). assert (D' : d0 < 0) by lra.
      assert (Q : l_x3 l' * (1 / 10 / 2) * d0 < 0) by nra. destruct (Nat.eqb dim 1); [|exact I]. destruct V5 as [V5|[V5 _]]; [|lra].
      match goal with |- context [gtb ?q 0] => destruct (gtb q 0) eqn:BD end.
      * match goal with |- match min_loop fuel tiny f dim N ?c ?s' ?d' ?x' ?i' ?fl ?tr' with _ => _ end => specialize (IH c s' d' x' i' fl tr') end.
        assert (SQ : 0 <= corner (l_df3 l') (l_df3 l')) by exact (Rle_0_sqr _).
        match type of IH with ?A1 -> ?A2 -> ?A3 -> ?A4 -> ?A5 -> ?A6 -> ?A7 -> ?A8 -> _ =>
          assert (H1 : A1) by lia; assert (H2 : A2) by exact V5; assert (H3 : A3) by (unfold pval; cbn [fst snd]; lra); assert (H4 : A4) by lra; assert (H5 : A5) by (cbn [snd]; unfold corner; ring);
          assert (H6 : A6); [|specialize (IH H1 H2 H3 H4 H5 H6 LI LN)] end.
        { apply Rmult_lt_0_compat; [exact V1|]. apply Rmin_glb_lt; [unfold RATIO; lra|]. replace (d0 / (- corner (l_df3 l') (l_df3 l') - tiny)) with ((- d0) / (corner (l_df3 l') (l_df3 l') + tiny)) by (field; lra).
          apply Rdiv_lt_0_compat; lra. }
        destruct (min_loop fuel tiny f dim N _ _ _ _ _ _ _) as [p i' tr'| | |]; try exact IH. destruct IH as (J1 & J2 & J3 & J4 & q & J5). repeat split; try assumption. exists (q ++ pts). rewrite <- app_assoc. now rewrite J5, G1.
      * apply gtb_false in BD.
        match goal with |- match min_loop fuel tiny f dim N ?c ?s' ?d' ?x' ?i' ?fl ?tr' with _ => _ end => specialize (IH c s' d' x' i' fl tr') end.
        match type of IH with ?A1 -> ?A2 -> ?A3 -> ?A4 -> ?A5 -> ?A6 -> ?A7 -> ?A8 -> _ =>
          assert (H1 : A1) by lia; assert (H2 : A2) by exact V5; assert (H3 : A3) by (unfold pval; cbn [fst snd]; lra); assert (H4 : A4) by exact BD; assert (H5 : A5) by reflexivity;
          assert (H6 : A6); [|specialize (IH H1 H2 H3 H4 H5 H6 LI LN)] end.
        { apply Rmult_lt_0_compat; [exact V1|]. apply Rmin_glb_lt; [unfold RATIO; lra|]. match goal with |- 0 < d0 / (?q - tiny) => replace (d0 / (q - tiny)) with ((- d0) / (tiny - q)) by (field; lra) end.
          apply Rdiv_lt_0_compat; lra. }
        destruct (min_loop fuel tiny f dim N _ _ _ _ _ _ _) as [p i' tr'| | |]; try exact IH. destruct IH as (J1 & J2 & J3 & J4 & q & J5). repeat split; try assumption. exists (q ++ pts). rewrite <- app_assoc. now rewrite J5, G1.
    + destruct (failed || Nat.ltb N (l_i l')).
      * repeat split; [exact V2 | lra | exact LI | exact LN |]. now exists pts.
      * match goal with |- match min_loop fuel tiny f dim N ?c ?s' ?d' ?x' ?i' ?fl ?tr' with _ => _ end => specialize (IH c s' d' x' i' fl tr') end.
        assert (SQ : forall w, 0 <= corner w w) by (intros w; exact (Rle_0_sqr _)).
        match type of IH with ?A1 -> ?A2 -> ?A3 -> ?A4 -> ?A5 -> ?A6 -> ?A7 -> ?A8 -> _ =>
          assert (H1 : A1) by lia; assert (H2 : A2) by exact V2; assert (H3 : A3) by lra; assert (H4 : A4) by (match goal with |- - corner ?w ?w <= 0 => specialize (SQ w) end; lra); assert (H5 : A5) by (unfold corner; ring);
          assert (H6 : A6); [|specialize (IH H1 H2 H3 H4 H5 H6 LI LN)] end.
        { match goal with |- 0 < 1 / (1 - - corner ?w ?w) => specialize (SQ w) end. apply Rdiv_lt_0_compat; lra. }
        destruct (min_loop fuel tiny f dim N _ _ _ _ _ _ _) as [p i' tr'| | |]; try exact IH. destruct IH as (J1 & J2 & J3 & J4 & q & J5). repeat split; try assumption. exists (q ++ pts). rewrite <- app_assoc. now rewrite J5, G1.
Qed.
(** a coordinate along which the direction is 0 does not move *)
Lemma along_0 X t (s : rvec) j : s j = 0 -> along X t s j = X j.
Proof. intros H. unfold along. rewrite H. ring. Qed.
Definition at_ (p : point) (j : nat) : R := fst (fst p) j.
Lemma keep_best_coord best X s x3 f3 df3 j : s j = 0 -> at_ best j = X j -> at_ (keep_best best X s x3 f3 df3) j = X j.
Proof. intros H B. unfold keep_best. destruct (Rlt_dec f3 (pval best)); [unfold at_; cbn; now apply along_0 | exact B]. Qed.
Lemma extrapolate_coord X f0 df0 s d0 j : s j = 0 -> forall fuel M x3 best i tr, at_ best j = X j -> at_ (l_best (extrapolate fuel f X f0 df0 s d0 x3 M best i tr)) j = X j.
Proof.
  intros Hs. induction fuel as [|fuel IH]; intros M x3 best i tr B; cbn [extrapolate]; destruct (try_eval f X s M x3 (f0, df0) i tr) as [[[[x3' [f3 df3]] M'] i'] tr'].
  - destruct (_ || _ || _); cbn; now apply keep_best_coord.
  - destruct (_ || _ || _); [cbn; now apply keep_best_coord|]. apply IH. now apply keep_best_coord.
Qed.
Lemma interpolate_coord X f0 s d0 j : s j = 0 -> forall M x2 f2 d2 p4 l, at_ (l_best l) j = X j ->
  match interpolate M f X f0 s d0 x2 f2 d2 p4 l with IDone l' => at_ (l_best l') j = X j | _ => True end.
Proof.
  intros Hs. induction M as [|M IH]; intros x2 f2 d2 p4 l B; cbn [interpolate]; [exact B|]. destruct (wolfe f0 d0 l); [|exact B].
  destruct (gtb (l_d3 l) 0 || gtb (l_f3 l) (f0 + l_x3 l * RHO * d0)).
  - destruct (f (along X _ s)) as [[f3 df3]|]; [|exact I]. apply IH. cbn. now apply keep_best_coord.
  - destruct p4 as [[[x4 f4] d4]|]; [|exact I]. destruct (f (along X _ s)) as [[f3 df3]|]; [|exact I]. apply IH. cbn. now apply keep_best_coord.
Qed.
Variable Zc : nat -> Prop.
Hypothesis Z0 : Zc 0%nat.
Hypothesis flat : forall X v g, f X = Some (v, g) -> forall j, Zc j -> g j = 0.
Lemma min_loop_flat tiny dim N : forall fuel cur s x3 i (failed : bool) tr, (N <= fuel + i)%nat -> valid cur -> (forall j, Zc j -> s j = 0) -> 0 < x3 -> i = length tr -> (i <= N)%nat ->
  match min_loop fuel tiny f dim N cur s 0 x3 i failed tr with
  | MDone p i' tr' => (forall j, Zc j -> at_ p j = at_ cur j) /\ (length tr' <= length tr + (if failed then 20 else 40))%nat
  | MMatrix => False
  | _ => True
  end.
Proof.
  induction fuel as [|fuel IH]; intros cur s x3 i failed tr HF V HS H0 EI HN; cbn [min_loop].
  - destruct (Nat.ltb_spec i N); [lia|]. cbn [negb]. split; [reflexivity | destruct failed; lia].
  - destruct (Nat.ltb_spec i N) as [L|L]; cbn [negb]; [|split; [reflexivity | destruct failed; lia]].
    destruct cur as [[X f0] df0]. set (M := Nat.min MAXE (N - i)). assert (HM : (0 < M)%nat) by (unfold M, MAXE; lia).
    pose proof (extrapolate_spec X f0 df0 s 0 M M x3 (X, f0, df0) i tr H0 V (Rle_refl _) HM (le_n _)) as ES. cbn zeta in ES.
    assert (EC : forall j, Zc j -> at_ (l_best (extrapolate M f X f0 df0 s 0 x3 M (X, f0, df0) i tr)) j = X j) by (intros j Hj; apply extrapolate_coord; [now apply HS | reflexivity]).
    set (l := extrapolate M f X f0 df0 s 0 x3 M (X, f0, df0) i tr) in *. destruct ES as (E1 & E2 & E3 & E4).
    pose proof (interpolate_spec X f0 df0 s 0 (l_M l) 0 f0 0 None l eq_refl E1 (Rle_refl 0) ltac:(discriminate) (fun _ => E4)) as IS.
    assert (IC : forall j, Zc j -> match interpolate (l_M l) f X f0 s 0 0 f0 0 None l with IDone l' => at_ (l_best l') j = X j | _ => True end) by (intros j Hj; apply interpolate_coord; [now apply HS | now apply EC]).
    destruct (interpolate (l_M l) f X f0 s 0 0 f0 0 None l) as [l'| |]; [|exact I|exact I]. destruct IS as (I1 & I2 & I3).
    pose proof (grows_trans _ _ _ _ _ _ _ _ _ E2 I2) as (pts & G1 & G2 & G3). destruct I1 as (V1 & V2 & V3 & V4 & V5).
    assert (LI : l_i l' = length (l_tr l')) by (rewrite G1, app_length; lia). assert (LN : (l_i l' <= N)%nat) by (unfold M in G3; lia).
    assert (LT : (i < l_i l')%nat) by (destruct I2 as (q & _ & Q & _); lia). assert (LP : (length pts <= 20)%nat) by (unfold M, MAXE in G3; lia).
    replace (gtb (- SIG * 0) (Rabs (l_d3 l'))) with false by (symmetry; apply gtb_false; pose proof (Rabs_pos (l_d3 l')); lra). cbn [andb].
    destruct failed; cbn [orb].
    + split; [exact IC | rewrite G1, app_length; lia].
    + destruct (Nat.ltb_spec N (l_i l')); [lia|]. assert (DZ : forall j, Zc j -> snd (l_best l') j = 0).
      { intros j Hj. destruct (l_best l') as [[Xb vb] gb]. cbn. exact (flat Xb vb gb V2 j Hj). }
      assert (S0 : - corner (fun j => - snd (l_best l') j) (fun j => - snd (l_best l') j) = 0) by (unfold corner; rewrite (DZ _ Z0); ring). rewrite S0.
      specialize (IH (l_best l') (fun j => - snd (l_best l') j) (1 / (1 - 0)) (l_i l') true (l_tr l') ltac:(lia) V2).
      match type of IH with ?A -> ?B -> _ => assert (HA : A) by (intros j Hj; rewrite (DZ j Hj); ring); assert (HB : B) by lra; specialize (IH HA HB LI LN) end.
      destruct (min_loop fuel tiny f dim N _ _ _ _ _ _ _) as [p i' tr'| | |]; try exact IH. destruct IH as [J1 J2]. split; [|rewrite G1, app_length in J2; lia].
      intros j Hj. rewrite (J1 j Hj). exact (IC j Hj).
Qed.
End Run.
