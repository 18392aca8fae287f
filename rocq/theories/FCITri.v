(** FCI without latent variables and without triangles: the whole algorithm only writes what the DAG says. *)
From Verif Require Import Base EdgeModel EdgeProofs GraphModel GraphSpec GraphProofs DsepSpec DsepProofs DsepTheory RankLib SkelModel SkelSpec SkelProofs SkelSep PCModel MeekSpec MeekProofs
  UtilsModel UtilsProofs SkelMain SkelProps FCIModel FCISpec FCIProofs FCIRules FCILoops FCIFront FCISep FCITotal FCISound FCISuff.
From Coq Require Import Permutation.
Local Open Scope Z_scope.

(** ** Circle paths have no repeated node *)
Section CP.
Variable n : nat.
Variable g : ggraph.
Hypothesis HM : mixed n g.
Lemma circ_sym x y : circ n g x y -> circ n g y x.
Proof. unfold circ. tauto. Qed.
Lemma cp_fold ex t path : (t < n)%nat -> forall l V Q V' Q', (forall u, In u l -> (u < n)%nat /\ gm g t u <> 0) ->
  foldO (cp_step g ex t path) l (V, Q) = Ret (V', Q') ->
  exists W, V' = V ++ W /\ Q' = Q ++ map (fun u => (u, path ++ [u])) W /\ NoDup W /\ (forall u, In u W -> ~ In u V /\ ~ In u ex /\ circ n g t u) /\
    forall u, In u l -> circ n g t u -> In u ex \/ In u V'.
Proof.
  intros Ht. induction l as [|x l IH]; intros V Q V' Q' HL E; cbn [foldO] in E.
  - injection E as <- <-. exists []. rewrite !app_nil_r. split; [reflexivity|]. split; [reflexivity|]. split; [constructor|]. split; [easy|easy].
  - apply obind_inv in E. destruct E as ((V1, Q1) & E1 & E2). destruct (HL x (or_introl eq_refl)) as [Hx Nx].
    destruct (IH V1 Q1 V' Q' (fun u Hu => HL u (or_intror Hu)) E2) as (W & EV & EQ & NW & PW & CW).
    assert (ST : (V1 = V /\ Q1 = Q /\ (circ n g t x -> In x ex \/ In x V)) \/ (V1 = V ++ [x] /\ Q1 = Q ++ [(x, path ++ [x])] /\ ~ In x V /\ ~ In x ex /\ circ n g t x)).
    { destruct (cp_step_spec n g ex t path V Q x HM Ht Hx Nx) as (V2 & Q2 & E3 & D). assert (EE : (V2, Q2) = (V1, Q1)) by congruence. injection EE as -> ->.
      destruct D as [[-> ->]|D]; [left|right; exact D]. do 2 (split; [reflexivity|]). intros (_ & _ & C1 & C2). unfold cp_step in E1.
      destruct (mx_edge n g HM t x Ht Hx Nx) as (a & b & Ma & Mb & F1 & F2 & F3). rewrite F3 in E1.
      assert (a = CIRCLE) by (destruct Ma as [-> | [-> | ->]]; cbn in F1; congruence). assert (b = CIRCLE) by (destruct Mb as [-> | [-> | ->]]; cbn in F2; congruence). subst a b.
      unfold traverse_circle, Edge in E1. cbn [pointing_left ep_eqb ev Z.eqb Pos.eqb andb orb e_node1 e_node2 e_end1 e_end2 fst snd] in E1. rewrite Nat.eqb_refl in E1.
      destruct (memb x ex) eqn:EX; [left; now apply memb_In|]. destruct (memb x V) eqn:EX2; [right; now apply memb_In|]. cbn [orb] in E1. injection E1 as E1 _.
      exfalso. apply (f_equal (@length nat)) in E1. rewrite app_length in E1. cbn in E1. lia. }
    destruct ST as [(-> & -> & ST)|(-> & -> & S1 & S2 & S3)].
    + exists W. do 4 (split; [assumption|]). intros u [<-|Hu] C; [|auto]. destruct (ST C); [auto|]. right. rewrite EV. apply in_or_app. now left.
    + exists (x :: W). cbn [map]. rewrite EV, EQ, <- !app_assoc. split; [reflexivity|]. split; [reflexivity|]. split; [constructor; [|exact NW]|].
      { intros Q0. destruct (PW x Q0) as [K _]. apply K. apply in_or_app. right. now left. }
      split. { intros u [<-|Hu]; [auto|]. destruct (PW u Hu) as (K1 & K2 & K3). split; [|auto]. intros Q0. apply K1. apply in_or_app. now left. }
      intros u [<-|Hu] C; [right; apply in_or_app; right; now left|]. destruct (CW u Hu C) as [K|K]; [auto|]. right. rewrite EV, <- app_assoc in K. exact K.
Qed.
Definition pok (from : nat) (ex V : list nat) (v : nat) (p : list nat) : Prop :=
  exists rest, p = from :: rest /\ NoDup rest /\ incl rest V /\ (forall z, In z rest -> ~ In z ex) /\ (In from rest -> v = from).
Lemma pok_mono from ex V W v p : incl V W -> pok from ex V v p -> pok from ex W v p.
Proof. intros HI (r & H1 & H2 & H3 & H4 & H5). exists r. split; [exact H1|]. split; [exact H2|]. split; [intros z Hz; auto|]. auto. Qed.
Lemma cp_loop_nodup from to ex : from <> to -> forall fuel V Q p, (forall v q, In (v, q) Q -> (v < n)%nat /\ pok from ex V v q) -> (forall u, circ n g from u -> In u ex \/ In u V) ->
  cp_loop fuel g to ex V Q = Ret (Some p) -> exists rest, p = from :: rest /\ NoDup (from :: rest) /\ forall z, In z rest -> ~ In z ex.
Proof.
  intros Nft. induction fuel as [|f IH]; intros V Q p HQ HF E; destruct Q as [|(t, path) Q]; cbn [cp_loop] in E; try discriminate.
  destruct (HQ t path (or_introl eq_refl)) as [Ht (rest & EP & P1 & P2 & P3 & P4)]. destruct (Nat.eqb_spec t to) as [->|Nt].
  - destruct (is_uncovered_path g path); [|discriminate]. injection E as <-. exists rest. split; [exact EP|]. split; [|exact P3]. constructor; [|exact P1]. intros Q0. apply P4 in Q0. congruence.
  - apply obind_inv in E. destruct E as ((V', Q') & E1 & E2). unfold cp_push in E1. cbn [fst snd] in E2.
    destruct (cp_fold ex t path Ht (get_adjacent_nodes g t) V Q V' Q') as (W & EV & EQ & NW & PW & _); [intros u Hu; now apply (in_adjn n g HM) in Hu|exact E1|].
    apply (IH V' Q' p); [| |exact E2].
    + intros v q Hv. rewrite EQ in Hv. apply in_app_or in Hv. destruct Hv as [Hv|Hv].
      * destruct (HQ v q (or_intror Hv)) as [Hvn K]. split; [exact Hvn|]. eapply pok_mono; [|exact K]. rewrite EV. intros z Hz. apply in_or_app. now left.
      * apply in_map_iff in Hv. destruct Hv as (u & [= <- <-] & Hu). destruct (PW u Hu) as (K1 & K2 & K3). split; [apply K3|].
        assert (Ntf : t <> from). { intros ->. destruct (HF u K3); contradiction. }
        exists (rest ++ [u]). rewrite EP. split; [reflexivity|]. split; [apply Permutation_NoDup with (u :: rest); [apply Permutation_cons_append|constructor; [intros Q0; apply K1; auto|exact P1]]|].
        split; [intros z Hz; apply in_app_or in Hz; rewrite EV; apply in_or_app; destruct Hz as [Hz|[<-|[]]]; [left; auto|right; exact Hu]|].
        split; [intros z Hz; apply in_app_or in Hz; destruct Hz as [Hz|[<-|[]]]; auto|].
        intros Q0. apply in_app_or in Q0. destruct Q0 as [Q0|[Q0|[]]]; [|exact Q0]. apply P4 in Q0. contradiction.
    + intros u C. destruct (HF u C) as [K|K]; [auto|]. right. rewrite EV. apply in_or_app. now left.
Qed.
Lemma circle_path_nodup fuel from to ex p : (from < n)%nat -> from <> to -> uncovered_circle_path fuel g from to ex = Ret (Some p) ->
  exists rest, p = from :: rest /\ NoDup (from :: rest) /\ forall z, In z rest -> ~ In z ex.
Proof.
  intros Hf N E. unfold uncovered_circle_path in E. apply obind_inv in E. destruct E as ((V, Q) & E1 & E2). unfold cp_push in E1. cbn [fst snd] in E2.
  destruct (cp_fold ex from [from] Hf (get_adjacent_nodes g from) [] [] V Q) as (W & EV & EQ & NW & PW & CW); [intros u Hu; now apply (in_adjn n g HM) in Hu|exact E1|].
  cbn [app] in EV, EQ. subst V Q. refine (cp_loop_nodup from to ex N fuel W _ p _ _ E2).
  - intros v q Hv. apply in_map_iff in Hv. destruct Hv as (u & [= <- <-] & Hu). destruct (PW u Hu) as (_ & K2 & K3). split; [apply K3|].
    exists [u]. split; [reflexivity|]. split; [repeat constructor; easy|]. split; [intros z [<-|[]]; exact Hu|]. split; [intros z [<-|[]]; exact K2|]. intros [Q0|[]]; auto.
  - intros u C. apply CW; [|exact C]. apply (in_adjn n g HM); [exact Hf|]. destruct C as (_ & Hu & C & _). split; [exact Hu|]. lia.
Qed.
End CP.

(** ** A closed chain without repetition has a sink with two different neighbours *)
Lemma consecutive_in p l1 u v l2 : p = l1 ++ u :: v :: l2 -> In (u, v) (consecutive p).
Proof.
  revert p. induction l1 as [|x l1 IH]; intros p ->; [now left|]. cbn [app]. destruct l1 as [|y l1]; cbn; [right; now left|]. right. exact (IH _ eq_refl).
Qed.
Lemma max_rank (r : nat -> nat) : forall l, l <> [] -> exists m, In m l /\ forall z, In z l -> (r z <= r m)%nat.
Proof.
  induction l as [|x l IH]; [easy|]. intros _. destruct l as [|y l]; [exists x; split; [now left|intros z [<-|[]]; lia]|].
  destruct (IH ltac:(discriminate)) as (m & Hm & H). destruct (Nat.le_ge_cases (r x) (r m)) as [L|L].
  - exists m. split; [now right|]. intros z [<-|Hz]; auto.
  - exists x. split; [now left|]. intros z [<-|Hz]; [lia|]. specialize (H z Hz). lia.
Qed.
Lemma cycle_sink (r : nat -> nat) (R : nat -> nat -> Prop) a b p : (forall x y, R x y -> R y x) -> NoDup (a :: p ++ [b]) -> p <> [] ->
  (forall x y, In (x, y) (consecutive (a :: p ++ [b])) -> R x y) -> R b a ->
  exists x m y, x <> y /\ R x m /\ R y m /\ (r x <= r m)%nat /\ (r y <= r m)%nat.
Proof.
  intros SY ND Np HR Rba. destruct (max_rank r (a :: p ++ [b])) as (m & Hm & HX); [discriminate|].
  apply in_split in Hm. destruct Hm as (l1 & l2 & E).
  destruct (@exists_last _ p Np) as (p' & d & Ep). destruct p as [|c p0] eqn:EP; [easy|].
  destruct l1 as [|u l1].
  - cbn [app] in E. injection E as <- E2. exists b, a, c. split; [|split; [exact Rba|split]].
    + intros ->. inversion ND as [|? ? _ ND2]. inversion ND2 as [|? ? NN _]. apply NN. apply in_or_app. right. now left.
    + apply SY. apply HR. now left.
    + split; apply HX; [right; apply in_or_app; right; now left|right; now left].
  - destruct (@exists_last _ (u :: l1)) as (k & x & Ek); [discriminate|]. rewrite Ek, <- app_assoc in E. cbn [app] in E. destruct l2 as [|y l2].
    + assert (PE : a :: (c :: p0) ++ [b] = (a :: p') ++ d :: [b]) by (rewrite Ep, <- app_assoc; reflexivity).
      pose proof E as E3. change (c :: p0 ++ [b]) with ((c :: p0) ++ [b]) in E3. rewrite PE in E3. change (d :: [b]) with ([d] ++ [b]) in E3. change (x :: [m]) with ([x] ++ [m]) in E3. rewrite !app_assoc in E3.
      apply app_inj_tail in E3. destruct E3 as [E3 <-]. apply app_inj_tail in E3. destruct E3 as [E3 <-].
      exists a, b, d. split; [|split; [now apply SY|split]].
      * intros <-. inversion ND as [|? ? NN _]. apply NN. change (c :: p0 ++ [b]) with ((c :: p0) ++ [b]). rewrite Ep. apply in_or_app. left. apply in_or_app. right. now left.
      * apply HR. eapply consecutive_in. exact PE.
      * split; apply HX; rewrite PE; [now left|apply in_or_app; right; now left].
    + exists x, m, y. split; [|split; [|split]].
      * intros ->. pose proof (eq_ind _ (@NoDup nat) ND _ E) as ND1. clear ND; rename ND1 into ND. apply NoDup_remove_2 with (l := k) (l' := m :: y :: l2) (a := y) in ND. apply ND. apply in_or_app. right. right. now left.
      * apply HR. eapply consecutive_in. exact E.
      * apply SY. apply HR. apply (consecutive_in _ (k ++ [x]) m y l2). rewrite <- app_assoc. exact E.
      * split; apply HX; refine (eq_ind_r (fun l => In _ l) _ E); apply in_or_app; right; [now left|right; right; now left].
Qed.

Lemma consecutive_ends c rest b : consecutive (c :: rest ++ [b]) = consecutive (c :: rest) ++ [(last (c :: rest) 0%nat, b)].
Proof. exact (consecutive_snoc (c :: rest) b ltac:(discriminate)). Qed.

Section Tri.
Variable n : nat.
Variable D : ggraph.
Variable ind : nat -> nat -> list nat -> bool.
Variable forb : nat -> nat -> bool.
Variable so : list nat -> list nat.
Hypothesis HO : latent_oracle n D ind.
Variable g0 : ggraph.
Hypothesis HA : forall x y, (x < n)%nat -> (y < n)%nat -> adj g0 x y -> adjacent D x y.
Variable sep : sepsets.
Hypothesis HSG : seps_good n D g0 sep.
Hypothesis HT : forall x y z, adjacent D x y -> adjacent D y z -> adjacent D x z -> False.
Notation keep := (keep n D).

Lemma no_circle_cycle g a b p : keep g0 g -> NoDup (a :: p ++ [b]) -> p <> [] -> (forall x y, In (x, y) (consecutive (a :: p ++ [b])) -> circ n g x y) -> circ n g b a -> False.
Proof.
  intros K ND Np HC Cba. pose proof K as (HM & SA & (HS & TT) & TL). pose proof (lo_dag n D ind HO) as HD. destruct (topological_rank D) as (r & Hr); [apply HD|].
  destruct (cycle_sink r (circ n g) a b p (circ_sym n g) ND Np HC Cba) as (x & m & y & Nxy & Cx & Cy & Lx & Ly).
  assert (AD : forall u v, circ n g u v -> adjacent D u v). { intros u v (Hu & Hv & C1 & C2). apply HA; auto. apply (keep_adj n D g0 g u v K Hu Hv). unfold adj. lia. }
  assert (ED : forall u, circ n g u m -> (r u <= r m)%nat -> dedge D u m). { intros u C L. destruct (AD u m C) as [E|E]; [exact E|]. apply Hr in E. lia. }
  pose proof (ED x Cx Lx) as Ex. pose proof (ED y Cy Ly) as Ey. pose proof Cx as (Hx & Hm & C1 & C2). pose proof Cy as (Hy & _ & C3 & C4).
  assert (NR : forall u, dedge D u m -> ~ reach (dedge D) m u) by (intros u E R; destruct HD as (_ & AC & _); apply (AC u); exists m; auto).
  destruct (TT x m y Hx Hm Hy Nxy) as [[A _]|[R|R]].
  - unfold adj; lia.
  - unfold adj; lia.
  - intros J. apply (HT x m y); [now apply AD|apply AD, circ_sym, Cy|]. apply HA; auto. now apply (keep_adj n D g0 g x y K Hx Hy).
  - unfold arrow_at in A. lia.
  - exact (NR x Ex R).
  - exact (NR y Ey R).
Qed.
Lemma R5_still fuel s s' : (n < fuel)%nat -> keep g0 (fst s) -> ruleR5 fuel s = Ret s' -> s' = s.
Proof.
  intros HF K E. pose proof K as (HM & _). unfold ruleR5 in E. rewrite (mx_n _ _ HM) in E. revert E. apply (foldO_keep _ (fun s' => s' = s)); [reflexivity|].
  intros s1 b s2 Hb ->. apply in_seq0 in Hb. apply (foldO_keep _ (fun s' => s' = s)); [reflexivity|]. intros s3 a s4 Hin ->.
  apply (in_into n _ HM) in Hin; [|apply mkC|exact Hb]. destruct Hin as [Ha C1]. cbn [ev] in C1. unfold r5_step. cbn zeta. destruct (epis (fst s) b a CIRCLE) eqn:E1; [|now intros [= <-]].
  apply (epis_iff n _ HM) in E1; [|apply mkC|exact Hb|exact Ha]. cbn [ev] in E1. apply (foldO_keep _ (fun s' => s' = s)); [reflexivity|].
  intros s5 (c, d) s6 Hcd ->. apply in_flat_map in Hcd. destruct Hcd as (c' & Hc' & Hcd). destruct (is_adjacent_to (fst s) b c') eqn:Nbc; [easy|]. apply in_flat_map in Hcd. destruct Hcd as (d' & Hd' & Hcd).
  destruct (is_adjacent_to (fst s) a d') eqn:Nad; [easy|]. destruct Hcd as [[= -> ->]|[]].
  assert (CN : forall v u, (v < n)%nat -> In u (circle_nbrs (fst s) v a b) -> circ n (fst s) v u /\ u <> a /\ u <> b).
  { intros v u Hv Hu. unfold circle_nbrs in Hu. apply filter_In in Hu. destruct Hu as [Hu G]. apply (in_adjn n _ HM) in Hu; [|exact Hv]. destruct Hu as [Hu _].
    apply andb_true_iff in G. destruct G as [G G4]. apply andb_true_iff in G. destruct G as [G G3]. apply andb_true_iff in G. destruct G as [G1 G2].
    apply negb_true_iff, Nat.eqb_neq in G1. apply negb_true_iff, Nat.eqb_neq in G2. apply (epis_iff n _ HM) in G3; [|apply mkC|exact Hu|exact Hv]. apply (epis_iff n _ HM) in G4; [|apply mkC|exact Hv|exact Hu].
    cbn [ev] in G3, G4. unfold circ. auto. }
  destruct (CN a c Ha Hc') as (Cac & Nca & Ncb). destruct (CN b d Hb Hd') as (Cbd & Nda & Ndb). pose proof Cac as (_ & Hc & _).
  assert (Ncd : c <> d). { intros ->. apply adj_no in Nbc. destruct Cbd as (_ & _ & Q & Q2). lia. }
  unfold r5_pair. cbn [fst snd]. destruct (circle_path_spec n fuel (fst s) c d [a; b] HM Hc HF) as (o & EO & HP). rewrite EO. cbn [obind]. destruct o as [p|]; [|now intros [= <-]].
  exfalso. destruct (HP p eq_refl) as [(P1 & P2 & P3 & P4) _]. destruct (circle_path_nodup n (fst s) HM fuel c d [a; b] p Hc Ncd EO) as (rest & -> & ND & AV).
  apply (no_circle_cycle (fst s) a b (c :: rest) K).
  - constructor.
    + intros Q. apply in_app_or in Q. destruct Q as [[Q|Q]|[Q|[]]]; [congruence|apply (AV a Q); now left|]. subst b. apply (mx_neq n _ HM a a Ha); [lia|reflexivity].
    + apply Permutation_NoDup with (b :: c :: rest); [apply (Permutation_cons_append (c :: rest) b)|]. constructor; [|exact ND]. intros [Q|Q]; [congruence|]. apply (AV b Q). right; now left.
  - discriminate.
  - intros x y H. change (a :: (c :: rest) ++ [b]) with (a :: c :: rest ++ [b]) in H. change (consecutive (a :: c :: rest ++ [b])) with ((a, c) :: consecutive (c :: rest ++ [b])) in H.
    destruct H as [[= <- <-]|H]; [exact Cac|]. rewrite consecutive_ends, P2 in H. apply in_app_or in H. destruct H as [H|[[= <- <-]|[]]]; [now apply P4|]. now apply circ_sym.
  - unfold circ. auto.
Qed.
Lemma R6_still s s' : keep g0 (fst s) -> ruleR6 s = Ret s' -> s' = s.
Proof.
  intros K E. pose proof K as (HM & _ & _ & TL). unfold ruleR6 in E. rewrite (mx_n _ _ HM) in E. revert E. apply (foldO_keep _ (fun s' => s' = s)); [reflexivity|].
  intros s1 b s2 Hb ->. apply in_seq0 in Hb. unfold r6_node. cbn zeta. destruct (existsb _ _) eqn:E; [|now intros [= <-]]. exfalso. apply existsb_exists in E. destruct E as (a & Hin & E).
  apply (in_into n _ HM) in Hin; [|apply mkT|exact Hb]. destruct Hin as [Ha T]. apply (epis_iff n _ HM) in E; [|apply mkT|exact Hb|exact Ha]. cbn [ev] in T, E. pose proof (TL a b Ha Hb T) as Q. unfold arrow_at in Q. lia.
Qed.
Lemma R7_still s s' : keep g0 (fst s) -> ruleR7 s = Ret s' -> s' = s.
Proof.
  intros K E. pose proof K as (HM & _ & _ & TL). unfold ruleR7 in E. rewrite (mx_n _ _ HM) in E. revert E. apply (foldO_keep _ (fun s' => s' = s)); [reflexivity|].
  intros s1 b s2 Hb ->. apply in_seq0 in Hb. unfold r7_node. cbn zeta. destruct (filter _ _) as [|a l] eqn:E.
  - apply (foldO_keep _ (fun s' => s' = s)); [reflexivity|]. intros s3 c s4 _ ->. cbn [foldO]. now intros [= <-].
  - exfalso. assert (Hin : In a (a :: l)) by now left. rewrite <- E in Hin. apply filter_In in Hin. destruct Hin as [Hin T]. apply (in_into n _ HM) in Hin; [|apply mkC|exact Hb]. destruct Hin as [Ha C].
    apply (epis_iff n _ HM) in T; [|apply mkT|exact Hb|exact Ha]. cbn [ev] in T, C. pose proof (TL b a Hb Ha T) as Q. unfold arrow_at in Q. lia.
Qed.
Lemma pass_keep fuel mpl kall ft g r : (n < fuel)%nat -> keep g0 g -> fci_pass ind forb so fuel mpl kall ft sep g = Ret r -> keep g0 (fst (fst r)).
Proof.
  intros HF K E. unfold fci_pass in E.
  apply obind_inv in E. destruct E as (s1 & E1 & E). apply (R12_keep n D ind HO forb g0) in E1; [|exact K].
  apply obind_inv in E. destruct E as (s2 & E2 & E). apply (R3_keep n D forb sep g0) in E2; [|exact HSG|exact E1]. cbn zeta in E.
  apply obind_inv in E. destruct E as (s3 & E3 & E). assert (K3 : keep g0 (fst s3)). { destruct (snd s2 || _); [|injection E3 as <-; exact E2]. exact (R4_keep n D ind forb HO g0 HA sep HSG fuel mpl s2 s3 E2 E3). }
  apply obind_inv in E. destruct E as (s4 & E4 & E). apply R5_still in E4; auto. subst s4.
  apply obind_inv in E. destruct E as (s4 & E4 & E). apply R6_still in E4; auto. subst s4.
  apply obind_inv in E. destruct E as (s4 & E4 & E). apply R7_still in E4; auto. subst s4.
  apply obind_inv in E. destruct E as (s5 & E5 & E). apply (R8_keep n D g0) in E5; [|exact K3].
  apply obind_inv in E. destruct E as (s6 & E6 & E). apply (R9_keep n D g0 HA so) in E6; [|exact E5].
  apply obind_inv in E. destruct E as (s7 & E7 & E). apply (R10_keep n D g0 HA so) in E7; [|exact E6].
  injection E as <-. exact E7.
Qed.
Hypothesis so_in : forall l x, In x (so l) <-> In x l.
Lemma tri_loop mpl kall : forall fuel ft g g', (2 * n + ccount n g + 1 < fuel)%nat -> keep g0 g -> fci_loop ind forb so fuel mpl kall ft sep g = Ret g' -> keep g0 g'.
Proof.
  induction fuel as [|f IH]; intros ft g g' HF K; [lia|]. cbn [fci_loop].
  destruct (pass_adv ind forb so so_in n (Datatypes.S f) mpl kall ft sep g) as (s' & ft' & E & A); [lia|apply K|]. rewrite E. cbn [obind fst snd].
  apply pass_keep in E; [|lia|exact K]. cbn [fst] in E. destruct A as (M' & W & DD). destruct (snd s') eqn:ES.
  - assert (G : gap n g (fst s')). { destruct DD as [->|[_ G]]; [discriminate|exact G]. }
    pose proof (ccount_lt n g (fst s') (fills_weak _ _ _ W) G). apply IH; [lia|exact E].
  - intros [= <-]. exact E.
Qed.
End Tri.
(** ** The whole algorithm with a perfect test and no latent variables *)
Definition nok : nat -> nat -> bool := fun _ _ => false.
Section WholeSuff.
Variable n : nat.
Variable D : ggraph.
Variable ind : nat -> nat -> list nat -> bool.
Hypothesis HO : oracle n D ind.
Variables so srt : list nat -> list nat.
Hypothesis so_perm : forall l, Permutation (so l) l.
Hypothesis srt_perm : forall l, Permutation (srt l) l.
Lemma suff_latent : latent_oracle n D ind.
Proof. destruct HO as (E & HD & H). split; [lia|]. auto. Qed.
Lemma suff_run fuel mpl kall : (2 * n + n * n + 2 <= fuel)%nat ->
  exists gs gc go sep, fci_oriented ind nok nok so srt fuel None mpl kall n = Ret go /\ mixed n go /\ mixed n gs /\
    (forall x y, (x < n)%nat -> (y < n)%nat -> adj gs x y <-> adjacent D x y) /\ seps_good n D gs sep /\ keep n D gs gc /\ only_fills n gc go /\
    fci_loop ind nok so fuel mpl kall true sep gc = Ret go /\ (forall a b c, (b < n)%nat -> collider_reason sep n gs a b c -> arrow_at gc a b) /\
    exists fuel' ft' ft'', (2 * n < fuel')%nat /\ fci_pass ind nok so fuel' mpl kall ft' sep go = Ret ((go, false), ft'').
Proof.
  intros HF. pose proof suff_latent as HL. pose proof HO as (Dn & HD & _). unfold fci_oriented.
  destruct (C23_fas_oracle n D ind true fuel HO) as (g0 & sep0 & E0 & N0 & U0 & J0); [lia|].
  destruct (fas_spec ind nok nok n fuel None) as (g0' & sep0' & E0' & M0 & _); [lia|]. change (fun x y => nok x y && nok y x) with no_ban in *.
  rewrite E0 in E0'. injection E0' as <- <-. rewrite E0. cbn [of_opt obind fst snd].
  assert (A0 : forall x y, (x < n)%nat -> (y < n)%nat -> adj g0 x y <-> adjacent D x y).
  { intros x y Hx Hy. rewrite <- (dag_joined D HD), <- J0. unfold adj, joined. rewrite N0. split.
    - intros K. split; [exact Hx|]. split; [exact Hy|]. intros Q. apply K. now apply (mx_zero n g0 M0).
    - intros (_ & _ & K) Q. apply K. now apply (mx_zero n g0 M0). }
  assert (S0 : seps_good n D g0 sep0).
  { intros x y Hx Hy N NA. assert (NJ : ~ joined g0 x y) by (intros J; apply NA, A0; auto; apply (dag_joined D HD), J0, J).
    destruct (C56_fas_stable_sepsets ind None n fuel g0 sep0 x y) as (U & Ts & H1 & _ & H3 & H4 & H5); auto; [lia|exact (latent_order_free n D ind HL)|].
    exists U. split; [exact H1|]. exact (union_good n D ind HL x y Ts U Hx Hy N H3 H4 H5). }
  destruct (rule0_spec nok nok n sep0 g0 M0) as (gk0 & g1 & -> & Mk0 & M1 & BK0 & R0 & _). cbn [obind].
  assert (SA0 : same_adj n g0 gk0) by (apply (bk_marks_adj nok nok n g0 gk0); auto).
  assert (A1 : forall x y, (x < n)%nat -> (y < n)%nat -> adj g1 x y <-> adjacent D x y).
  { intros x y Hx Hy. rewrite <- A0, <- (SA0 x y Hx Hy) by auto. assert (SA1 : same_adj n gk0 g1) by (eapply same_adj_fills; [|apply R0]; intros ? ? _ _; reflexivity). apply SA1; auto. }
  destruct (pdsep_spec ind so srt so_perm srt_perm n fuel sep0 g1 M1) as (g2 & sep & -> & [M2 Hsep] & D2); [lia|]. cbn [obind fst snd]. cbn [fst snd] in M2, Hsep.
  assert (NS : forall x y, (x < n)%nat -> (y < n)%nat -> adjacent D x y -> ~ separated ind n x y).
  { intros x y Hx Hy AD (cs & HC & HI). pose proof (adjacent_neq D HD _ _ AD) as N. destruct HI as [HI|HI].
    - apply (lo_ind n D ind HL) in HI; auto. apply HI. now apply adjacent_never_separated.
    - apply (lo_ind n D ind HL) in HI; auto; [|now apply cond_sym]. apply HI. apply adjacent_never_separated; auto. destruct AD; [right|left]; auto. }
  assert (A2 : forall x y, (x < n)%nat -> (y < n)%nat -> adj g2 x y <-> adjacent D x y).
  { intros x y Hx Hy. rewrite <- A1 by auto. unfold adj. destruct (D2 x y Hx Hy) as [[E1 E2]|(E1 & E2 & Sp)]; [now rewrite E2|]. rewrite E2. split; [lia|]. intros K. exfalso. apply (NS x y Hx Hy); [now apply A1|exact Sp]. }
  assert (S2 : seps_good n D g2 sep).
  { intros x y Hx Hy N NA. destruct (S0 x y Hx Hy N) as (U & EU & GU); [intros K; apply NA, A2, A0; auto|]. exists U. split; [|exact GU].
    destruct (Hsep x y Hx Hy) as [E2|(cs & Nz & _)]; [congruence|]. exfalso. apply NA. apply A2; auto. apply A1; auto. intros Q. apply Nz. now apply (mx_zero n g1 M1). }
  destruct (rule0_spec nok nok n sep g2 M2) as (gk & g3 & -> & Mk & M3 & BK & R & CC). cbn [obind].
  assert (SAk : same_adj n g2 gk) by (apply (bk_marks_adj nok nok n g2 gk); auto).
  assert (HCk : forall i j, (i < n)%nat -> (j < n)%nat -> gm gk i j = 0 \/ gm gk i j = 2).
  { intros i j Hi Hj. destruct BK as [B1 B2]. destruct (Z.eq_dec (gm g2 i j) 0) as [Z0|Nz]; [left; auto|]. right. pose proof (mx_neq n g2 M2 i j Hi Nz) as Nij.
    assert (C : (i < j)%nat \/ (j < i)%nat) by lia. destruct C as [C|C]; [exact (proj1 (B2 i j C Hj Nz))|]. refine (proj2 (B2 j i C Hi _)). intros Q. apply Nz. now apply (mx_zero n g2 M2). }
  assert (AR : adjacencies_right n D g2).
  { intros x y Hx Hy K T HC. apply A2 in K; auto. apply adjacent_never_separated; auto. exact (adjacent_neq D HD _ _ K). }
  pose proof (rule0_sound n D ind HL sep g2 gk g3 M2 Mk M3 AR S2 SAk HCk R (CC (fun _ _ => eq_refl) (fun _ _ => eq_refl))) as FA.
  assert (K3 : keep n D g2 g3).
  { split; [exact M3|]. split; [apply (same_adj_fills n g2 gk g3); [exact SAk|apply R]|]. split; [exact FA|]. intros x y Hx Hy T. exfalso. unfold tail_at in T. destruct R as [_ RR].
    destruct (RR x y Hx Hy) as [E|(E & _)]; [destruct (HCk y x Hy Hx); lia|lia]. }
  destruct (loop_adv ind nok so (so_in so so_perm) n mpl kall sep fuel true g3) as (go & E & Mo & F & L); [pose proof (ccount_bound n g3); lia|exact M3|].
  exists g2, g3, go, sep. do 8 (split; [assumption|]). split; [|exact L]. intros a b c Hb (Ha & Hc & N & J1 & J2 & J3 & X). apply (CC (fun _ _ => eq_refl) (fun _ _ => eq_refl) a b c Hb).
  unfold collider_reason. do 3 (split; [assumption|]). split; [now apply SAk|]. split; [now apply SAk|]. split; [|exact X]. intros J. apply J3. now apply SAk.
Qed.
(** Without triangles the marks of the result are all right. *)
Lemma tri_run fuel mpl kall : (forall x y z, adjacent D x y -> adjacent D y z -> adjacent D x z -> False) -> (2 * n + n * n + 2 <= fuel)%nat ->
  exists go, fci_oriented ind nok nok so srt fuel None mpl kall n = Ret go /\ mixed n go /\
    (forall x y, (x < n)%nat -> (y < n)%nat -> adj go x y <-> adjacent D x y) /\ sound n D go /\ tailed n go.
Proof.
  intros HT HF. destruct (suff_run fuel mpl kall HF) as (gs & gc & go & sep & E & Mo & Ms & A & S & K & F & L & _). exists go. split; [exact E|]. split; [exact Mo|].
  pose proof (tri_loop n D ind nok so suff_latent gs (fun x y Hx Hy => proj1 (A x y Hx Hy)) sep S HT (so_in so so_perm) mpl kall fuel true gc go) as KO.
  assert (K' : keep n D gs go). { apply KO; [|exact K|exact L]. pose proof (ccount_bound n gc). lia. }
  split; [intros x y Hx Hy; rewrite <- A by auto; now apply (keep_adj n D gs go x y K')|]. destruct K' as (_ & _ & (SO & _) & TL). auto.
Qed.
End WholeSuff.
