(** FCI: the possible-d-sep phase, the edge colours, and the whole algorithm return. *)
From Verif Require Import Base EdgeModel EdgeProofs GraphModel GraphSpec GraphProofs DpathProofs QueryProps UtilsModel UtilsProofs
  SkelModel SkelSpec SkelProofs SkelMain PCModel FCIModel FCISpec DsepProofs MeekModel MeekSpec MeekProofs FCIProofs FCIRules FCILoops FCIFront PCGraph SkelSep FCISep.
From Coq Require Import Permutation.
Local Open Scope Z_scope.

Section Pds.
Variable ind : nat -> nat -> list nat -> bool.
Variables so srt : list nat -> list nat.
Hypothesis so_perm : forall l, Permutation (so l) l.
Hypothesis srt_perm : forall l, Permutation (srt l) l.
Variable n : nat.
Lemma so_in l x : In x (so l) <-> In x l.
Proof. split; apply Permutation_in; [apply so_perm|apply Permutation_sym, so_perm]. Qed.
Lemma srt_in l x : In x (srt l) <-> In x l.
Proof. split; apply Permutation_in; [apply srt_perm|apply Permutation_sym, srt_perm]. Qed.

Lemma one_path_total fuel g x b rs : mixed n g -> (n < fuel)%nat -> (forall r, In r rs -> (r < n)%nat) -> exists v, one_path fuel g x b rs = Ret v.
Proof.
  intros HM HF. induction rs as [|r rs IH]; intros HR; cbn [one_path]; [eauto|].
  assert (Hr : (r < n)%nat) by (apply HR; now left). specialize (IH (fun z Hz => HR z (or_intror Hz))).
  destruct (Nat.eqb r b || Nat.eqb r x); [exact IH|].
  destruct (exists_semi_spec ind (fun _ _ => false) n fuel g r x HM Hr HF) as (p1 & -> & _). cbn [obind]. destruct p1; [eauto|].
  destruct (exists_semi_spec ind (fun _ _ => false) n fuel g r b HM Hr HF) as (p2 & -> & _). cbn [obind]. destruct p2; eauto.
Qed.
Definition prev_ok (prev : prevsets) : Prop := forall k l, prev k = Some l -> forall r, In r l -> (r < n)%nat.
Lemma exist_one_total fuel g prev x b : mixed n g -> (n < fuel)%nat -> prev_ok prev -> exists v, exist_one_path so fuel g prev x b = Ret v.
Proof.
  intros HM HF HP. unfold exist_one_path. destruct (Nat.eqb b x); [eauto|]. destruct (prev b) as [l|] eqn:E; [|eauto].
  apply one_path_total; auto. intros r Hr. apply (proj1 (so_in _ _)) in Hr. eapply HP; eauto.
Qed.
Lemma sadd_in x l y : In y (sadd x l) <-> y = x \/ In y l.
Proof.
  unfold sadd. destruct (memb x l) eqn:E.
  - apply memb_In in E. split; [auto|]. intros [->|]; assumption.
  - rewrite in_app_iff. cbn. intuition.
Qed.
Lemma sadd_NoDup x l : NoDup l -> NoDup (sadd x l).
Proof.
  intros H. unfold sadd. destruct (memb x l) eqn:E; [exact H|]. apply Permutation_NoDup with (x :: l); [apply Permutation_cons_append|].
  constructor; [now apply memb_not_In|exact H].
Qed.
Lemma prev_add_ok prev k v : prev_ok prev -> (v < n)%nat -> prev_ok (prev_add prev k v).
Proof.
  intros HP Hv k' l. unfold prev_add. destruct (Nat.eqb k' k); [|apply HP]. intros [= <-] r Hr. apply sadd_in in Hr. destruct Hr as [->|Hr]; [exact Hv|].
  destruct (prev k) as [l0|] eqn:E; [eapply HP; eauto|destruct Hr].
Qed.

(** Every pair met by the search starts at x. *)
Definition pd_ok (x : nat) (V Q : list (nat * nat)) : Prop :=
  NoDup V /\ (forall p, In p V -> fst p = x /\ (snd p < n)%nat) /\ incl Q V.
Lemma pd_bound x V Q : pd_ok x V Q -> (length V <= n)%nat.
Proof.
  intros (H1 & H2 & _). rewrite <- (map_length snd). apply nodup_bound.
  - clear Q. revert H2. induction H1 as [|p V Np HN IH]; intros H2; cbn; [constructor|]. constructor; [|apply IH; intros; apply H2; now right].
    intros Hin. apply in_map_iff in Hin. destruct Hin as (q & E & Hq). apply Np. assert (q = p); [|now subst]. destruct (H2 p (or_introl eq_refl)) as [P1 _].
    destruct (H2 q (or_intror Hq)) as [Q1 _]. destruct p, q. cbn in *. congruence.
  - intros k Hk. apply in_map_iff in Hk. destruct Hk as (p & <- & Hp). now apply H2.
Qed.
Lemma pair_eqb_spec p q : pair_eqb p q = true <-> p = q.
Proof.
  destruct p as [a b], q as [c d]. unfold pair_eqb. cbn. rewrite andb_true_iff, !Nat.eqb_eq. split; [intros [-> ->]; reflexivity|now intros [= -> ->]].
Qed.
Lemma pd_nbr_spec g x y b prev V Q e cs : mixed n g -> prev_ok prev -> pd_ok x V Q -> (b < n)%nat -> (x < n)%nat -> (forall c, In c cs -> (c < n)%nat /\ gm g b c <> 0) ->
  exists prev' V' Q' e', fold_left (pd_nbr g x y x b) cs (prev, V, Q, e) = (prev', V', Q', e') /\ prev_ok prev' /\ pd_ok x V' Q' /\
    (n - length V' + length Q' = n - length V + length Q)%nat /\
    (forall p, In p V' -> In p V \/ (gm g x (snd p) <> 0) \/ (gm g b x = 1 /\ gm g b (snd p) = 1)).
Proof.
  intros HM HP HK Hb Hx. revert prev V Q e HP HK. induction cs as [|c cs IH]; intros prev V Q e HP HK HC; cbn [fold_left].
  - do 4 eexists. split; [reflexivity|]. auto.
  - destruct (HC c (or_introl eq_refl)) as [Hc Nbc]. specialize (fun prev V Q e A B => IH prev V Q e A B (fun z Hz => HC z (or_intror Hz))).
    unfold pd_nbr at 2. destruct (Nat.eqb c x || Nat.eqb c x || Nat.eqb c y); [now apply IH|].
    pose proof (prev_add_ok prev c b HP Hb) as HP'.
    destruct (def_coll g x b c || is_adjacent_to g x c) eqn:EG; [|now apply IH].
    destruct (existsb (pair_eqb (x, c)) V) eqn:EV; [now apply IH|].
    assert (NV : ~ In (x, c) V). { intros Q0. apply not_true_iff_false in EV. apply EV. apply existsb_exists. exists (x, c). split; [exact Q0|now apply pair_eqb_spec]. }
    pose proof HK as (K1 & K2 & K3).
    assert (HK' : pd_ok x (V ++ [(x, c)]) (Q ++ [(x, c)])).
    { split; [apply Permutation_NoDup with ((x, c) :: V); [apply Permutation_cons_append|constructor; assumption]|]. split.
      - intros p Hp. apply in_app_or in Hp. destruct Hp as [Hp|[<-|[]]]; [auto|]. cbn. auto.
      - intros p Hp. apply in_app_or in Hp. apply in_or_app. destruct Hp as [Hp|Hp]; auto. }
    destruct (IH (prev_add prev c b) (V ++ [(x, c)]) (Q ++ [(x, c)]) (match e with None => Some (x, c) | _ => e end) HP' HK') as (p' & V' & Q' & e' & E & R1 & R2 & R3 & R4).
    exists p', V', Q', e'. split; [exact E|]. split; [exact R1|]. split; [exact R2|]. split.
    + pose proof (pd_bound x _ _ HK') as B. rewrite !app_length in *. cbn [length] in *. lia.
    + intros p Hp. destruct (R4 p Hp) as [H|H]; [|auto]. apply in_app_or in H. destruct H as [H|[<-|[]]]; [auto|]. right. cbn [snd].
      apply orb_true_iff in EG. destruct EG as [EG|EG]; [right; now apply (coll_iff n g HM) in EG|left]. apply adj_iff in EG. intros Q0. apply EG. now apply (mx_zero n g HM).
Qed.
(** What getPossibleDsep can return: neighbours of x, and nodes behind a collider next to x. *)
Definition near (g : ggraph) (x v : nat) : Prop :=
  (v < n)%nat /\ (gm g x v <> 0 \/ exists b, (b < n)%nat /\ gm g b x = 1 /\ gm g b v = 1).
Lemma pds_loop_spec g x y : mixed n g -> (x < n)%nat -> forall fuel dist dsep prev V Q e, prev_ok prev -> pd_ok x V Q ->
  NoDup dsep -> (forall v, In v dsep -> near g x v) -> (forall p, In p V -> near g x (snd p)) -> (n + (n - length V + length Q) < fuel)%nat ->
  exists d, pds_loop so fuel g x y dist dsep (prev, V, Q, e) = Ret d /\ NoDup d /\ forall v, In v d -> near g x v.
Proof.
  intros HM Hx. induction fuel as [|f IH]; intros dist dsep prev V Q e HP HK HN HD HV HF; [lia|]. destruct Q as [|(a, b) Q]; cbn [pds_loop]; [eauto|].
  pose proof HK as (K1 & K2 & K3). destruct (K2 (a, b) (K3 _ (or_introl eq_refl))) as [E Hb]. cbn [fst snd] in E, Hb. subst a.
  assert (Vb : near g x b) by (apply (HV (x, b)), K3; now left).
  destruct (oepair_eqb e (x, b) && _); [eauto|].
  destruct (exist_one_total (Datatypes.S f) g prev x b HM) as (v & ->); [lia|exact HP|]. cbn [obind].
  assert (HK' : pd_ok x V Q) by (split; [exact K1|]; split; [exact K2|]; intros p Hp; apply K3; now right).
  destruct (pd_nbr_spec g x y b prev V Q (if oepair_eqb e (x, b) then None else e) (get_adjacent_nodes g b) HM HP HK' Hb Hx) as (p' & V' & Q' & e' & -> & R1 & R2 & R3 & R4).
  { intros c Hc. now apply (in_adjn n g HM) in Hc. }
  apply IH; auto.
  - destruct v; [now apply sadd_NoDup|exact HN].
  - intros u Hu. destruct v; [|auto]. apply sadd_in in Hu. destruct Hu as [->|Hu]; auto.
  - intros p Hp. destruct (R4 p Hp) as [H|H]; [auto|]. split; [now apply R2|]. destruct H as [H|[H1 H2]]; [auto|]. right. exists b. auto.
  - cbn [length] in HF. lia.
Qed.
Lemma pds_init_spec g x y bs : mixed n g -> (x < n)%nat -> NoDup bs -> (forall b, In b bs -> (b < n)%nat /\ gm g x b <> 0) ->
  forall dsep prev V Q e, prev_ok prev -> pd_ok x V Q -> NoDup dsep -> (forall v, In v dsep -> near g x v) -> (forall p, In p V -> near g x (snd p)) ->
  (forall b, In b bs -> ~ In (x, b) V) -> length Q = length V ->
  exists d prev' V' Q' e', fold_left (pds_init x y) bs (dsep, (prev, V, Q, e)) = (d, (prev', V', Q', e')) /\
    prev_ok prev' /\ pd_ok x V' Q' /\ NoDup d /\ (forall v, In v d -> near g x v) /\ (forall p, In p V' -> near g x (snd p)) /\ length Q' = length V'.
Proof.
  intros HM Hx. induction bs as [|b bs IH]; intros HN HB dsep prev V Q e A1 A2 A3 A4 A5 A6 A7; cbn [fold_left].
  - do 5 eexists. split; [reflexivity|]. auto 10.
  - inversion HN as [|? ? Nb HN']; subst. destruct (HB b (or_introl eq_refl)) as [Hb Nxb].
    specialize (fun d p V Q e a1 a2 a3 a4 a5 a6 => IH HN' (fun z Hz => HB z (or_intror Hz)) d p V Q e a1 a2 a3 a4 a5 a6).
    unfold pds_init at 2. destruct (Nat.eqb b y).
    + apply IH; auto. intros z Hz. apply A6. now right.
    + assert (Nr : near g x b) by (split; auto). pose proof A2 as (K1 & K2 & K3). apply IH.
      * now apply prev_add_ok.
      * split; [apply Permutation_NoDup with ((x, b) :: V); [apply Permutation_cons_append|constructor; [apply A6; now left|exact K1]]|]. split.
        -- intros p Hp. apply in_app_or in Hp. destruct Hp as [Hp|[<-|[]]]; cbn; auto.
        -- intros p Hp. apply in_app_or in Hp. apply in_or_app. destruct Hp as [Hp|Hp]; auto.
      * now apply sadd_NoDup.
      * intros v Hv. apply sadd_in in Hv. destruct Hv as [->|Hv]; auto.
      * intros p Hp. apply in_app_or in Hp. destruct Hp as [Hp|[<-|[]]]; cbn; auto.
      * intros z Hz Q0. apply in_app_or in Q0. destruct Q0 as [Q0|[[= ->]|[]]]; [|contradiction]. revert Q0. apply A6. now right.
      * rewrite !app_length. cbn. lia.
Qed.
Lemma possible_dsep_spec fuel g x y : mixed n g -> (x < n)%nat -> (2 * n < fuel)%nat ->
  exists d, possible_dsep so srt fuel g x y = Ret d /\ NoDup d /\ forall v, In v d -> near g x v /\ v <> x /\ v <> y.
Proof.
  intros HM Hx HF. unfold possible_dsep. cbn zeta.
  destruct (pds_init_spec g x y (so (get_adjacent_nodes g x)) HM Hx) with (dsep := @nil nat) (prev := fun _ : nat => @None (list nat)) (V := @nil (nat * nat)) (Q := @nil (nat * nat)) (e := @None (nat * nat))
    as (d & p' & V' & Q' & e' & EI & A1 & A2 & A3 & A4 & A5 & A6).
  - apply Permutation_NoDup with (get_adjacent_nodes g x); [apply Permutation_sym, so_perm|]. unfold get_adjacent_nodes. apply NoDup_filter, seq_NoDup.
  - intros b Hb. apply (proj1 (so_in _ _)) in Hb. now apply (in_adjn n g HM) in Hb.
  - intros k l [=].
  - split; [constructor|]. split; [easy|apply incl_refl].
  - constructor.
  - easy.
  - easy.
  - easy.
  - reflexivity.
  - unfold prevsets in *. rewrite EI. cbn [fst snd]. pose proof (pd_bound x _ _ A2) as B.
    destruct (pds_loop_spec g x y HM Hx fuel 0 d p' V' Q' e') as (d' & EL & N & H); auto; [lia|]. unfold prevsets in *. rewrite EL. cbn [obind].
    eexists. split; [reflexivity|]. split.
    + apply Permutation_NoDup with (filter (fun v => negb (Nat.eqb v x) && negb (Nat.eqb v y)) d'); [apply Permutation_sym, srt_perm|]. now apply NoDup_filter.
    + intros v Hv. apply (proj1 (srt_in _ _)) in Hv. apply filter_In in Hv. destruct Hv as [Hv G]. bools. rewrite Nat.eqb_neq in *. auto.
Qed.

(** ** The phase itself *)
Lemma seen_in l c : In c (seen l) -> In c l.
Proof.
  unfold seen. destruct l as [|a l]; [easy|]. cbn [tl]. intros H. apply in_app_or in H. destruct H as [H|[<-|[]]]; [now right|].
  clear. revert a. induction l as [|b l IH]; intros a; [now left|]. right. apply IH.
Qed.
Lemma seen_choices_in p c : In c (seen_choices p) -> incl c p /\ (NoDup p -> NoDup c).
Proof.
  unfold seen_choices. intros H. apply in_flat_map in H. destruct H as (k & _ & H). apply seen_in in H. apply combs_in in H. tauto.
Qed.
Lemma pd_search_in g a b l cs : pd_search ind g a b l = Some cs -> In cs l /\ (2 <= length cs)%nat /\ ind a b cs = true.
Proof.
  induction l as [|c l IH]; cbn [pd_search]; [discriminate|]. destruct (Nat.ltb_spec (length c) 2); [intros E; destruct (IH E); split; [now right|assumption]|].
  destruct (_ || _); [intros E; destruct (IH E); split; [now right|assumption]|]. destruct (ind a b c) eqn:EI; [|intros E; destruct (IH E); split; [now right|assumption]].
  intros [= <-]. split; [now left|]. auto.
Qed.
(** A recorded independence: the test declared i and j independent given cs, a set of other variables. *)
Definition separated (i j : nat) : Prop := exists cs, conditioning n i j cs /\ (ind i j cs = true \/ ind j i cs = true).
Definition pd_inv (h0 : ggraph) (sep0 : sepsets) (s : ggraph * sepsets) : Prop :=
  mixed n (fst s) /\ forall x y, (x < n)%nat -> (y < n)%nat -> snd s x y = sep0 x y \/ exists cs, gm h0 x y <> 0 /\ snd s x y = Some cs /\ conditioning n x y cs /\ ind x y cs = true.
Lemma contains_after_remove h i j : mixed n h -> (i < n)%nat -> (j < n)%nat -> gm h i j <> 0 ->
  let e := edge_at h (i, j) in forall g1, gm g1 i j = 0 -> gm g1 j i = 0 -> contains_edge g1 e = false.
Proof.
  intros HM Hi Hj N. cbn zeta. destruct (mx_edge n h HM i j Hi Hj N) as (a0 & b0 & Ma & Mb & E1 & E2 & EE). unfold edge_at. cbn [fst snd]. rewrite EE.
  intros g1 Z1 Z2; destruct Ma as [-> | [-> | ->]], Mb as [-> | [-> | ->]]; unfold contains_edge, Edge; cbn in *; rewrite ?Z1, ?Z2; reflexivity.
Qed.
Lemma edge_at_nodes h i j : mixed n h -> (i < n)%nat -> (j < n)%nat -> gm h i j <> 0 ->
  let e := edge_at h (i, j) in (e_node1 e = i /\ e_node2 e = j) \/ (e_node1 e = j /\ e_node2 e = i).
Proof.
  intros HM Hi Hj N. cbn zeta. destruct (mx_edge n h HM i j Hi Hj N) as (a0 & b0 & Ma & Mb & E1 & E2 & EE). unfold edge_at. cbn [fst snd]. rewrite EE. apply Edge_nodes.
Qed.
Lemma pdsep_spec fuel sep0 g : mixed n g -> (2 * n < fuel)%nat ->
  exists g' sep', remove_by_pdsep ind so srt fuel sep0 g = Ret (g', sep') /\ pd_inv g sep0 (g', sep') /\
    forall i j, (i < n)%nat -> (j < n)%nat -> (gm g' i j = gm g i j /\ gm g' j i = gm g j i) \/ (gm g' i j = 0 /\ gm g' j i = 0 /\ separated i j).
Proof.
  intros HM HF. unfold remove_by_pdsep.
  destruct (edges_fold n (pd_edge ind so srt fuel) fst (pd_inv g sep0)
    (fun i j u v => (u = gm g i j /\ v = gm g j i) \/ (u = 0 /\ v = 0 /\ separated i j)) g (g, sep0) HM eq_refl) as ((g', sep') & E & I' & D & Z).
  - split; [exact HM|]. auto.
  - intros (h, sp) i j Hij Hj Na [Mh Hsp] U1 U2. cbn [fst snd] in *. assert (Hi : (i < n)%nat) by lia. rewrite <- (edge_at_same g h i j U1 U2).
    assert (Nh : gm h i j <> 0) by congruence. pose proof (edge_at_nodes h i j Mh Hi Hj Nh) as HE. cbn zeta in HE.
    pose proof (contains_after_remove h i j Mh Hi Hj Nh) as C2. cbn zeta in C2. destruct (remove_spec n h Mh i j Hi Hj Nh) as (M1 & Z1 & Z2 & F1).
    set (e := edge_at h (i, j)) in *. unfold pd_edge. cbn [fst snd]. set (a := e_node1 e) in *. set (b := e_node2 e) in *.
    assert (Ha : (a < n)%nat) by lia. assert (Hb : (b < n)%nat) by lia.
    assert (Nij : i <> j) by lia.
    assert (Cond : forall d cs, NoDup d -> (forall v, In v d -> v <> a /\ v <> b /\ (v < n)%nat) -> In cs (seen_choices d) -> conditioning n a b cs).
    { intros d cs N H Hc. apply seen_choices_in in Hc. destruct Hc as [Hc1 Hc2]. split; [now apply Hc2|]. intros z Hz. destruct (H z (Hc1 z Hz)) as (? & ? & ?). auto. }
    assert (Fin : forall cs, conditioning n a b cs -> ind a b cs = true -> pd_inv g sep0 (remove_edge h e, sep_set sp a b cs) /\ separated i j).
    { intros cs Hc Hi2. split.
      - split; [exact M1|]. cbn [snd]. intros x y Hx Hy. unfold sep_set. assert (K : (x = a /\ y = b) \/ ~ (x = a /\ y = b)) by lia. destruct K as [[-> ->]|K].
        + rewrite upd_f_same. right. exists cs. split; [|auto]. assert (Na' : gm g j i <> 0) by (intros Q; apply Na; now apply (mx_zero n g HM)). destruct HE as [[-> ->]|[-> ->]]; assumption.
        + rewrite upd_f_other by exact K. auto.
      - exists cs. destruct HE as [[E1 E2]|[E1 E2]]; rewrite E1, E2 in *; [auto|]. destruct Hc as [Hc1 Hc2]. split; [split; [exact Hc1|]|auto]. intros z Hz. destruct (Hc2 z Hz) as (? & ? & ?). auto. }
    destruct (possible_dsep_spec fuel h a b Mh Ha HF) as (d1 & -> & N1 & P1). cbn [obind].
    destruct (pd_search ind h a b (seen_choices d1)) as [cs|] eqn:S1.
    + apply pd_search_in in S1. destruct S1 as (Sin & _ & Sind). cbn [fst snd]. rewrite (C2 _ Z1 Z2). eexists. split; [reflexivity|].
      assert (Hc : conditioning n a b cs). { apply (Cond d1); auto. intros v Hv. destruct (P1 v Hv) as ((? & _) & ? & ?). auto. }
      destruct (Fin cs Hc Sind) as [Fi Fs]. split; [exact Fi|]. split; [right; cbn [fst]; auto|]. intros u v O. now apply F1.
    + cbn [fst snd]. destruct (contains_edge h e); [|eexists; split; [reflexivity|]; split; [split; [exact Mh|exact Hsp]|]; split; [left; auto|]; reflexivity].
      destruct (possible_dsep_spec fuel h b a Mh Hb HF) as (d2 & -> & N2 & P2). cbn [obind].
      destruct (pd_search ind h a b (seen_choices d2)) as [cs|] eqn:S2.
      * apply pd_search_in in S2. destruct S2 as (Sin & _ & Sind). eexists. split; [reflexivity|].
        assert (Hc : conditioning n a b cs). { apply (Cond d2); auto. intros v Hv. destruct (P2 v Hv) as ((? & _) & ? & ?). auto. }
        destruct (Fin cs Hc Sind) as [Fi Fs]. split; [exact Fi|]. split; [right; cbn [fst]; auto|]. intros u v O. now apply F1.
      * eexists. split; [reflexivity|]. split; [split; [exact Mh|exact Hsp]|]. split; [left; auto|]. reflexivity.
  - exists g', sep'. split; [exact E|]. split; [exact I'|]. intros i j Hi Hj. cbn [fst] in D, Z. destruct (Z.eq_dec (gm g i j) 0) as [Z0|Nz].
    + left. pose proof (mx_zero n g HM i j Hi Hj Z0) as Z0'. rewrite (Z i j), (Z j i), Z0, Z0' by auto. auto.
    + pose proof (mx_neq n g HM i j Hi Nz) as Nij. assert (C : (i < j)%nat \/ (j < i)%nat) by lia. destruct C as [C|C]; [now apply D|].
      destruct (D j i C Hi) as [[D1 D2]|(D1 & D2 & cs & Hc & D3)].
      * intros Q. apply Nz. now apply (mx_zero n g HM).
      * left. auto.
      * right. split; [exact D2|]. split; [exact D1|]. exists cs. destruct Hc as [Hc1 Hc2]. split; [|tauto]. split; [exact Hc1|]. intros z Hz. destruct (Hc2 z Hz) as (? & ? & ?). auto.
Qed.
End Pds.

(** ** Edge colours *)
Section Color.
Variable n : nat.
(** A directed edge of g, oriented from a to b. *)
Lemma directed_edge_at g i j : mixed n g -> (i < n)%nat -> (j < n)%nat -> gm g i j <> 0 ->
  let e := edge_at g (i, j) in
  ((ep_eqb (e_end1 e) TAIL && ep_eqb (e_end2 e) ARROW) || (ep_eqb (e_end1 e) ARROW && ep_eqb (e_end2 e) TAIL) = true /\
   exists x y, ((x = i /\ y = j) \/ (x = j /\ y = i)) /\ gm g x y = -1 /\ gm g y x = 1 /\ e = Edge x y TAIL ARROW /\
     (if ep_eqb (e_end1 e) TAIL then (e_node1 e, e_node2 e) else (e_node2 e, e_node1 e)) = (x, y)) \/
  ((ep_eqb (e_end1 e) TAIL && ep_eqb (e_end2 e) ARROW) || (ep_eqb (e_end1 e) ARROW && ep_eqb (e_end2 e) TAIL) = false /\
   ~ (gm g i j = -1 /\ gm g j i = 1) /\ ~ (gm g i j = 1 /\ gm g j i = -1)).
Proof.
  intros HM Hi Hj N. cbn zeta. destruct (mx_edge n g HM i j Hi Hj N) as (a & b & Ma & Mb & E1 & E2 & EE). unfold edge_at. cbn [fst snd]. rewrite EE.
  destruct Ma as [-> | [-> | ->]], Mb as [-> | [-> | ->]]; cbn in *; rewrite E1, E2;
  first [right; split; [reflexivity|lia] | left; split; [reflexivity|]];
  [exists i, j | exists j, i]; (split; [auto|]); (split; [assumption|]); (split; [assumption|]); split; reflexivity.
Qed.
Lemma visible_visit_stuck fuel g c a b path : In a path -> visible_visit (Datatypes.S fuel) g c a b path = Ret (false, path).
Proof. intros H. cbn. apply memb_In in H. now rewrite H. Qed.
Lemma visible_helper_spec fuel g a b cs path : In a path -> visible_helper (Datatypes.S fuel) g a b cs path = Ret (existsb (fun c => is_parent_of g c a) cs).
Proof.
  intros H. induction cs as [|c cs IH]; cbn [visible_helper existsb]; [reflexivity|]. destruct (is_parent_of g c a); [reflexivity|].
  rewrite visible_visit_stuck by exact H. cbn [obind fst snd]. exact IH.
Qed.
(** What defVisible computes for the edge a --> b: some node not adjacent to b points at a, or a has a parent at all. *)
Definition nl_cond (g : ggraph) (a b : nat) : Prop :=
  (exists c, (c < n)%nat /\ c <> b /\ arrow_at g c a /\ ~ adj g c b) \/ (exists c, (c < n)%nat /\ arrow_at g c a /\ tail_at g a c).
Lemma def_visible_spec fuel g a b : mixed n g -> (a < n)%nat -> (b < n)%nat -> gm g a b = -1 -> gm g b a = 1 ->
  exists v, def_visible (Datatypes.S fuel) g (Edge a b TAIL ARROW) = Ret v /\ (v = true <-> nl_cond g a b).
Proof.
  intros HM Ha Hb E1 E2. assert (Nab : a <> b) by (apply (mx_neq n g HM); auto; lia).
  assert (EE : (if ep_eqb (e_end1 (Edge a b TAIL ARROW)) TAIL then (e_node1 (Edge a b TAIL ARROW), e_node2 (Edge a b TAIL ARROW)) else (e_node2 (Edge a b TAIL ARROW), e_node1 (Edge a b TAIL ARROW))) = (a, b)) by reflexivity.
  assert (CE : contains_edge g (Edge a b TAIL ARROW) = true).
  { unfold contains_edge, Edge. cbn. rewrite E1, E2. reflexivity. }
  unfold def_visible. rewrite CE, EE.
  destruct (existsb (fun c => negb (Nat.eqb c b) && negb (is_adjacent_to g c b) && epis g c a ARROW) (get_adjacent_nodes g a)) eqn:EX.
  - exists true. split; [reflexivity|]. split; [intros _|reflexivity]. left. apply existsb_exists in EX. destruct EX as (c & Hc & G). apply andb_true_iff in G. destruct G as [G G3]. apply andb_true_iff in G. destruct G as [G1 G2].
    apply (in_adjn n g HM) in Hc; auto. destruct Hc as [Hc _]. exists c. split; [exact Hc|]. split; [apply negb_true_iff, Nat.eqb_neq in G1; exact G1|].
    split; [apply (epis_iff n g HM) in G3; auto; apply mkA|]. intros J. apply negb_true_iff in G2. now apply adj_no in G2.
  - eexists. split; [apply visible_helper_spec; now left|]. split.
    + intros G. right. apply existsb_exists in G. destruct G as (c & Hc & G). apply (in_into n g HM) in Hc; [|apply mkA|exact Ha]. destruct Hc as [Hc Ec]. exists c. split; [exact Hc|]. split; [exact Ec|].
      unfold is_parent_of in G. pose proof (mx_codes n g HM c a Hc Ha). apply orb_true_iff in G. rewrite andb_true_iff, !Z.eqb_eq in G. unfold tail_at. lia.
    + intros [(c & Hc & N & A & J)|(c & Hc & A & T)].
      * exfalso. apply not_true_iff_false in EX. apply EX. apply existsb_exists. exists c. split.
        -- apply (in_adjn n g HM); auto. split; [exact Hc|]. unfold arrow_at in A. lia.
        -- apply andb_true_iff. split; [apply andb_true_iff; split|].
           ++ apply negb_true_iff, Nat.eqb_neq, N.
           ++ apply negb_true_iff. apply adj_no. unfold adj in J. destruct (Z.eq_dec (gm g b c) 0); [assumption|contradiction].
           ++ apply (epis_iff n g HM); auto. apply mkA.
      * apply existsb_exists. exists c. split; [apply (in_into n g HM); auto; apply mkA|]. unfold is_parent_of. unfold arrow_at, tail_at in *. rewrite A, T. reflexivity.
Qed.
(** A step of a semi-directed path that does not use the edge x --> y. *)
Definition other_step (g : ggraph) (x y a b : nat) : Prop := sstep n g a b /\ ~ (a = x /\ b = y).
Definition color_ok (g : ggraph) (en : edge * option (bool * bool)) : Prop :=
  match snd en with
  | None => ~ (e_end1 (fst en) = TAIL /\ e_end2 (fst en) = ARROW) /\ ~ (e_end1 (fst en) = ARROW /\ e_end2 (fst en) = TAIL)
  | Some (dd, nl) => exists x y, (x < n)%nat /\ (y < n)%nat /\ fst en = Edge x y TAIL ARROW /\ tail_at g y x /\ arrow_at g x y /\
      (dd = true <-> ~ reach1 (other_step g x y) x y) /\ (nl = true <-> nl_cond g x y)
  end.
Lemma nl_cond_same g h a b : (a < n)%nat -> (b < n)%nat -> (forall i j, gm h i j = gm g i j) -> nl_cond h a b <-> nl_cond g a b.
Proof. intros Ha Hb E. unfold nl_cond, arrow_at, tail_at, adj. setoid_rewrite E. reflexivity. Qed.
Lemma reach1_ext {A} (R R' : A -> A -> Prop) x y : (forall a b, R a b <-> R' a b) -> reach1 R x y <-> reach1 R' x y.
Proof.
  intros E. unfold reach1. split; intros (z & H1 & H2); exists z; (split; [now apply E|]).
  - revert H2. apply reach_mono. intros a b. apply E.
  - revert H2. apply reach_mono. intros a b. apply E.
Qed.
Lemma color_step_spec fuel g h l i j : mixed n h -> mixed n g -> (forall a b, gm h a b = gm g a b) -> (i < n)%nat -> (j < n)%nat -> gm g i j <> 0 -> (n < fuel)%nat ->
  exists h' o, color_step fuel (h, l) (edge_at g (i, j)) = Ret (h', l ++ [(edge_at g (i, j), o)]) /\ mixed n h' /\ (forall a b, gm h' a b = gm g a b) /\ color_ok g (edge_at g (i, j), o).
Proof.
  intros Mh HM EQ Hi Hj N HF. destruct fuel as [|fuel]; [lia|]. destruct (directed_edge_at g i j HM Hi Hj N) as [(G & x & y & Hxy & E1 & E2 & EE & ED)|(G & ND1 & ND2)]; cbn zeta in *.
  - assert (Nh : gm h i j <> 0) by now rewrite EQ. destruct (remove_spec n h Mh i j Hi Hj Nh) as (M1 & Z1 & Z2 & F1).
    rewrite (edge_at_same g h i j (EQ i j) (EQ j i)) in *. unfold color_step. cbn [fst snd]. rewrite G. rewrite ED. clear G ED. rewrite EE in *. set (g1 := remove_edge h _) in *.
    assert (Hx : (x < n)%nat) by lia. assert (Hy : (y < n)%nat) by lia.
    destruct (exists_semi_spec (fun _ _ _ => false) (fun _ _ => false) n (Datatypes.S fuel) g1 x y M1 Hx HF) as (p & -> & HP). cbn [obind].
    assert (ST : storable TAIL ARROW) by (split; [apply mkT|]; split; [apply mkA|]; intros []; discriminate).
    destruct (put_spec n h Mh i j Hi Hj Nh g1 x y TAIL ARROW M1 Z1 Z2 Hxy ST) as (M2 & K1 & K2 & F2).
    set (g2 := add_edge g1 _) in *.
    assert (EQ2 : forall a b, gm g2 a b = gm g a b).
    { intros a b. assert (D : (a = x /\ b = y) \/ (a = y /\ b = x) \/ off i j a b) by (unfold off; lia).
      destruct D as [[-> ->]|[[-> ->]|D]]; [rewrite K1, E1; reflexivity|rewrite K2, E2; reflexivity|]. rewrite F2, F1, EQ by exact D. reflexivity. }
    destruct (def_visible_spec fuel g2 x y M2 Hx Hy K1 K2) as (v & -> & HV). cbn [obind]. exists g2, (Some (negb p, v)). split; [reflexivity|]. split; [exact M2|]. split; [exact EQ2|].
    unfold color_ok. cbn [fst snd]. exists x, y. do 3 (split; [first [assumption|reflexivity]|]). split; [exact E1|]. split; [exact E2|]. split.
    + rewrite negb_true_iff, <- not_true_iff_false, HP. apply not_iff_compat. apply reach1_ext. intros a b. unfold other_step, sstep.
      assert (D : (a = x /\ b = y) \/ (a = y /\ b = x) \/ off i j a b) by (unfold off; lia). destruct D as [[-> ->]|[[-> ->]|D]].
      * assert (gm g1 x y = 0) by (destruct Hxy as [[-> ->]|[-> ->]]; assumption). split; [|tauto]. intros (_ & _ & K). lia.
      * assert (gm g1 y x = 0) by (destruct Hxy as [[-> ->]|[-> ->]]; assumption). lia.
      * rewrite (F1 a b D), EQ. unfold off in D. split; [|tauto]. intros K. split; [exact K|]. lia.
    + rewrite HV. now apply nl_cond_same.
  - unfold color_step. rewrite G. cbn [fst snd]. exists h, None. split; [reflexivity|]. split; [exact Mh|]. split; [exact EQ|].
    unfold color_ok. cbn [fst snd]. apply orb_false_iff in G. destruct G as [G1 G2]. split; intros [K1 K2]; rewrite K1, K2 in *; discriminate.
Qed.
Lemma color_spec fuel g : mixed n g -> (n < fuel)%nat ->
  exists g' l, color_edges fuel g = Ret (g', l) /\ mixed n g' /\ (forall a b, gm g' a b = gm g a b) /\ map fst l = get_graph_edges g /\ forall en, In en l -> color_ok g en.
Proof.
  intros HM HF. unfold color_edges. rewrite (graph_edges_map n g HM).
  assert (G : forall ps, (forall i j, In (i, j) ps -> (i < n)%nat /\ (j < n)%nat /\ gm g i j <> 0) -> forall h l0, mixed n h -> (forall a b, gm h a b = gm g a b) ->
    exists h' l, foldO (color_step fuel) (map (edge_at g) ps) (h, l0) = Ret (h', l0 ++ l) /\ mixed n h' /\ (forall a b, gm h' a b = gm g a b) /\ map fst l = map (edge_at g) ps /\ forall en, In en l -> color_ok g en).
  { induction ps as [|(i, j) ps IH]; intros HP h l0 Mh EQ; cbn [map foldO].
    - exists h, []. rewrite app_nil_r. repeat (split; [first [reflexivity|assumption]|]). easy.
    - destruct (HP i j (or_introl eq_refl)) as (Hi & Hj & N). destruct (color_step_spec fuel g h l0 i j Mh HM EQ Hi Hj N HF) as (h1 & o & -> & M1 & EQ1 & C1). cbn [obind].
      destruct (IH (fun a b H => HP a b (or_intror H)) h1 (l0 ++ [(edge_at g (i, j), o)]) M1 EQ1) as (h2 & l & E2 & M2 & EQ2 & E3 & C2).
      exists h2, ((edge_at g (i, j), o) :: l). rewrite E2, <- app_assoc. split; [reflexivity|]. split; [exact M2|]. split; [exact EQ2|]. split; [cbn; now rewrite E3|].
      intros en [<-|H]; auto. }
  destruct (G (adjacent_pairs n g)) with (h := g) (l0 := @nil (edge * option (bool * bool))) as (h & l & E & H); auto.
  - intros i j H. apply in_adjacent_pairs in H. split; [lia|tauto].
  - exists h, l. auto.
Qed.
End Color.

(** ** The whole algorithm *)
Section Whole.
Variable ind : nat -> nat -> list nat -> bool.
Variables forb req : nat -> nat -> bool.
Variables so srt : list nat -> list nat.
Hypothesis so_perm : forall l, Permutation (so l) l.
Hypothesis srt_perm : forall l, Permutation (srt l) l.
Variable n : nat.

(** The set U contains a set that the test accepted. *)
Definition holds_sep (x y : nat) (U : list nat) : Prop :=
  exists T, incl T U /\ conditioning n x y T /\ (ind x y T = true \/ ind y x T = true).
Definition seps_hold (sep : sepsets) : Prop :=
  order_free n ind -> (forall x y, forb x y = false) -> forall x y U, (x < n)%nat -> (y < n)%nat -> x <> y -> sep x y = Some U -> holds_sep x y U.
Lemma fas_spec fuel depth : (n <= fuel)%nat ->
  exists g sep, fas ind (fun x y => forb x y && forb y x) true depth fuel n = Some (g, sep) /\ mixed n g /\
    (forall i j, (i < n)%nat -> (j < n)%nat -> i <> j -> gm g i j = 0 -> (forb i j = true /\ forb j i = true) \/ separated ind n i j) /\
    (forall i j, (i < n)%nat -> (j < n)%nat -> forb i j = true -> forb j i = true -> gm g i j = 0) /\ seps_hold sep.
Proof.
  intros HF. set (ban := fun x y => forb x y && forb y x). unfold fas.
  destruct (search_correct ind ban true n true depth fuel HF) as (st & k & E & _). rewrite E. exists (skG st), (skD st). split; [reflexivity|].
  pose proof (search_built ind ban true true n fuel depth st E) as HB. apply built_inv in HB. destruct HB as (Hn & Hw & Hs & _). split; [split; auto|]. split.
  - intros i j Hi Hj N Z0. destruct (run_removed ind ban true true n fuel depth st HF E i j Hi Hj N) as [B|[B|(T & C & H)]].
    + intros (_ & _ & J). contradiction.
    + left. unfold ban in B. apply andb_true_iff in B. tauto.
    + left. unfold ban in B. apply andb_true_iff in B. tauto.
    + right. exists T. auto.
  - split; [|intros Ho NF x y U Hx Hy N E2; destruct (stable_records ind ban true n fuel depth Ho st E) as [_ H];
             destruct (H x y Hx Hy N) as (_ & _ & _ & P4 & P5); cbn [skS skR skD] in P4, P5;
             destruct (joined_dec (skG st) x y) as [J|NJ]; [rewrite (joined_unrecorded ind ban n fuel depth st E x y J) in E2; discriminate|];
             rewrite (P5 eq_refl NJ) in E2; injection E2 as <-;
             destruct (P4 (or_introl NJ)) as [_ [[B|B]|(V & Ts & K1 & K2 & K3 & K4)]];
             [unfold ban in B; rewrite NF in B; discriminate|unfold ban in B; rewrite NF in B; discriminate|];
             destruct Ts as [|T Ts]; [congruence|]; exists T; split;
             [intros z Hz; apply (add_all_spec (concat (skS st x y)) [] (NoDup_nil _)); right; apply in_concat; exists V; split; [exact K1|]; apply K4; exists T; split; [now left|exact Hz]|];
             destruct (K3 T (or_introl eq_refl)) as [(C & I & _)|(C & I & _)]; [auto|split; [now apply cond_sym|auto]]].
    intros i j Hi Hj B1 B2. destruct (Z.eq_dec (gm (skG st) i j) 0) as [Z0|Nz]; [exact Z0|]. exfalso.
    assert (Bij : ban i j = true) by (unfold ban; now rewrite B1, B2). assert (Bji : ban j i = true) by (unfold ban; now rewrite B1, B2).
    apply (run_banned ind ban true true n fuel depth st HF E i j eq_refl Bij Bji). split; [lia|]. split; [lia|exact Nz].
Qed.
(** Marks before the unshielded colliders: circles, or the direction given by the knowledge. *)
Definition bk_marks (g g' : ggraph) : Prop :=
  (forall i j, (i < n)%nat -> (j < n)%nat -> gm g i j = 0 -> gm g' i j = 0) /\
  forall i j, (i < j)%nat -> (j < n)%nat -> gm g i j <> 0 ->
    match bk_dir forb req i j with Some true => gm g' i j = -1 /\ gm g' j i = 1 | Some false => gm g' i j = 1 /\ gm g' j i = -1 | None => gm g' i j = 2 /\ gm g' j i = 2 end.
Lemma bk_marks_adj g g' : mixed n g -> mixed n g' -> bk_marks g g' -> same_adj n g g'.
Proof.
  intros HM HM' [H1 H2] x y Hx Hy. unfold adj. split; intros K Q; apply K; [now apply H1|].
  destruct (Z.eq_dec (gm g y x) 0) as [Z0|Nz]; [exact Z0|]. exfalso. pose proof (mx_neq n g HM y x Hy Nz) as Nyx.
  assert (Nz' : gm g x y <> 0) by (intros Q'; apply Nz; now apply (mx_zero n g HM)). pose proof (mx_zero n g' HM' y x Hy Hx Q) as Q2.
  assert (C : (x < y)%nat \/ (y < x)%nat) by lia. destruct C as [C|C].
  - specialize (H2 x y C Hy Nz'). destruct (bk_dir forb req x y) as [[]|]; lia.
  - specialize (H2 y x C Hx Nz). destruct (bk_dir forb req y x) as [[]|]; lia.
Qed.
Lemma rule0_spec sep g : mixed n g -> exists gk g', rule0 forb req sep (reorient_all g) = Ret g' /\ mixed n gk /\ mixed n g' /\ bk_marks g gk /\ r0_rel sep n gk gk g' /\
  ((forall x y, forb x y = false) -> (forall x y, req x y = false) -> forall a b c, (b < n)%nat -> collider_reason sep n gk a b c -> arrow_at g' a b).
Proof.
  intros HM. destruct (reorient_spec n g HM) as [M1 H1]. set (g1 := reorient_all g) in *. destruct (reorient_spec n g1 M1) as [M2 H2]. unfold rule0. set (g2 := reorient_all g1) in *.
  assert (C2 : forall i j, (i < n)%nat -> (j < n)%nat -> (gm g i j <> 0 -> gm g2 i j = 2) /\ (gm g i j = 0 -> gm g2 i j = 0)).
  { intros i j Hi Hj. destruct (H1 i j Hi Hj) as [A B], (H2 i j Hi Hj) as [C D]. split; intros K; [apply C; rewrite A; lia|apply D; auto]. }
  assert (HC : forall i j, (i < n)%nat -> (j < n)%nat -> gm g2 i j = 0 \/ gm g2 i j = 2).
  { intros i j Hi Hj. destruct (C2 i j Hi Hj) as [A B]. destruct (Z.eq_dec (gm g i j) 0); auto. }
  destruct (bk_spec forb req n g2 M2 HC) as (M3 & Z3 & D3). set (g3 := fci_orient_bk forb req g2) in *.
  assert (Eg : gn g1 = gn g3) by (rewrite (mx_n _ _ M1), (mx_n _ _ M3); reflexivity). rewrite Eg.
  destruct (rule0_fold forb req sep n g3 M3) as (g' & E & M' & R & CC). exists g3, g'. split; [exact E|]. split; [exact M3|]. split; [exact M'|]. split.
  { split; [intros i j Hi Hj Z0; apply Z3; auto; now apply C2|]. intros i j Hij Hj N. apply D3; auto. destruct (C2 i j) as [A _]; [lia|assumption|]. rewrite A; [lia|exact N]. }
  split; [exact R|]. intros F1 F2 a b c Hb Hr. refine (CC F1 _ a b c Hb Hr). intros x y Hx Hy T. unfold tail_at in T.
  destruct (Z.eq_dec (gm g2 y x) 0) as [Z0|Nz]; [rewrite (Z3 y x Hy Hx Z0) in T; discriminate|].
  assert (BN : forall i j, bk_dir forb req i j = None) by (intros; unfold bk_dir; now rewrite !F1, !F2).
  pose proof (mx_neq n g2 M2 y x Hy Nz) as Nyx. assert (Nz' : gm g2 x y <> 0) by (intros Q'; apply Nz; now apply (mx_zero n g2 M2)).
  assert (C : (x < y)%nat \/ (y < x)%nat) by lia. destruct C as [C|C].
  - specialize (D3 x y C Hy Nz'). rewrite BN in D3. lia.
  - specialize (D3 y x C Hx Nz). rewrite BN in D3. lia.
Qed.
(** How FCI's graph comes about. *)
Record fci_run (mpl : Z) (kall : bool) (gs : ggraph) (gk : ggraph) (gc : ggraph) (go : ggraph) (sep : sepsets) : Prop := {
  fr_s : mixed n gs; fr_k : mixed n gk; fr_c : mixed n gc; fr_o : mixed n go;
  fr_missing : forall i j, (i < n)%nat -> (j < n)%nat -> i <> j -> gm gs i j = 0 -> (forb i j = true /\ forb j i = true) \/ separated ind n i j;
  fr_banned : forall i j, (i < n)%nat -> (j < n)%nat -> forb i j = true -> forb j i = true -> gm gs i j = 0;
  fr_bk : bk_marks gs gk;
  fr_sep : seps_hold sep;
  fr_coll : r0_rel sep n gk gk gc;
  fr_all : (forall x y, forb x y = false) -> (forall x y, req x y = false) -> forall a b c, (b < n)%nat -> collider_reason sep n gk a b c -> arrow_at gc a b;
  fr_fills : only_fills n gc go;
  fr_last : exists fuel' ft' ft'', (2 * n < fuel')%nat /\ fci_pass ind forb so fuel' mpl kall ft' sep go = Ret ((go, false), ft'') }.
Lemma fci_oriented_spec fuel depth mpl kall : (2 * n + n * n + 2 <= fuel)%nat ->
  exists gs gk gc go sep, fci_oriented ind forb req so srt fuel depth mpl kall n = Ret go /\ fci_run mpl kall gs gk gc go sep.
Proof.
  intros HF. unfold fci_oriented. destruct (fas_spec fuel depth) as (g0 & sep0 & -> & M0 & P0 & B0 & S0); [lia|]. cbn [of_opt obind fst snd].
  destruct (rule0_spec sep0 g0 M0) as (gk0 & g1 & -> & Mk0 & M1 & BK0 & R0 & _). cbn [obind].
  destruct (pdsep_spec ind so srt so_perm srt_perm n fuel sep0 g1 M1) as (g2 & sep & -> & [M2 Hsep] & D2); [lia|]. cbn [obind fst snd]. cbn [fst snd] in M2, Hsep.
  destruct (rule0_spec sep g2 M2) as (gk & g3 & -> & Mk & M3 & BK & R & CC). cbn [obind].
  destruct (loop_adv ind forb so (so_in so so_perm) n mpl kall sep fuel true g3) as (go & E & Mo & F & L); [pose proof (ccount_bound n g3); lia|exact M3|].
  exists g2, gk, g3, go, sep. split; [exact E|]. constructor; auto.
  - intros i j Hi Hj N Z0. destruct (D2 i j Hi Hj) as [[E1 E2]|(_ & _ & Sp)]; [|right; exact Sp]. apply P0; auto.
    assert (SA1 : same_adj n gk0 g1) by (eapply same_adj_fills; [|apply R0]; intros ? ? _ _; reflexivity).
    destruct (Z.eq_dec (gm g0 i j) 0) as [|Nz]; [assumption|]. exfalso.
    assert (Nz' : gm g0 j i <> 0) by (intros Q'; apply Nz; now apply (mx_zero n g0 M0)).
    apply (bk_marks_adj g0 gk0 M0 Mk0 BK0 j i Hj Hi) in Nz. apply (SA1 j i Hj Hi) in Nz. unfold adj in Nz. congruence.
  - intros i j Hi Hj F1 F2. pose proof (B0 i j Hi Hj F1 F2) as Z0.
    assert (SA1 : same_adj n gk0 g1) by (eapply same_adj_fills; [|apply R0]; intros ? ? _ _; reflexivity).
    assert (Z1 : gm g1 i j = 0).
    { destruct (Z.eq_dec (gm g1 i j) 0) as [|Nz]; [assumption|]. exfalso. apply (SA1 j i Hj Hi) in Nz. apply (bk_marks_adj g0 gk0 M0 Mk0 BK0 j i Hj Hi) in Nz. now apply Nz. }
    destruct (D2 i j Hi Hj) as [[E1 E2]|(E1 & _)]; congruence.
  - intros Ho NF x y U Hx Hy N E1. destruct (Hsep x y Hx Hy) as [E2|(cs & _ & E2 & C & I)].
    + rewrite E2 in E1. now apply S0.
    + rewrite E2 in E1. injection E1 as <-. exists cs. split; [apply incl_refl|auto].
Qed.
Lemma fci_spec fuel depth mpl kall : (2 * n + n * n + 2 <= fuel)%nat ->
  exists gs gk gc go sep g l, fci ind forb req so srt fuel depth mpl kall n = Ret (g, l) /\ fci_run mpl kall gs gk gc go sep /\
    mixed n g /\ (forall a b, gm g a b = gm go a b) /\ map fst l = get_graph_edges go /\ forall en, In en l -> color_ok n go en.
Proof.
  intros HF. destruct (fci_oriented_spec fuel depth mpl kall HF) as (gs & gk & gc & go & sep & E & H). unfold fci. rewrite E. cbn [obind].
  destruct (color_spec n fuel go (fr_o _ _ _ _ _ _ _ H)) as (g & l & E2 & H2); [lia|]. exists gs, gk, gc, go, sep, g, l. auto.
Qed.
End Whole.
