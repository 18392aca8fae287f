(** get_sepset on a DAG: invariants of the search. *)
From Verif Require Import Base EdgeModel GraphModel GraphSpec GraphProofs UtilsModel UtilsProofs DsepSpec DsepProofs DsepTheory SepsetModel.
From Coq Require Import Permutation.
Local Open Scope nat_scope.

Lemma list_eqb_eq l : forall m, list_eqb l m = true <-> l = m.
Proof.
  induction l as [|a l IH]; intros [|b m]; cbn; try (split; [discriminate|intros E; discriminate E]); [tauto|].
  rewrite andb_true_iff, Nat.eqb_eq, IH. split; [intros [-> ->]; reflexivity|intros E; injection E; auto].
Qed.
Lemma remove_first_app b z w : ~ In b z -> remove_first b (z ++ b :: w) = z ++ w.
Proof.
  induction z as [|c z IH]; intros N; cbn; [now rewrite Nat.eqb_refl|]. destruct (Nat.eqb_spec c b) as [->|]; [exfalso; apply N; now left|].
  rewrite IH; [reflexivity|]. intros K. apply N. now right.
Qed.

Section Sepset.
Variable g : ggraph.
Hypothesis Hdag : dag g.
Notation n := (gn g).
Variables (x y : nat) (latent : nat -> bool) (afuel : nat).
Hypothesis Hx : x < n.
Hypothesis Hy : y < n.
Hypothesis Hxy : x <> y.
Hypothesis Haf : S (n * S n ^ n) <= afuel.

Definition anc (v : nat) : Prop := reach (dedge g) v x \/ reach (dedge g) v y.
(** What holds of z all the time. *)
Definition okz (z : list nat) : Prop := NoDup z /\ forall v, In v z -> v < n /\ v <> x /\ v <> y /\ anc v.
Lemma anc_up a b : dedge g a b -> anc b -> anc a.
Proof. intros H [R|R]; [left|right]; econstructor; eauto. Qed.
Lemma anc_reach a b : reach (dedge g) a b -> anc b -> anc a.
Proof. intros R. induction R as [|a c b E _ IH]; [auto|]. intros H. apply (anc_up a c E). auto. Qed.
Lemma okz_length z : okz z -> length z <= n.
Proof.
  intros [ND H]. rewrite <- (seq_length n 0). apply NoDup_incl_length; [exact ND|]. intros v Hv. apply in_seq0. now apply H.
Qed.
Lemma okz_fuel z : okz z -> anc_fuel g z <= afuel.
Proof. intros H. apply okz_length in H. unfold anc_fuel. assert (length z * S n ^ n <= n * S n ^ n) by (apply Nat.mul_le_mono_r; exact H). lia. Qed.

Lemma collider_spec a b c : adjacent g a b -> adjacent g b c -> exists v, is_def_collider g a b c = Ok v /\ (v = true <-> dedge g a b /\ dedge g c b).
Proof.
  intros Hab Hbc. assert (E : forall u v, adjacent g u v -> get_edge g u v = Ok (Some (dmark g u v))).
  { intros u v H. apply (adjacent_spec g Hdag) in H. destruct H as (Hu & Hv & N). unfold get_edge, dmark. destruct (Z.eqb_spec (gm g u v) 0); [contradiction|].
    destruct (proj2 (proj2 Hdag) u v Hu Hv N) as [[E1 E2]|[E1 E2]]; rewrite E1, E2; reflexivity. }
  unfold is_def_collider. rewrite (E a b Hab), (E b c Hbc). cbn [res_bind]. eexists. split; [reflexivity|].
  rewrite (dmark_prox_far g Hdag a b Hab), (dmark_prox_near g Hdag b c Hbc). destruct (dedge_dec g a b), (dedge_dec g c b); cbn; intuition congruence.
Qed.
Lemma node_reachable_spec a b c z : okz z -> adjacent g a b -> adjacent g b c -> exists r, node_reachable afuel g a b c z = Ret r /\ (r = true <-> opens g z a b c).
Proof.
  intros Hz Hab Hbc. unfold node_reachable. destruct (collider_spec a b c Hab Hbc) as (v & -> & Hv).
  destruct (is_ancestor_correct g Hdag afuel b z) as (r & -> & Hr); [intros u Hu; now apply (proj2 Hz)|now apply okz_fuel|].
  unfold opens. destruct v; cbn [negb andb].
  - exists r. split; [reflexivity|]. rewrite Hr. assert (HC : dedge g a b /\ dedge g c b) by now apply Hv. split; [intros (q & Hq); left; split; [apply HC|split; [apply HC|eauto]]|].
    intros [(_ & _ & q & Hq)|[N _]]; [eauto|tauto].
  - assert (NC : ~ (dedge g a b /\ dedge g c b)) by (intros K; apply Hv in K; discriminate). destruct (memb b z) eqn:M; cbn [negb].
    + exists false. split; [reflexivity|]. apply memb_In in M. split; [discriminate|]. intros [(H1 & H2 & _)|[_ H]]; [exfalso; tauto|contradiction].
    + exists true. split; [reflexivity|]. apply memb_not_In in M. tauto.
Qed.
Lemma in_adjacent a b : a < n -> (In b (get_adjacent_nodes g a) <-> adjacent g a b).
Proof.
  intros Ha. unfold get_adjacent_nodes. rewrite filter_In, in_seq0, andb_true_iff, !negb_true_iff, !Z.eqb_neq, (adjacent_spec g Hdag). split.
  - intros (Hb & H1 & H2). auto.
  - intros (_ & Hb & H). split; [exact Hb|]. split; [exact H|]. destruct (proj2 (proj2 Hdag) a b Ha Hb H) as [[E1 E2]|[E1 E2]]; rewrite E2; discriminate.
Qed.
Lemma pass_spec a b z : okz z -> b < n -> adjacent g a b -> exists cs, get_pass_nodes afuel g a b z = Ret cs /\
  forall c, In c cs <-> adjacent g b c /\ c <> a /\ opens g z a b c.
Proof.
  intros Hz Hb Hab. unfold get_pass_nodes.
  assert (H : forall l, (forall c, In c l -> adjacent g b c) -> exists cs, pass_loop afuel g a b z l = Ret cs /\ forall c, In c cs <-> In c l /\ c <> a /\ opens g z a b c).
  { induction l as [|c l IH]; intros HL; [exists []; cbn; split; [reflexivity|tauto]|]. destruct IH as (cs & E & H); [intros; apply HL; now right|]. cbn [pass_loop].
    destruct (Nat.eqb_spec c a) as [->|N]; [exists cs; split; [exact E|]; intros c; rewrite H; cbn [In]; split; [tauto|]; intros ([<-|K] & K2 & K3); [contradiction|auto]|].
    destruct (node_reachable_spec a b c z Hz Hab) as (r & -> & Hr); [apply HL; now left|]. rewrite E. eexists. split; [reflexivity|]. intros d. destruct r; cbn [In]; rewrite H.
    - split; [intros [<-|K]; [tauto|tauto]|]. intros ([<-|K] & K2); [now left|tauto].
    - split; [tauto|]. intros ([<-|K] & K2 & K3); [apply Hr in K3; discriminate|tauto]. }
  destruct (H (get_adjacent_nodes g b)) as (cs & E & HC); [intros c Hc; now apply in_adjacent|]. exists cs. split; [exact E|]. intros c. now rewrite HC, in_adjacent.
Qed.

(** No open path from (a, b) on to y that avoids [path]. *)
Definition no_way (z path : list nat) (a b : nat) : Prop :=
  forall m, active g z (a :: b :: m) -> (exists l, b :: m = l ++ [y]) -> NoDup (b :: m) -> (forall v, In v (b :: m) -> ~ In v path) -> False.
(** The result of one call. *)
Definition result (z path : list nat) (a b : nat) (r : bool) (z' : list nat) : Prop :=
  okz z' /\ (exists w, z' = z ++ w /\ forall v, In v w -> ~ In v path) /\
  (r = true -> b = y \/ (dedge g a b /\ dedge g y b /\ anc b)) /\
  (r = false -> z' = z -> no_way z path a b) /\ (b = y -> r = true).
(** What a call may assume. *)
Definition callable (z path : list nat) (a b : nat) : Prop :=
  okz z /\ adjacent g a b /\ In x path /\ In a path /\ NoDup path /\ (forall v, In v path -> v < n) /\ (dedge g b a -> anc b).

Lemma any_spec path b (f : nat -> list nat -> outcome (bool * list nat)) :
  (forall c z, callable z path b c -> exists r z', f c z = Ret (r, z') /\ result z path b c r z') ->
  forall cs z, okz z -> (forall c, In c cs -> forall z', okz z' -> callable z' path b c) ->
  exists r z', any_found f cs z = Ret (r, z') /\ okz z' /\ (exists w, z' = z ++ w /\ forall v, In v w -> ~ In v path) /\
    (r = true -> exists c, In c cs /\ (c = y \/ (dedge g b c /\ dedge g y c /\ anc c))) /\
    (r = false -> z' = z -> forall c, In c cs -> no_way z path b c) /\ (r = false -> ~ In y cs).
Proof.
  intros Hf. induction cs as [|c cs IH]; intros z Hz HC.
  - exists false, z. cbn. split; [reflexivity|]. split; [exact Hz|]. split; [exists []; rewrite app_nil_r; split; [reflexivity|intros v []]|]. split; [discriminate|]. split; [intros _ _ c []|auto].
  - cbn [any_found]. destruct (Hf c z) as (r & z1 & -> & (O1 & (w1 & E1 & W1) & T1 & F1 & Y1)); [apply HC; [now left|exact Hz]|]. destruct r.
    + exists true, z1. split; [reflexivity|]. split; [exact O1|]. split; [exists w1; auto|]. split; [intros _; exists c; split; [now left|auto]|]. split; discriminate.
    + destruct (IH z1 O1) as (r & z' & E & O2 & (w2 & E2 & W2) & T2 & F2 & Y2); [intros d Hd; apply HC; now right|]. exists r, z'. split; [exact E|]. split; [exact O2|]. split; [|split; [|split]].
      * exists (w1 ++ w2). rewrite E2, E1, <- app_assoc. split; [reflexivity|]. intros v Hv. apply in_app_or in Hv. destruct Hv; auto.
      * intros Q. destruct (T2 Q) as (d & Hd & K). exists d. split; [now right|exact K].
      * intros Q EZ. assert (H : w1 = [] /\ w2 = []). { rewrite EZ, E1, <- app_assoc in E2. rewrite <- (app_nil_r z) in E2 at 1. apply app_inv_head in E2. symmetry in E2. now apply app_eq_nil in E2. }
        destruct H as [-> ->]. rewrite app_nil_r in E1, E2. subst z1. intros d [<-|Hd]; [now apply F1|]. apply F2; auto.
      * intros Q [E3|Hd]; [|now apply Y2]. specialize (Y1 E3). discriminate.
Qed.
Lemma opens_anc z a b c : okz z -> opens g z a b c -> dedge g a b -> dedge g c b -> anc b.
Proof. intros Hz [(_ & _ & q & Hq & R)|[N _]] H1 H2; [|tauto]. apply (anc_reach b q R). now apply (proj2 Hz). Qed.
Lemma next_ok z path a b c : callable z path a b -> ~ In b path -> opens g z a b c -> adjacent g b c -> forall z', okz z' -> callable z' (path ++ [b]) b c.
Proof.
  intros (Hz & Hab & Ix & Ia & ND & HB & HA) Nb HO Hbc z' Hz'. split; [exact Hz'|]. split; [exact Hbc|]. split; [apply in_or_app; now left|]. split; [apply in_or_app; right; now left|]. split; [|split].
  - pose proof (Add_app b path []) as Q. rewrite app_nil_r in Q. apply (NoDup_Add Q). split; auto.
  - intros v Hv. apply in_app_or in Hv. destruct Hv as [Hv|[<-|[]]]; [auto|]. apply (adjacent_spec g Hdag) in Hab. apply Hab.
  - intros Hcb. apply (anc_up c b Hcb). destruct Hab as [H|H]; [now apply (opens_anc z a b c)|now apply HA].
Qed.
Lemma step_no_way z path a b cs : ~ In b path -> b <> y -> In a path -> (forall c, In c cs <-> adjacent g b c /\ c <> a /\ opens g z a b c) -> (forall c, In c cs -> no_way z (path ++ [b]) b c) -> no_way z path a b.
Proof.
  intros Nb Ny Ia HC HN m HA [l El] ND Hp. destruct m as [|c m].
  - destruct l as [|u [|v l]]; cbn in El; try discriminate. injection El as E. contradiction.
  - pose proof HA as HA0. apply active_cons2 in HA. destruct HA as (_ & HA & HO). specialize (HO c m eq_refl). assert (Hbc : adjacent g b c) by (apply active_cons2 in HA; apply HA).
    assert (Hc : In c cs). { apply HC. split; [exact Hbc|]. split; [|exact HO]. intros ->. apply (Hp a); [right; now left|exact Ia]. }
    inversion ND as [|? ? N1 N2]; subst. apply (HN c Hc m HA); [|exact N2|].
    + destruct l as [|u l]; cbn in El; [discriminate|]. injection El as _ El. exists l. exact El.
    + intros v Hv K. apply in_app_or in K. destruct K as [K|[<-|[]]]; [apply (Hp v); [now right|exact K]|contradiction].
Qed.
Lemma path_spec : forall fuel path a b z, callable z path a b -> n < fuel + length path ->
  exists r z', path_found fuel afuel g latent y a b path z = Ret (r, z') /\ result z path a b r z'.
Proof.
  induction fuel as [|f IH]; intros path a b z HC HF.
  - exfalso. destruct HC as (_ & _ & _ & _ & ND & HB & _). assert (length path <= n); [|lia]. rewrite <- (seq_length n 0). apply NoDup_incl_length; [exact ND|]. intros v Hv. apply in_seq0. auto.
  - pose proof HC as (Hz & Hab & Ix & Ia & ND & HB & HA). assert (Hb : b < n) by (apply (adjacent_spec g Hdag) in Hab; apply Hab). cbn [path_found].
    assert (W0 : forall z0 : list nat, exists w, z0 = z0 ++ w /\ forall v, In v w -> ~ In v path) by (intros z0; exists []; rewrite app_nil_r; split; [reflexivity|intros v []]).
    destruct (Nat.eqb_spec b y) as [->|Ny]; [exists true, z; split; [reflexivity|]; split; [exact Hz|]; split; [apply W0|]; split; [now left|]; split; [discriminate|reflexivity]|].
    destruct (memb b path) eqn:M.
    { apply memb_In in M. exists false, z. split; [reflexivity|]. split; [exact Hz|]. split; [apply W0|]. split; [discriminate|]. split; [|intros; contradiction]. intros _ _ m _ _ _ Hp. apply (Hp b); [now left|exact M]. }
    apply memb_not_In in M. unfold latent_test. cbn [orb].
    assert (Hf : forall c z0, callable z0 (path ++ [b]) b c -> exists r z', path_found f afuel g latent y b c (path ++ [b]) z0 = Ret (r, z') /\ result z0 (path ++ [b]) b c r z').
    { intros c z0 H0. apply IH; [exact H0|]. rewrite app_length. cbn. lia. }
    destruct (pass_spec a b z Hz Hb Hab) as (cs & EP & HP).
    assert (HN : forall c, In c cs -> forall z', okz z' -> callable z' (path ++ [b]) b c) by (intros c Hc; apply HP in Hc; apply (next_ok z path a b c); tauto).
    destruct (any_spec (path ++ [b]) b _ Hf cs z Hz HN) as (r & z1 & EA & O1 & (w1 & E1 & W1) & T1 & F1 & _).
    assert (W1' : forall v, In v w1 -> ~ In v path) by (intros v Hv K; apply (W1 v Hv); apply in_or_app; now left).
    rewrite EP. destruct (memb b z) eqn:Mz.
    + apply memb_In in Mz. exists r, z1. split; [exact EA|]. split; [exact O1|]. split; [exists w1; auto|]. split; [|split; [|intros; contradiction]].
      * intros Q. right. destruct (T1 Q) as (c & Hc & K). apply HP in Hc. destruct Hc as (_ & _ & [(H1 & H2 & _)|[_ N]]); [|contradiction]. destruct K as [->|(K1 & _)]; [|exfalso; now apply (dag_asym g Hdag b c)].
        split; [exact H1|]. split; [exact H2|]. now apply (proj2 Hz).
      * intros Q EZ. apply (step_no_way z path a b cs); auto.
    + apply memb_not_In in Mz. rewrite EA. destruct r.
      2:{ exists false, z1. split; [reflexivity|]. split; [exact O1|]. split; [exists w1; auto|]. split; [discriminate|]. split; [|intros; contradiction]. intros Q EZ. apply (step_no_way z path a b cs); auto. }
      assert (Nb1 : ~ In b z1). { rewrite E1. intros K. apply in_app_or in K. destruct K as [K|K]; [contradiction|]. apply (W1 b K). apply in_or_app. right. now left. }
      assert (Ab : anc b).
      { destruct (T1 eq_refl) as (c & Hc & K). apply HP in Hc. destruct Hc as (Hbc & _ & HO). destruct K as [->|(K1 & _ & K3)]; [|now apply (anc_up b c)].
        destruct Hbc as [H|H]; [apply (anc_up b y H); right; constructor|]. destruct Hab as [H'|H']; [now apply (opens_anc z a b y)|now apply HA]. }
      assert (O1b : okz (z1 ++ [b])).
      { split.
        - pose proof (Add_app b z1 []) as Q. rewrite app_nil_r in Q. apply (NoDup_Add Q). split; [apply O1|exact Nb1].
        - intros v Hv. apply in_app_or in Hv. destruct Hv as [Hv|[<-|[]]]; [now apply (proj2 O1)|]. split; [exact Hb|]. split; [intros ->; contradiction|]. split; [exact Ny|exact Ab]. }
      destruct (pass_spec a b (z1 ++ [b]) O1b Hb Hab) as (cs2 & EP2 & HP2). rewrite EP2.
      assert (HN2 : forall c, In c cs2 -> forall z', okz z' -> callable z' (path ++ [b]) b c).
      { intros c Hc. apply HP2 in Hc. apply (next_ok (z1 ++ [b]) path a b c); try tauto. split; [exact O1b|]. tauto. }
      destruct (any_spec (path ++ [b]) b _ Hf cs2 (z1 ++ [b]) O1b HN2) as (r & z2 & EA2 & O2 & (w2 & E2 & W2) & T2 & _ & _). rewrite EA2.
      assert (W2' : forall v, In v w2 -> ~ In v path) by (intros v Hv K; apply (W2 v Hv); apply in_or_app; now left).
      destruct r.
      * exists true, (remove_first b z2). split; [reflexivity|].
        assert (ER : remove_first b z2 = z1 ++ w2) by (rewrite E2, <- app_assoc; cbn [app]; now apply remove_first_app). rewrite ER.
        assert (E2' : z2 = z1 ++ b :: w2) by (rewrite E2, <- app_assoc; reflexivity).
        split; [|split; [|split; [|split]]].
        -- split; [destruct O2 as [ND2 _]; rewrite E2' in ND2; now apply NoDup_remove_1 in ND2|]. intros v Hv. apply (proj2 O2). rewrite E2'. apply in_or_app. apply in_app_or in Hv. destruct Hv as [Hv|Hv]; [now left|right; now right].
        -- exists (w1 ++ w2). rewrite E1, <- app_assoc. split; [reflexivity|]. intros v Hv. apply in_app_or in Hv. destruct Hv; auto.
        -- intros _. right. destruct (T2 eq_refl) as (c & Hc & K). apply HP2 in Hc. destruct Hc as (_ & _ & [(H1 & H2 & _)|[_ N]]); [|exfalso; apply N; apply in_or_app; right; now left].
           destruct K as [->|(K1 & _)]; [auto|exfalso; now apply (dag_asym g Hdag b c)].
        -- discriminate.
        -- intros; contradiction.
      * exists false, z2. split; [reflexivity|]. assert (E2' : z2 = z ++ (w1 ++ b :: w2)) by (rewrite E2, E1, <- !app_assoc; reflexivity). split; [exact O2|]. split; [|split; [discriminate|split; [|intros; contradiction]]].
        -- exists (w1 ++ b :: w2). split; [exact E2'|]. intros v Hv. apply in_app_or in Hv. destruct Hv as [Hv|[<-|Hv]]; auto.
        -- intros _ EZ. exfalso. rewrite EZ in E2'. rewrite <- (app_nil_r z) in E2' at 1. apply app_inv_head in E2'. destruct w1; discriminate.
Qed.

(** ** The loop *)
Variable srt : list nat -> list nat.
Hypothesis Hsrt : forall l, Permutation (srt l) l.
Lemma okz_perm z z' : Permutation z z' -> okz z -> okz z'.
Proof. intros H [ND HZ]. split; [now apply (Permutation_NoDup H)|]. intros v Hv. apply HZ. apply (Permutation_in v (Permutation_sym H) Hv). Qed.
Lemma top_callable z b : okz z -> adjacent g x b -> callable z [x] x b.
Proof.
  intros Hz H. split; [exact Hz|]. split; [exact H|]. split; [now left|]. split; [now left|]. split; [constructor; [intros []|constructor]|]. split; [intros v [<-|[]]; exact Hx|].
  intros E. left. now apply reach_one.
Qed.
Lemma active_ext z z' p : (forall v, In v z <-> In v z') -> active g z p -> active g z' p.
Proof.
  intros H [H1 H2]. split; [exact H1|]. intros l a b c r E. destruct (H2 l a b c r E) as [(K1 & K2 & q & Hq & K3)|[K1 K2]]; [left|right].
  - split; [exact K1|]. split; [exact K2|]. exists q. split; [now apply H|exact K3].
  - split; [exact K1|]. intros K. apply K2. now apply H.
Qed.
Lemma loop_spec pfuel : n <= pfuel -> forall fuel z, okz z -> n < fuel + length z ->
  (adjacent g x y -> visit_loop fuel pfuel afuel g latent srt x y z = Ret None) /\
  (~ adjacent g x y -> exists Z, visit_loop fuel pfuel afuel g latent srt x y z = Ret (Some Z) /\ okz Z /\ ~ dconnected g x y Z).
Proof.
  intros Hp. induction fuel as [|f IH]; intros z Hz HF; [exfalso; apply okz_length in Hz; lia|]. cbn [visit_loop].
  assert (Hf : forall c z0, callable z0 [x] x c -> exists r z', path_found pfuel afuel g latent y x c [x] z0 = Ret (r, z') /\ result z0 [x] x c r z') by (intros c z0 H0; apply path_spec; [exact H0|cbn; lia]).
  destruct (any_spec [x] x _ Hf (get_adjacent_nodes g x) z Hz) as (r & z1 & EA & O1 & (w1 & E1 & W1) & T1 & F1 & Y1).
  { intros c Hc z' Hz'. apply top_callable; [exact Hz'|]. now apply in_adjacent. }
  rewrite EA. destruct r.
  - split; [reflexivity|]. intros NA. exfalso. destruct (T1 eq_refl) as (c & Hc & K). apply in_adjacent in Hc; [|exact Hx]. destruct K as [->|(K1 & K2 & K3)]; [contradiction|].
    destruct Hdag as (_ & AC & _). destruct K3 as [K3|K3]; [apply (AC x)|apply (AC y)]; exists c; auto.
  - assert (NA : ~ adjacent g x y) by (intros K; apply (Y1 eq_refl); now apply in_adjacent). split; [intros K; contradiction|]. intros _.
    destruct (list_eqb (srt z1) (srt z)) eqn:EL.
    + exists (srt z1). split; [reflexivity|]. assert (O1' : okz (srt z1)) by (apply (okz_perm z1); [apply Permutation_sym, Hsrt|exact O1]). split; [exact O1'|].
      apply list_eqb_eq in EL. assert (w1 = []).
      { assert (HL : length z1 = length z) by (rewrite <- (Permutation_length (Hsrt z1)), <- (Permutation_length (Hsrt z)); now rewrite EL). rewrite E1, app_length in HL. destruct w1; [reflexivity|cbn in HL; lia]. }
      subst w1. rewrite app_nil_r in E1. subst z1. intros (m & ND & HA).
      assert (HA' : active g z (x :: m ++ [y])) by (apply (active_ext (srt z)); [|exact HA]; intros v; split; apply Permutation_in; [apply Hsrt|apply Permutation_sym, Hsrt]).
      destruct m as [|b m]; [cbn in HA'; apply NA; apply active_cons2 in HA'; apply HA'|]. cbn [app] in HA', ND.
      assert (Hb : adjacent g x b) by (apply active_cons2 in HA'; apply HA'). inversion ND as [|? ? N1 N2]; subst.
      apply (F1 eq_refl eq_refl b (proj2 (in_adjacent x b Hx) Hb) (m ++ [y]) HA'); [exists (b :: m); reflexivity|exact N2|]. intros v Hv [<-|[]]. contradiction.
    + assert (O1' : okz (srt z1)) by (apply (okz_perm z1); [apply Permutation_sym, Hsrt|exact O1]). apply IH; [exact O1'| |exact NA].
      rewrite (Permutation_length (Hsrt z1)), E1, app_length. destruct w1 as [|v w1]; [|cbn; lia]. exfalso. rewrite app_nil_r in E1. subst z1.
      assert (Q : list_eqb (srt z) (srt z) = true) by now apply list_eqb_eq. congruence.
Qed.
End Sepset.
