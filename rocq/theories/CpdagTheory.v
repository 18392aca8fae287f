(** Order theory behind the labelling of compelled edges: no code here, only relations on node indices. *)
From Verif Require Import Base EdgeModel GraphModel GraphSpec GraphProofs.

Section Labels.
Variable E : nat -> nat -> Prop.           (* the edges of the given DAG *)
Variable r : nat -> nat.                   (* a topological numbering *)
Variable L : nat -> nat -> Prop.           (* the edges labelled compelled *)
Hypothesis E_dec : forall a b, E a b \/ ~ E a b.
Hypothesis r_E : forall a b, E a b -> r a < r b.
Hypothesis L_E : forall a b, L a b -> E a b.
Hypothesis L_dec : forall a b, L a b \/ ~ L a b.

Definition latest (x y : nat) : Prop := E x y /\ forall w, E w y -> w = x \/ r w < r x.
Hypothesis latest_ex : forall w y, E w y -> exists x, latest x y.

Definition condA (x y : nat) : Prop := exists w, L w x /\ ~ E w y.
Definition condC (x y : nat) : Prop := exists z, z <> x /\ E z y /\ ~ E z x.
Hypothesis cond_dec : forall x y, latest x y -> (condA x y \/ condC x y) \/ ~ (condA x y \/ condC x y).
Hypothesis L_all : forall x y, latest x y -> condA x y \/ condC x y -> forall w, E w y -> L w y.
Hypothesis L_copy : forall x y, latest x y -> ~ (condA x y \/ condC x y) -> forall w, E w y -> (L w y <-> L w x).

Definition adj (a b : nat) : Prop := E a b \/ E b a.
Lemma adj_dec a b : adj a b \/ ~ adj a b.
Proof. unfold adj. destruct (E_dec a b), (E_dec b a); tauto. Qed.
Lemma adj_sym a b : adj a b -> adj b a.
Proof. unfold adj. tauto. Qed.
Lemma E_asym a b : E a b -> ~ E b a.
Proof. intros H1 H2. apply r_E in H1. apply r_E in H2. lia. Qed.
Lemma E_irr a : ~ E a a.
Proof. intros H. apply r_E in H. lia. Qed.

Lemma not_C_sub x y w : ~ condC x y -> E w y -> w <> x -> E w x.
Proof. intros H Hw N. destruct (E_dec w x) as [|H']; [assumption|]. exfalso. apply H. exists w. auto. Qed.
Lemma not_A_sub x y w : ~ condA x y -> L w x -> E w y.
Proof. intros H Hw. destruct (E_dec w y) as [|H']; [assumption|]. exfalso. apply H. exists w. auto. Qed.

(** In the copying case the labelled parents of x and y agree. *)
Lemma copy_same x y : latest x y -> ~ (condA x y \/ condC x y) -> forall w, L w y <-> L w x.
Proof.
  intros Hx Hn w. split; intros H.
  - apply (L_copy x y Hx Hn); auto.
  - apply (L_copy x y Hx Hn); [|exact H]. apply not_A_sub with (x := x); auto.
Qed.

(** * Labelled edges are compelled *)
Definition witness (y u : nat) : Prop :=
  L u y /\ (forall w, L w y -> w <> u -> ~ adj w u \/ E w u) /\
  ((exists z, L z y /\ z <> u /\ ~ adj z u) \/ (exists v, L v u /\ ~ E v y)).

Lemma has_witness : forall n y, r y < n -> (exists w, L w y) -> exists u, witness y u.
Proof.
  induction n as [|n IH]; intros y Hn [w Hw]; [lia|].
  destruct (latest_ex w y (L_E _ _ Hw)) as [x Hx].
  destruct (cond_dec x y Hx) as [HAC|HAC].
  - exists x. pose proof (L_all x y Hx HAC) as Hall. destruct Hx as [Hxy Hlast].
    assert (Hearly : forall v, E v y -> v <> x -> ~ adj v x \/ E v x).
    { intros v Hv Nv. destruct (E_dec v x); [auto|]. left. intros [H'|H']; [auto|].
      apply r_E in H'. destruct (Hlast v Hv); [auto|lia]. }
    split; [auto|]. split.
    + intros v Hv Nv. apply Hearly; auto.
    + destruct HAC as [(v & Hv1 & Hv2)|(z & N & Hz1 & Hz2)].
      * right. exists v. auto.
      * left. exists z. split; [auto|]. split; [exact N|]. destruct (Hearly z Hz1 N) as [Hq|Hq]; [exact Hq|contradiction].
  - pose proof (copy_same x y Hx HAC) as Hs. destruct Hx as [Hxy Hlast].
    destruct (IH x) as (u & H1 & H2 & H3).
    { apply r_E in Hxy. lia. }
    { exists w. now apply Hs. }
    exists u. split; [now apply Hs|]. split.
    + intros v Hv Nv. apply H2; auto. now apply Hs.
    + destruct H3 as [(z & Z1 & Z2 & Z3)|(v & V1 & V2)].
      * left. exists z. split; [now apply Hs|auto].
      * right. exists v. split; [exact V1|]. intros Hv. apply V2.
        apply not_C_sub with (y := y); auto.
        intros ->. apply L_E in V1. apply r_E in V1. apply L_E in H1. apply r_E in H1. lia.
Qed.

Section Sound.
Variable E' : nat -> nat -> Prop.
Variable r' : nat -> nat.
Hypothesis r_E' : forall a b, E' a b -> r' a < r' b.
Hypothesis skel : forall a b, adj a b <-> E' a b \/ E' b a.
Hypothesis vstr : forall a b c, a <> c -> ~ adj a c -> (E a b /\ E c b <-> E' a b /\ E' c b).

Lemma labelled_compelled : forall n y, r y < n -> forall w, L w y -> E' w y.
Proof.
  induction n as [|n IH]; intros y Hn w Hw; [lia|].
  destruct (has_witness (S (r y)) y) as (u & Huy & Hoth & Hcase); [lia|eauto|].
  assert (Dir : forall a b, E a b -> (E' b a -> False) -> E' a b).
  { intros a b Hab N. destruct (proj1 (skel a b)) as [H|H]; [now left|exact H|contradiction]. }
  assert (Acy : forall a b c, E' a b -> E' b c -> E' c a -> False).
  { intros a b c H1 H2 H3. apply r_E' in H1. apply r_E' in H2. apply r_E' in H3. lia. }
  assert (Tri : forall a b c, E' a b -> E' b c -> adj a c -> E' a c).
  { intros a b c H1 H2 H3. apply skel in H3. destruct H3 as [H3|H3]; [exact H3|]. destruct (Acy a b c H1 H2 H3). }
  assert (V : forall a c, L a y -> L c y -> a <> c -> ~ adj a c -> E' a y).
  { intros a c Ha Hc N NA. apply (vstr a y c N NA). auto. }
  destruct Hcase as [(z & Hz & Nz & Az)|(v & Hv & Nv)].
  - assert (Eu : E' u y) by (apply (V u z); auto; intros H; apply Az; now apply adj_sym).
    assert (Ez : E' z y) by (apply (V z u); auto).
    destruct (Nat.eq_dec w u) as [->|Nu]; [exact Eu|].
    destruct (Nat.eq_dec w z) as [->|Nwz]; [exact Ez|].
    destruct (adj_dec w u) as [Au|Au]; [|apply (V w u); auto].
    destruct (adj_dec w z) as [Awz|Awz]; [|apply (V w z); auto].
    destruct (Hoth w Hw Nu) as [?|Ewu]; [contradiction|].
    apply Dir; [now apply L_E|]. intros Hyw.
    assert (E' u w) by (apply (Tri u y w); auto; now apply adj_sym).
    assert (E' z w) by (apply (Tri z y w); auto; now apply adj_sym).
    destruct (proj2 (vstr u w z (fun e => Nz (eq_sym e)) (fun e => Az (adj_sym _ _ e)))) as [H' _]; auto.
    apply (E_asym _ _ H' Ewu).
  - assert (Evu : E' v u).
    { apply (IH u); auto. apply L_E in Huy. apply r_E in Huy. lia. }
    assert (Avy : ~ adj v y).
    { intros [H|H]; [auto|]. apply r_E in H. apply L_E in Hv. apply r_E in Hv. apply L_E in Huy. apply r_E in Huy. lia. }
    assert (Nvy : v <> y).
    { intros ->. apply L_E in Hv. apply r_E in Hv. apply L_E in Huy. apply r_E in Huy. lia. }
    assert (Euy : E' u y).
    { apply Dir; [now apply L_E|]. intros H. destruct (proj2 (vstr v u y Nvy Avy)) as [_ H']; auto.
      apply (E_asym _ _ H'). now apply L_E. }
    destruct (Nat.eq_dec w u) as [->|Nu]; [exact Euy|].
    destruct (adj_dec w u) as [Au|Au]; [|apply (V w u); auto].
    destruct (Hoth w Hw Nu) as [?|Ewu]; [contradiction|].
    assert (Nvw : v <> w) by (intros ->; apply Nv, L_E, Hw).
    destruct (adj_dec v w) as [Avw|Avw].
    + apply Dir; [now apply L_E|]. intros Hyw.
      assert (E' u w) by (apply (Tri u y w); auto; now apply adj_sym).
      assert (E' v w) by (apply (Tri v u w); auto).
      destruct (proj2 (vstr v w y Nvy Avy)) as [_ H']; auto.
      apply (E_asym _ _ H'). now apply L_E.
    + assert (E' w u).
      { apply (vstr v u w Nvw Avw). split; [now apply L_E|exact Ewu]. }
      apply (Tri w u y); auto. left. now apply L_E.
Qed.
End Sound.

(** * Unlabelled edges can be turned *)
Definition H (a b : nat) : Prop := (E a b /\ ~ L a b) \/ (E b a /\ ~ L b a).
Lemma H_sym a b : H a b -> H b a.
Proof. unfold H. tauto. Qed.
Lemma H_adj a b : H a b -> adj a b.
Proof. unfold H, adj. tauto. Qed.

Lemma vstruct_labelled : forall n b a c, r b < n -> E a b -> E c b -> a <> c -> ~ adj a c -> L a b.
Proof.
  induction n as [|n IH]; intros b a c Hn Ha Hc N NA; [lia|].
  destruct (latest_ex a b Ha) as [x Hx].
  destruct (cond_dec x b Hx) as [HAC|HAC]; [apply (L_all x b Hx HAC); auto|].
  assert (Nc : ~ condC x b) by tauto.
  assert (Na : a <> x).
  { intros ->. apply NA. right. apply not_C_sub with (y := b); auto. }
  assert (Ncx : c <> x).
  { intros ->. apply NA. left. apply not_C_sub with (y := b); auto. }
  apply (copy_same x b Hx HAC). apply (IH x a c); auto.
  - destruct Hx as [Hx _]. apply r_E in Hx. lia.
  - apply not_C_sub with (y := b); auto.
  - apply not_C_sub with (y := b); auto.
Qed.

Lemma unlabelled_same : forall n y w, r y < n -> E w y -> ~ L w y -> forall v, L v w <-> L v y.
Proof.
  induction n as [|n IH]; intros y w Hn Hw Nw v; [lia|].
  destruct (latest_ex w y Hw) as [x Hx].
  destruct (cond_dec x y Hx) as [HAC|HAC]; [exfalso; apply Nw; apply (L_all x y Hx HAC); auto|].
  rewrite (copy_same x y Hx HAC v).
  destruct (Nat.eq_dec w x) as [->|N]; [reflexivity|].
  apply (IH x w).
  - destruct Hx as [Hx _]. apply r_E in Hx. lia.
  - apply not_C_sub with (y := y); auto.
  - intros Hl. apply Nw. now apply (copy_same x y Hx HAC).
Qed.
Lemma H_same a b : H a b -> forall v, L v a <-> L v b.
Proof.
  intros [[H1 H2]|[H1 H2]] v.
  - apply (unlabelled_same (S (r b)) b a); auto.
  - symmetry. apply (unlabelled_same (S (r a)) a b); auto.
Qed.

(** The given order is perfect: two H-neighbours that precede a node are H-neighbours. *)
Lemma H_earlier a b c : H a b -> H c b -> r a < r b -> r c < r b -> a <> c -> H a c.
Proof.
  intros Hab Hcb Ra Rc N.
  destruct Hab as [[Eab Nab]|[Eba _]]; [|apply r_E in Eba; lia].
  destruct Hcb as [[Ecb Ncb]|[Ebc _]]; [|apply r_E in Ebc; lia].
  assert (Hs : forall v, L v a <-> L v b) by (apply H_same; left; auto).
  assert (Hs' : forall v, L v c <-> L v b) by (apply H_same; left; auto).
  destruct (adj_dec a c) as [[H1|H1]|NA].
  - left. split; [exact H1|]. intros Hl. apply Nab. now apply Hs'.
  - right. split; [exact H1|]. intros Hl. apply Ncb. now apply Hs.
  - exfalso. apply Nab. apply (vstruct_labelled (S (r b)) b a c); auto.
Qed.

(** * Turning: labelled edges stay, the others follow the numbering [p]. *)
Section Turn.
Variable p : nat -> nat.
Hypothesis p_inj : forall a b, H a b -> p a <> p b.
Hypothesis p_perfect : forall a b c, H a b -> H c b -> p a < p b -> p c < p b -> a <> c -> H a c.
Definition T (a b : nat) : Prop := L a b \/ (H a b /\ p a < p b).

Lemma H_not_L a b : H a b -> ~ L a b.
Proof.
  intros [[_ H1]|[H1 _]] H2; [auto|]. apply (E_asym _ _ H1). now apply L_E.
Qed.
Lemma T_skel a b : adj a b <-> T a b \/ T b a.
Proof.
  split.
  - intros H0. destruct (L_dec a b) as [H1|H1]; [left; now left|]. destruct (L_dec b a) as [H2|H2]; [right; now left|].
    assert (Hh : H a b) by (destruct H0; [left|right]; auto).
    destruct (lt_eq_lt_dec (p a) (p b)) as [[H3|H3]|H3].
    + left. right. auto.
    + destruct (p_inj a b Hh H3).
    + right. right. split; [now apply H_sym|exact H3].
  - intros [[H1|[H1 _]]|[H1|[H1 _]]].
    + left. now apply L_E.
    + now apply H_adj.
    + right. now apply L_E.
    + apply adj_sym. now apply H_adj.
Qed.
Lemma T_asym a b : T a b -> ~ T b a.
Proof.
  intros [H1|[H1 H1']] [H2|[H2 H2']].
  - apply (E_asym a b); now apply L_E.
  - apply (H_not_L a b (H_sym _ _ H2)); auto.
  - apply (H_not_L b a (H_sym _ _ H1)); auto.
  - lia.
Qed.
Lemma T_vstr a b c : a <> c -> ~ adj a c -> (E a b /\ E c b <-> T a b /\ T c b).
Proof.
  intros N NA. split.
  - intros [H1 H2]. split; left.
    + apply (vstruct_labelled (S (r b)) b a c); auto.
    + apply (vstruct_labelled (S (r b)) b c a); auto. intros H0. apply NA, adj_sym, H0.
  - intros [[H1|[H1 H1']] [H2|[H2 H2']]].
    + split; now apply L_E.
    + exfalso. apply NA. left. apply L_E. now apply (H_same c b H2).
    + exfalso. apply NA. right. apply L_E. now apply (H_same a b H1).
    + exfalso. apply NA. apply H_adj. apply p_perfect with (b := b); auto.
Qed.

Lemma Hreach_same a b : reach H a b -> forall v, L v a <-> L v b.
Proof.
  induction 1 as [|a b c H1 _ IH]; intros v; [reflexivity|]. rewrite <- IH. now apply H_same.
Qed.
Lemma T_acyclic : acyclic T.
Proof.
  assert (Inv : forall b a, reach T b a -> forall s,
    (reach H s b /\ p s < p b) \/ (exists c d, reach H s c /\ r c <= r d /\ L d b) ->
    (reach H s a /\ p s < p a) \/ (exists c d, reach H s c /\ r c <= r d /\ L d a)).
  { induction 1 as [b|b b' a Hbb _ IH]; intros s Hs; [exact Hs|]. apply IH.
    destruct Hbb as [Hl|[Hh Hp]]; destruct Hs as [[H1 H2]|(c & d & H1 & H2 & H3)].
    - right. exists b, b. auto.
    - right. exists c, b. split; [exact H1|]. split; [|exact Hl]. apply L_E in H3. apply r_E in H3. lia.
    - left. split; [|lia]. apply reach_trans with (b := b); [exact H1|now apply reach_one].
    - right. exists c, d. split; [exact H1|]. split; [exact H2|]. now apply (H_same b b' Hh). }
  intros a (b & Hab & Hba).
  destruct (Inv b a Hba a) as [[_ H1]|(c & d & H1 & H2 & H3)].
  - destruct Hab as [Hl|[Hh Hp]].
    + right. exists a, a. split; [constructor|]. auto.
    + left. split; [now apply reach_one|exact Hp].
  - lia.
  - apply (Hreach_same a c H1) in H3. apply L_E in H3. apply r_E in H3. lia.
Qed.
End Turn.
End Labels.

(** * Perfect orderings *)
Section Perfect.
Variable K : nat -> nat -> Prop.
Hypothesis K_sym : forall a b, K a b -> K b a.
Hypothesis K_dec : forall a b, {K a b} + {~ K a b}.

Definition clique (l : list nat) : Prop := forall a b, In a l -> In b l -> a <> b -> K a b.
Definition perfect (l : list nat) : Prop :=
  forall l1 b l2, l = l1 ++ b :: l2 -> forall a c, In a l1 -> In c l1 -> K a b -> K c b -> a <> c -> K a c.

Lemma perfect_nil : perfect [].
Proof. intros [|x l1] b l2 Hx; discriminate Hx. Qed.
Lemma perfect_app_l l m : perfect (l ++ m) -> perfect l.
Proof. intros HP l1 b l2 ->. apply (HP l1 b (l2 ++ m)). now rewrite <- app_assoc. Qed.
Lemma split_snoc {A} (l1 : list A) b l2 l s : l ++ [s] = l1 ++ b :: l2 ->
  (l2 = [] /\ b = s /\ l1 = l) \/ (exists l2', l2 = l2' ++ [s] /\ l = l1 ++ b :: l2').
Proof.
  intros Hx. destruct l2 as [|x l2 _] using rev_ind.
  - left. apply app_inj_tail in Hx. destruct Hx; subst; auto.
  - right. exists l2. rewrite app_comm_cons, app_assoc in Hx. apply app_inj_tail in Hx. destruct Hx as [-> ->]. auto.
Qed.
Lemma perfect_snoc l s : perfect l -> (forall a c, In a l -> In c l -> K a s -> K c s -> a <> c -> K a c) -> perfect (l ++ [s]).
Proof.
  intros HP Hs l1 b l2 Hx. apply split_snoc in Hx. destruct Hx as [(-> & -> & ->)|(l2' & -> & ->)]; [exact Hs|].
  apply (HP l1 b l2'). reflexivity.
Qed.
Lemma perfect_last l s : perfect (l ++ [s]) -> forall a c, In a l -> In c l -> K a s -> K c s -> a <> c -> K a c.
Proof. intros HP. apply (HP l s []). reflexivity. Qed.

Lemma perfect_start : forall pi, NoDup pi -> perfect pi -> forall c, NoDup c -> incl c pi -> clique c ->
  exists t, perfect (c ++ t) /\ NoDup (c ++ t) /\ forall x, In x (c ++ t) <-> In x pi.
Proof.
  induction pi as [|s pi IH] using rev_ind; intros Hd Hp c Dc Ic Cc.
  - exists []. assert (c = []) as -> by (destruct c as [|x c]; [reflexivity|]; destruct (Ic x); now left).
    cbn. split; [exact Hp|]. split; [constructor|]. tauto.
  - assert (Hd' : NoDup pi /\ ~ In s pi).
    { apply NoDup_remove in Hd. rewrite app_nil_r in Hd. exact Hd. }
    destruct Hd' as [Hd' Ns]. pose proof (perfect_app_l _ _ Hp) as Hp'. pose proof (perfect_last _ _ Hp) as Hlast.
    destruct (in_dec Nat.eq_dec s c) as [Hs|Hs].
    + destruct (in_split _ _ Hs) as (l1 & l2 & ->).
      assert (Dl := NoDup_remove _ _ _ Dc). destruct Dl as [Dl Nsl].
      assert (Il : incl (l1 ++ l2) pi).
      { intros x Hx. assert (In x (pi ++ [s])) as Hx'.
        { apply Ic. apply in_app_iff in Hx. apply in_app_iff. destruct Hx; [now left|right; now right]. }
        apply in_app_iff in Hx'. destruct Hx' as [|[<-|[]]]; [assumption|contradiction]. }
      assert (Kl : forall x, In x (l1 ++ l2) -> K x s).
      { intros x Hx. apply Cc.
        - apply in_app_iff in Hx. apply in_app_iff. destruct Hx; [now left|right; now right].
        - apply in_app_iff. right. now left.
        - intros ->. contradiction. }
      set (rest := filter (fun x => if K_dec x s then if in_dec Nat.eq_dec x (l1 ++ l2) then false else true else false) pi).
      assert (Hrest : forall x, In x rest <-> In x pi /\ K x s /\ ~ In x (l1 ++ l2)).
      { intros x. unfold rest. rewrite filter_In. destruct (K_dec x s), (in_dec Nat.eq_dec x (l1 ++ l2)); intuition congruence. }
      set (c' := (l1 ++ l2) ++ rest).
      assert (Dc' : NoDup c').
      { unfold c'. assert (Dr : NoDup rest) by now apply NoDup_filter.
        revert Dl. generalize dependent rest. intros rest Hrest _ Dr.
        assert (Hdis : forall x, In x (l1 ++ l2) -> ~ In x rest) by (intros x H1 H2; apply Hrest in H2; tauto).
        clear - Dr Hdis. induction (l1 ++ l2) as [|x l IHl]; intros Dl; [exact Dr|]. cbn. inversion Dl as [|? ? N1 N2]; subst.
        constructor.
        - rewrite in_app_iff. intros [|]; [auto|]. apply (Hdis x); [now left|assumption].
        - apply IHl; auto. intros y Hy. apply Hdis. now right. }
      assert (Kc' : forall x, In x c' -> K x s /\ In x pi).
      { intros x Hx. apply in_app_iff in Hx. destruct Hx as [Hx|Hx]; [auto|]. apply Hrest in Hx. tauto. }
      assert (Cc' : clique c').
      { intros a b Ha Hb Nab. destruct (Kc' a Ha), (Kc' b Hb). apply Hlast; auto. }
      destruct (IH Hd' Hp' c' Dc') as (t & Pt & Dt & It); [intros x Hx; now apply Kc'|exact Cc'|].
      exists (rest ++ t).
      assert (Nst : ~ In s (c' ++ t)) by (intros Hx; apply It in Hx; contradiction).
      assert (Eq : (l1 ++ s :: l2) ++ rest ++ t = l1 ++ s :: (l2 ++ rest ++ t)) by now rewrite <- app_assoc, <- app_comm_cons.
      assert (Eq' : c' ++ t = l1 ++ (l2 ++ rest ++ t)) by (unfold c'; now rewrite <- !app_assoc).
      rewrite Eq. split; [|split].
      * intros m1 b m2 Hx a d Ha Hb2 Kab Kdb Nad.
        assert (HH : (In s m1 /\ exists m1', c' ++ t = m1' ++ b :: m2 /\ (forall x, In x m1 -> x = s \/ In x m1')) \/
                     (b = s /\ m1 = l1) \/ (~ In s m1 /\ exists m2', c' ++ t = m1 ++ b :: m2')).
        { rewrite Eq'. clear - Hx Nst Eq'. rewrite Eq' in Nst. revert m1 Hx Nst. clear Eq'. generalize (l2 ++ rest ++ t) as l3. clear.
          induction l1 as [|x l1 IHl]; intros l3 m1 Hx Nst; destruct m1 as [|y m1]; cbn in Hx; injection Hx as -> Hx.
          - right. left. auto.
          - left. split; [now left|]. exists m1. cbn. split; [exact Hx|]. intros z [<-|Hz]; auto.
          - right. right. split; [tauto|]. exists (l1 ++ l3). reflexivity.
          - destruct (IHl l3 m1 Hx) as [(Hi & m1' & E1 & E2)|[[-> ->]|(Hi & m2' & E1)]].
            + intros Hi. apply Nst. now right.
            + left. split; [now right|]. exists (y :: m1'). cbn. split; [now rewrite E1|].
              intros z [<-|Hz]; [right; now left|]. destruct (E2 z Hz); [auto|right; now right].
            + right. left. auto.
            + right. right. split.
              * intros [<-|Hi']; [apply Nst; now left|auto].
              * exists m2'. cbn. now rewrite E1. }
        destruct HH as [(Hi & m1' & E1 & E2)|[[-> ->]|(Hi & m2' & E1)]].
        -- destruct (in_dec Nat.eq_dec b c') as [Hb|Hb].
           ++ (* b in the clique: everything before it, s included, is in the clique *)
              assert (Hin : forall x, In x m1' -> In x c').
              { clear - E1 Hb Dt. revert m1' E1. induction c' as [|y c' IHc]; intros m1' E1; [destruct Hb|].
                cbn in Dt. inversion Dt as [|? ? N1 N2]; subst. destruct m1' as [|z m1']; [intros x []|].
                cbn in E1. injection E1 as -> E1. intros x [<-|Hx]; [now left|]. right.
                destruct Hb as [->|Hb].
                - exfalso. apply N1. rewrite E1. apply in_app_iff. right. now left.
                - eapply IHc; eauto. }
              destruct (E2 a Ha) as [->|Ha'], (E2 d Hb2) as [->|Hd2].
              ** contradiction.
              ** apply K_sym. now apply Kc', Hin.
              ** now apply Kc', Hin.
              ** apply Cc'; auto.
           ++ assert (Nbs : ~ K s b).
              { intros Ks. apply Hb. apply in_app_iff. destruct (in_dec Nat.eq_dec b (l1 ++ l2)) as [|Nb]; [now left|].
                right. apply Hrest. split; [|split; [now apply K_sym|exact Nb]].
                apply It. rewrite E1. apply in_app_iff. right. now left. }
              destruct (E2 a Ha) as [->|Ha']; [contradiction|]. destruct (E2 d Hb2) as [->|Hd2]; [contradiction|].
              apply (Pt m1' b m2 E1); auto.
        -- apply Cc; auto; apply in_app_iff; now left.
        -- apply (Pt m1 b m2' E1); auto.
      * rewrite Eq' in Dt, Nst. apply (NoDup_Add (Add_app s l1 (l2 ++ rest ++ t))). auto.
      * intros x. rewrite (in_app_iff pi). rewrite <- It, Eq'. rewrite !in_app_iff. cbn [In]. rewrite !in_app_iff. tauto.
    + assert (Ic' : incl c pi).
      { intros x Hx. specialize (Ic x Hx). apply in_app_iff in Ic. destruct Ic as [|[<-|[]]]; [assumption|contradiction]. }
      destruct (IH Hd' Hp' c Dc Ic' Cc) as (t & Pt & Dt & It).
      exists (t ++ [s]). rewrite app_assoc. split; [|split].
      * apply perfect_snoc; [exact Pt|]. intros a b Ha Hb. apply Hlast; now apply It.
      * rewrite <- (app_nil_r (c ++ t)) in Dt. 
        assert (Hn : ~ In s ((c ++ t) ++ [])) by (rewrite app_nil_r; intros Hx; apply It in Hx; contradiction).
        apply (NoDup_Add (Add_app s (c ++ t) [])). auto.
      * intros x. rewrite in_app_iff, It, in_app_iff. tauto.
Qed.
End Perfect.
