(** Scores of the form  sum over the variables of  h(variable and parents) - h(parents)  are equal on equivalent DAGs. *)
From Verif Require Import Base EdgeModel GraphModel GraphSpec GraphProofs RankLib UtilsModel UtilsProofs
  DsepSpec DsepProofs MeekSpec MeekProofs CpdagSpec CpdagProps GESSpec GESTheory GESMain.
From Coq Require Import Permutation.
Local Open Scope nat_scope.

(* ---------- the top of a set of nodes ---------- *)
(** [v] is in [T] and every other node of [T] is a parent of [v]. *)
Definition is_top (D : ggraph) (T : list nat) (v : nat) : Prop := In v T /\ forall t, In t T -> t <> v -> directed D t v.

Lemma top_unique D T v w : dag D -> is_top D T v -> is_top D T w -> v = w.
Proof.
  intros Hd [V1 V2] [W1 W2]. destruct (Nat.eq_dec v w) as [E|N]; [exact E|]. exfalso.
  apply (directed_asym D v w); auto.
Qed.

Lemma max_by (f : nat -> nat) l : l <> [] -> exists m, In m l /\ forall x, In x l -> f x <= f m.
Proof.
  induction l as [|a l IH]; [congruence|]. intros _. destruct l as [|b l].
  - exists a. split; [now left|]. intros x [<-|[]]. lia.
  - destruct IH as (m & Hm & Hx); [discriminate|]. destruct (Nat.leb_spec (f a) (f m)) as [L|L].
    + exists m. split; [now right|]. intros x [<-|H]; auto.
    + exists a. split; [now left|]. intros x [<-|H]; [lia|]. specialize (Hx x H). lia.
Qed.

Lemma clique_top D K : dag D -> K <> [] -> (forall a b, In a K -> In b K -> a <> b -> joined D a b) -> exists w, is_top D K w.
Proof.
  intros Hd HK HC. destruct (topological_rank D) as (r & Hr); [apply Hd|].
  destruct (max_by r K HK) as (w & Hw & Hm). exists w. split; [exact Hw|]. intros t Ht N.
  specialize (HC t w Ht Hw N). apply dag_joined in HC; [|exact Hd]. destruct HC as [H|H]; [exact H|]. exfalso.
  specialize (Hm t Ht). specialize (Hr w t). rewrite (dag_dedge D w t Hd) in Hr. specialize (Hr H). lia.
Qed.

Lemma top_transfer D D' T v : equivalent D D' -> is_top D T v -> exists w, is_top D' T w.
Proof.
  intros HE [Hv Ht]. pose proof HE as (Hn & Hd & Hd' & J & U).
  set (jb := fun a b => Nat.ltb a (gn D) && Nat.ltb b (gn D) && negb (gm D a b =? 0)%Z).
  assert (Hjb : forall a b, jb a b = true <-> joined D a b) by (intros a b; unfold jb, joined; rewrite !andb_true_iff, !Nat.ltb_lt, negb_true_iff, Z.eqb_neq; tauto).
  set (K := filter (fun c => forallb (fun d => Nat.eqb d c || jb d c) T) T).
  assert (HK : forall c, In c K <-> In c T /\ forall d, In d T -> d <> c -> joined D d c).
  { intros c. unfold K. rewrite filter_In, forallb_forall. split; intros [H1 H2]; (split; [exact H1|]).
    - intros d Hd0 N. specialize (H2 d Hd0). apply orb_true_iff in H2. destruct H2 as [H2|H2]; [apply Nat.eqb_eq in H2; contradiction|now apply Hjb].
    - intros d Hd0. apply orb_true_iff. destruct (Nat.eqb_spec d c) as [E|N]; [now left|]. right. apply Hjb. auto. }
  assert (HvK : In v K) by (apply HK; split; [exact Hv|]; intros d H N; now apply directed_joined, Ht).
  destruct (clique_top D' K) as (w & Hw & Hwt); auto.
  { intros E. rewrite E in HvK. destruct HvK. }
  { intros a b Ha Hb N. apply J. apply HK in Ha, Hb. apply Hb; tauto. }
  exists w. assert (HwT : In w T) by (now apply HK in Hw). split; [exact HwT|]. intros d Hd0 N.
  destruct (in_dec Nat.eq_dec d K) as [I|NI]; [now apply Hwt|].
  assert (E : exists e, In e T /\ e <> d /\ ~ joined D e d).
  { assert (Q : forallb (fun e => Nat.eqb e d || jb e d) T = false).
    { destruct (forallb (fun e => Nat.eqb e d || jb e d) T) eqn:Q; [|reflexivity]. exfalso. apply NI. unfold K. apply filter_In. auto. }
    clear -Q Hjb. induction T as [|x T IH]; [discriminate|]. cbn [forallb] in Q. apply andb_false_iff in Q. destruct Q as [Q|Q].
    - apply orb_false_iff in Q. destruct Q as [Q1 Q2]. exists x. split; [now left|]. split; [now apply Nat.eqb_neq|].
      intros Jx. apply Hjb in Jx. congruence.
    - destruct (IH Q) as (e & H1 & H2). exists e. split; [now right|exact H2]. }
  destruct E as (e & He & Ned & NJ).
  assert (Nev : e <> v). { intros ->. apply NJ. apply wf_joined_sym; [apply Hd|]. apply directed_joined, Ht; auto. }
  assert (Ndv : d <> v). { intros ->. contradiction. }
  assert (UC : ucollider D' d v e).
  { apply U. apply dag_ucollider; [exact Hd|]. split; [now apply Ht|]. split; [now apply Ht|]. split; [congruence|].
    intros Q. apply NJ. now apply wf_joined_sym; [apply Hd|]. }
  apply dag_ucollider in UC; [|exact Hd']. destruct UC as (Dv & _).
  destruct (Nat.eq_dec w v) as [->|Nwv]; [exact Dv|].
  assert (Vw : directed D' v w) by (apply Hwt; auto).
  assert (Jdw : joined D' d w) by (apply J; apply HK in Hw; apply Hw; auto).
  apply dag_joined in Jdw; [|exact Hd']. destruct Jdw as [Q|Q]; [exact Q|]. exfalso. apply (dag_no_cycle3 D' d v w); auto.
Qed.

(* ---------- Moebius inversion over lists ---------- *)
Fixpoint subs (l : list nat) : list (list nat) := match l with [] => [[]] | x :: r => map (cons x) (subs r) ++ subs r end.
Lemma subs_filter p l : subs (filter p l) = filter (forallb p) (subs l).
Proof.
  induction l as [|x l IH]; [reflexivity|]. cbn [subs]. rewrite filter_app.
  assert (E : filter (forallb p) (map (cons x) (subs l)) = if p x then map (cons x) (filter (forallb p) (subs l)) else []).
  { clear IH. destruct (p x) eqn:Ex.
    - induction (subs l) as [|s r IHr]; [reflexivity|]. cbn [map filter forallb]. rewrite Ex. cbn [andb].
      destruct (forallb p s); cbn [map]; now rewrite IHr.
    - induction (subs l) as [|s r IHr]; [reflexivity|]. cbn [map filter forallb]. rewrite Ex. exact IHr. }
  rewrite E, <- IH. cbn [filter]. destruct (p x); [reflexivity|]. reflexivity.
Qed.
Lemma subs_incl l : forall T, In T (subs l) -> incl T l.
Proof.
  induction l as [|x l IH]; intros T H; [destruct H as [<-|[]]; intros y []|]. cbn [subs] in H. apply in_app_iff in H. destruct H as [H|H].
  - apply in_map_iff in H. destruct H as (T' & <- & H). intros y [<-|Hy]; [now left|right; now apply (IH T' H)].
  - intros y Hy. right. now apply (IH T H).
Qed.

Section Group.
Variables (A : Type) (add : A -> A -> A) (zero : A) (opp : A -> A).
Hypothesis addA : forall a b c, add a (add b c) = add (add a b) c.
Hypothesis addC : forall a b, add a b = add b a.
Hypothesis add0 : forall a, add zero a = a.
Hypothesis addN : forall a, add a (opp a) = zero.

Definition sum (l : list A) : A := fold_right add zero l.
Definition sub (a b : A) : A := add a (opp b).
Lemma add0r a : add a zero = a. Proof. rewrite addC. apply add0. Qed.
Lemma add_swap a b c d : add (add a b) (add c d) = add (add a c) (add b d).
Proof. rewrite <- !addA. f_equal. rewrite !addA. f_equal. apply addC. Qed.
Lemma opp_add a b : opp (add a b) = add (opp a) (opp b).
Proof.
  rewrite <- (add0r (opp (add a b))). rewrite <- (add0r zero) at 1. rewrite <- (addN a) at 1. rewrite <- (addN b).
  rewrite add_swap. rewrite addA, (addC (opp (add a b))), addN. apply add0.
Qed.
Lemma opp0 : opp zero = zero. Proof. rewrite <- (add0 (opp zero)). apply addN. Qed.
Lemma sum_app l m : sum (l ++ m) = add (sum l) (sum m).
Proof. induction l as [|a l IH]; cbn [app sum fold_right]; [now rewrite add0|]. fold (sum (l ++ m)). fold (sum l). now rewrite IH, addA. Qed.
Lemma sum_map_add {B} (f g : B -> A) l : sum (map (fun x => add (f x) (g x)) l) = add (sum (map f l)) (sum (map g l)).
Proof. induction l as [|a l IH]; cbn [map sum fold_right]; [now rewrite add0|]. fold (sum (map (fun x => add (f x) (g x)) l)). rewrite IH. apply add_swap. Qed.
Lemma sum_map_opp {B} (f : B -> A) l : sum (map (fun x => opp (f x)) l) = opp (sum (map f l)).
Proof. induction l as [|a l IH]; cbn [map sum fold_right]; [now rewrite opp0|]. fold (sum (map (fun x => opp (f x)) l)). rewrite IH. symmetry. apply opp_add. Qed.
Lemma sum_map_sub {B} (f g : B -> A) l : sum (map (fun x => sub (f x) (g x)) l) = sub (sum (map f l)) (sum (map g l)).
Proof. unfold sub. rewrite (sum_map_add f (fun x => opp (g x))). now rewrite sum_map_opp. Qed.
Lemma sum_zero {B} (l : list B) : sum (map (fun _ => zero) l) = zero.
Proof. induction l as [|a l IH]; [reflexivity|]. cbn [map sum fold_right]. rewrite add0. exact IH. Qed.
Lemma sum_swap {B C} (f : B -> C -> A) l m : sum (map (fun x => sum (map (f x) m)) l) = sum (map (fun y => sum (map (fun x => f x y) l)) m).
Proof.
  induction l as [|a l IH]; cbn [map sum fold_right].
  - now rewrite sum_zero.
  - fold (sum (map (fun x => sum (map (f x) m)) l)). rewrite IH.
    rewrite <- (sum_map_add (f a) (fun y => sum (map (fun x => f x y) l))). reflexivity.
Qed.
Lemma sum_filter {B} (f : B -> A) (c : B -> bool) l : sum (map f (filter c l)) = sum (map (fun x => if c x then f x else zero) l).
Proof. induction l as [|a l IH]; [reflexivity|]. cbn [filter map]. destruct (c a); cbn [map sum fold_right]; [f_equal; exact IH|now rewrite add0]. Qed.

Fixpoint mob (h : list nat -> A) (T : list nat) : A :=
  match T with [] => h [] | t :: T' => sub (mob (fun u => h (t :: u)) T') (mob h T') end.
Lemma mob_sum l : forall h, h l = sum (map (mob h) (subs l)).
Proof.
  induction l as [|x l IH]; intros h; cbn [subs].
  - cbn. now rewrite add0r.
  - rewrite map_app, map_map, sum_app. cbn [mob].
    rewrite (sum_map_sub (mob (fun u => h (x :: u))) (mob h)). rewrite <- (IH h), <- (IH (fun u => h (x :: u))).
    unfold sub. rewrite <- addA, (addC (opp (h l))), addN. now rewrite add0r.
Qed.
Lemma mob_filter h p l : h (filter p l) = sum (map (fun T => if forallb p T then mob h T else zero) (subs l)).
Proof. rewrite mob_sum, subs_filter. apply sum_filter. Qed.

(** The variable and its parents, in increasing order. *)
Definition family (D : ggraph) (v : nat) : list nat := filter (fun p => Nat.eqb p v || (gm D v p =? 1)%Z) (seq 0 (gn D)).
Definition family_score (h : list nat -> A) (D : ggraph) : A :=
  sum (map (fun v => sub (h (family D v)) (h (parents D v))) (seq 0 (gn D))).

Definition topb (D : ggraph) (T : list nat) (v : nat) : bool := existsb (Nat.eqb v) T && forallb (fun p => Nat.eqb p v || (gm D v p =? 1)%Z) T.
Lemma topb_iff D T v : dag D -> incl T (seq 0 (gn D)) -> topb D T v = true <-> is_top D T v.
Proof.
  intros Hd Hi. unfold topb, is_top. rewrite andb_true_iff, existsb_exists, forallb_forall. split; intros [H1 H2].
  - destruct H1 as (x & Hx & E). apply Nat.eqb_eq in E. subst x. split; [exact Hx|]. intros t Ht N. specialize (H2 t Ht).
    apply orb_true_iff in H2. destruct H2 as [H2|H2]; [apply Nat.eqb_eq in H2; contradiction|].
    apply in_parents; auto; [apply in_seq0; auto|]. unfold parents. apply filter_In. auto.
  - split; [exists v; split; [exact H1|apply Nat.eqb_refl]|]. intros t Ht. apply orb_true_iff. destruct (Nat.eqb_spec t v) as [E|N]; [now left|right].
    specialize (H2 t Ht N). apply in_parents in H2; auto; [|apply in_seq0; auto]. unfold parents in H2. now apply filter_In in H2.
Qed.

Lemma one_hit (c : nat -> bool) (a : A) l : NoDup l -> (forall v w, In v l -> In w l -> c v = true -> c w = true -> v = w) ->
  sum (map (fun v => if c v then a else zero) l) = if existsb c l then a else zero.
Proof.
  induction l as [|x l IH]; intros N H; [reflexivity|]. apply NoDup_cons_iff in N. destruct N as [N1 N2].
  cbn [map sum fold_right existsb]. fold (sum (map (fun v => if c v then a else zero) l)).
  rewrite IH; auto; [|intros v w Hv Hw; apply H; now right]. destruct (c x) eqn:Ex; cbn [orb]; [|apply add0].
  destruct (existsb c l) eqn:El; [|apply add0r]. exfalso. apply existsb_exists in El. destruct El as (y & Hy & Ey).
  apply N1. rewrite (H x y); auto; [now left|now right].
Qed.

Lemma family_score_tops h D : dag D ->
  family_score h D = sum (map (fun T => if existsb (topb D T) (seq 0 (gn D)) then mob h T else zero) (subs (seq 0 (gn D)))).
Proof.
  intros Hd. unfold family_score.
  transitivity (sum (map (fun v => sum (map (fun T => if topb D T v then mob h T else zero) (subs (seq 0 (gn D))))) (seq 0 (gn D)))).
  - f_equal. apply map_ext_in. intros v Hv. unfold family, parents. rewrite !mob_filter. rewrite <- sum_map_sub. f_equal. apply map_ext_in.
    intros T HT. apply subs_incl in HT.
    assert (Ir : (gm D v v =? 1)%Z = false).
    { destruct (gm D v v =? 1)%Z eqn:E; [|reflexivity]. exfalso. apply (dag_irr D v Hd). apply in_parents; auto; [now apply in_seq0|].
      unfold parents. apply filter_In. auto. }
    unfold topb. destruct (existsb (Nat.eqb v) T) eqn:Ev; cbn [andb].
    + assert (F : forallb (fun p => (gm D v p =? 1)%Z) T = false).
      { destruct (forallb (fun p => (gm D v p =? 1)%Z) T) eqn:F; [|reflexivity]. rewrite forallb_forall in F.
        apply existsb_exists in Ev. destruct Ev as (x & Hx & E). apply Nat.eqb_eq in E. subst x. rewrite (F v Hx) in Ir. discriminate. }
      rewrite F. unfold sub. rewrite opp0. apply add0r.
    + replace (forallb (fun p => Nat.eqb p v || (gm D v p =? 1)%Z) T) with (forallb (fun p => (gm D v p =? 1)%Z) T); [apply addN|].
      clear -Ev. induction T as [|x T IH]; [reflexivity|]. cbn [forallb existsb] in *. apply orb_false_iff in Ev. destruct Ev as [E1 E2].
      rewrite Nat.eqb_sym in E1. rewrite E1, IH; auto.
  - rewrite (sum_swap (fun v T => if topb D T v then mob h T else zero)). f_equal. apply map_ext_in. intros T HT. apply subs_incl in HT.
    apply one_hit; [apply seq_NoDup|]. intros v w _ _ Ev Ew. apply topb_iff in Ev, Ew; auto. eapply top_unique; eauto.
Qed.

Theorem family_score_equivalent h D D' : equivalent D D' -> family_score h D = family_score h D'.
Proof.
  intros HE. pose proof HE as (Hn & Hd & Hd' & _). rewrite !family_score_tops by assumption. rewrite Hn. f_equal. apply map_ext_in.
  intros T HT. apply subs_incl in HT.
  assert (E : existsb (topb D T) (seq 0 (gn D)) = existsb (topb D' T) (seq 0 (gn D))).
  { assert (K : forall G G', equivalent G G' -> gn G = gn D -> existsb (topb G T) (seq 0 (gn D)) = true -> existsb (topb G' T) (seq 0 (gn D)) = true).
    { intros G G' HEG HG H. pose proof HEG as (HnG & HdG & HdG' & _). apply existsb_exists in H. destruct H as (v & Hv & H).
      apply topb_iff in H; [|exact HdG|now rewrite HG]. destruct (top_transfer G G' T v HEG H) as (w & Hw). apply existsb_exists. exists w.
      split; [apply HT; apply Hw|]. apply topb_iff; auto. now rewrite HnG, HG. }
    destruct (existsb (topb D T) (seq 0 (gn D))) eqn:E1, (existsb (topb D' T) (seq 0 (gn D))) eqn:E2; auto.
    - rewrite (K D D' HE eq_refl E1) in E2. discriminate.
    - rewrite (K D' D (equivalent_sym _ _ HE) Hn E2) in E1. discriminate. }
  now rewrite E.
Qed.
End Group.
