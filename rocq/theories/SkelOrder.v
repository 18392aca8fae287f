(** The stable search does not depend on the numbering of the variables. *)
From Coq Require Import Permutation.
From Verif Require Import Base EdgeModel EdgeProofs GraphModel GraphSpec GraphProofs RankLib UtilsModel UtilsProofs
  DsepSpec DsepProofs MeekSpec MeekProofs SkelModel SkelSpec SkelProofs SkelMain.
Local Open Scope Z_scope.

Definition image (n : nat) (s : nat -> nat) (g g' : ggraph) : Prop :=
  forall a b, (a < n)%nat -> (b < n)%nat -> (joined g a b <-> joined g' (s a) (s b)).
Lemma image_inv n s t g g' : renumbering n s t -> gn g = n -> gn g' = n -> image n s g g' -> image n t g' g.
Proof.
  intros [Hs Ht] Hn Hn' H a b Ha Hb. destruct (Ht a Ha) as [Ta Ea], (Ht b Hb) as [Tb Eb].
  rewrite (H (t a) (t b) Ta Tb), Ea, Eb. reflexivity.
Qed.
Lemma map_nodup n (s t : nat -> nat) l : (forall a, (a < n)%nat -> t (s a) = a) -> (forall z, In z l -> (z < n)%nat) -> NoDup l -> NoDup (map s l).
Proof.
  intros Hs Hl Hd. induction Hd as [|x l Nx Hd IH]; cbn; constructor.
  - intros H. apply in_map_iff in H. destruct H as (y & E & Hy). apply Nx.
    rewrite <- (Hs x), <- E, (Hs y); [exact Hy|apply Hl; now right|apply Hl; now left].
  - apply IH. intros z Hz. apply Hl. now right.
Qed.
Lemma neighbors_lt g x z : In z (neighbors g x) -> (z < gn g)%nat.
Proof. unfold neighbors. rewrite filter_In, in_seq0. tauto. Qed.
Lemma neighbors_len_le n s t g g' x : renumbering n s t -> gn g = n -> gn g' = n -> image n s g g' -> (x < n)%nat ->
  (length (neighbors g x) <= length (neighbors g' (s x)))%nat.
Proof.
  intros [Hs Ht] Hn Hn' H Hx. rewrite <- (map_length s (neighbors g x)). apply NoDup_incl_length.
  - apply (map_nodup n s t); [intros a Ha; now apply Hs| |apply neighbors_nodup].
    intros z Hz. rewrite <- Hn. eapply neighbors_lt; eauto.
  - intros z Hz. apply in_map_iff in Hz. destruct Hz as (w & <- & Hw).
    assert (Hw' : (w < n)%nat) by (rewrite <- Hn; eapply neighbors_lt; eauto).
    apply in_neighbors in Hw; [|now rewrite Hn]. apply in_neighbors; [rewrite Hn'; now apply Hs|]. now apply H.
Qed.
Lemma neighbors_len n s t g g' x : renumbering n s t -> gn g = n -> gn g' = n -> image n s g g' -> (x < n)%nat ->
  length (neighbors g x) = length (neighbors g' (s x)).
Proof.
  intros Hr Hn Hn' H Hx. apply Nat.le_antisymm; [now apply (neighbors_len_le n s t)|].
  destruct Hr as [Hs Ht]. destruct (Hs x Hx) as [Sx Ex].
  pose proof (neighbors_len_le n t s g' g (s x) (conj Ht Hs) Hn' Hn (image_inv n s t g g' (conj Hs Ht) Hn Hn' H) Sx) as L.
  now rewrite Ex in L.
Qed.
Lemma max_degree_le' n s t g g' m : renumbering n s t -> gn g = n -> gn g' = n -> image n s g g' -> (max_degree g' <= m -> max_degree g <= m)%nat.
Proof.
  intros Hr Hn Hn' H. rewrite !max_degree_le. intros K i Hi. rewrite Hn in Hi.
  rewrite (neighbors_len n s t g g' i Hr Hn Hn' H Hi). apply K. rewrite Hn'. now apply Hr.
Qed.
Lemma max_degree_eq n s t g g' : renumbering n s t -> gn g = n -> gn g' = n -> image n s g g' -> max_degree g = max_degree g'.
Proof.
  intros Hr Hn Hn' H. apply Nat.le_antisymm; [apply (max_degree_le' n s t g g'); auto|].
  apply (max_degree_le' n t s g' g); auto; [destruct Hr; split; auto|]. now apply (image_inv n s t).
Qed.
Lemma renamed_inv n s t ind ind' : renumbering n s t -> renamed_test n s ind ind' -> order_free n ind' -> renamed_test n t ind' ind.
Proof.
  intros [Hs Ht] H Ho x y T Hx Hy N HC. destruct (Ht x Hx) as [Tx Ex], (Ht y Hy) as [Ty Ey].
  rewrite <- (H (t x) (t y) (map t T)); auto.
  - rewrite Ex, Ey, map_map. f_equal. rewrite <- (map_id T) at 2. apply map_ext_in. intros z Hz. apply Ht, (proj2 HC z Hz).
  - intros E. apply N. now rewrite <- Ex, <- Ey, E.
  - destruct HC as [C1 C2]. split.
    + apply (map_nodup n t s); [intros a Ha; now apply Ht|intros z Hz; apply (C2 z Hz)|exact C1].
    + intros z Hz. apply in_map_iff in Hz. destruct Hz as (w & <- & Hw). destruct (C2 w Hw) as (W1 & W2 & W3).
      destruct (Ht w W1) as [W4 W5]. split; [exact W4|]. split; intros E; [apply W2|apply W3]; congruence.
Qed.
Lemma hits_image_le n s t g g' ind ind' k x y : renumbering n s t -> gn g = n -> gn g' = n -> ug g -> image n s g g' ->
  renamed_test n s ind ind' -> order_free n ind' -> joined g x y ->
  hits ind k x (neighbors g x) y = true -> hits ind' k (s x) (neighbors g' (s x)) (s y) = true.
Proof.
  intros [Hs Ht] Hn Hn' Hu H Hi Ho J Hh.
  pose proof (ug_joined_neq _ _ _ Hu J) as N. pose proof J as (Hx & Hy & _). rewrite Hn in Hx, Hy.
  unfold hits in Hh. apply existsb_exists in Hh. destruct Hh as (T & HT & E).
  destruct (combs_in _ _ _ HT) as (L & HI & HND).
  assert (DT : NoDup T) by (apply HND, NoDup_filter, neighbors_nodup).
  assert (IT : forall z, In z T -> joined g x z /\ z <> y /\ (z < n)%nat /\ z <> x).
  { intros z Hz. apply HI in Hz. unfold others in Hz. rewrite filter_In, negb_true_iff, Nat.eqb_neq in Hz. destruct Hz as [Hz Nz].
    apply in_neighbors in Hz; [|now rewrite Hn]. split; [exact Hz|]. split; [exact Nz|].
    pose proof (ug_joined_neq _ _ _ Hu Hz). destruct Hz as (_ & Hz & _). rewrite Hn in Hz. auto. }
  assert (CT : conditioning n x y T) by (split; [exact DT|]; intros z Hz; destruct (IT z Hz) as (_ & ? & ? & ?); auto).
  destruct (combs_perm k (others (neighbors g' (s x)) (s y)) (map s T)) as (T' & H1 & H2).
  - apply NoDup_filter, neighbors_nodup.
  - apply (map_nodup n s t); [intros a Ha; now apply Hs|intros z Hz; apply (IT z Hz)|exact DT].
  - intros z Hz. apply in_map_iff in Hz. destruct Hz as (w & <- & Hw). destruct (IT w Hw) as (W1 & W2 & W3 & W4).
    unfold others. apply filter_In. split.
    + apply in_neighbors; [rewrite Hn'; now apply Hs|]. apply H; auto.
    + apply negb_true_iff, Nat.eqb_neq. intros Es. apply W2. destruct (Hs w W3) as [_ Ew], (Hs y Hy) as [_ Ey]. congruence.
  - now rewrite map_length.
  - unfold hits. apply existsb_exists. exists T'. split; [exact H1|].
    rewrite <- (Ho (s x) (s y) (map s T) T'); auto; [rewrite Hi; auto|now apply Hs|now apply Hs| |].
    + intros Es. apply N. destruct (Hs x Hx) as [_ Ex], (Hs y Hy) as [_ Ey]. congruence.
    + split; [apply (map_nodup n s t); [intros a Ha; now apply Hs|intros z Hz; apply (IT z Hz)|exact DT]|].
      intros z Hz. apply in_map_iff in Hz. destruct Hz as (w & <- & Hw). destruct (IT w Hw) as (W1 & W2 & W3 & W4).
      destruct (Hs w W3) as [Sw Ew], (Hs y Hy) as [_ Ey], (Hs x Hx) as [_ Ex].
      split; [exact Sw|]. split; intros Es; [apply W4|apply W2]; congruence.
Qed.

Section Lockstep.
Variable n : nat.
Variable s t : nat -> nat.
Variable ind ind' : nat -> nat -> list nat -> bool.
Variable ban ban' : nat -> nat -> bool.
Variable fasm : bool.
Hypothesis Hren : renumbering n s t.
Hypothesis Hind : renamed_test n s ind ind'.
Hypothesis Ho : order_free n ind.
Hypothesis Ho' : order_free n ind'.
Hypothesis Hban : forall x y, (x < n)%nat -> (y < n)%nat -> ban' (s x) (s y) = ban x y.

Lemma hitp_image k g g' x y : gn g = n -> gn g' = n -> ug g -> ug g' -> image n s g g' -> joined g x y ->
  hitp ind ban k g x y = hitp ind' ban' k g' (s x) (s y).
Proof.
  intros Hn Hn' Hu Hu' H J. pose proof J as (Hx & Hy & _). rewrite Hn in Hx, Hy.
  unfold hitp. rewrite (neighbors_len n s t g g' x Hren Hn Hn' H Hx), Hban by assumption. f_equal. f_equal.
  apply eq_true_iff_eq. split.
  - now apply (hits_image_le n s t).
  - intros K. pose proof Hren as [Hs Ht]. destruct (Hs x Hx) as [Sx Ex], (Hs y Hy) as [Sy Ey].
    pose proof (hits_image_le n t s g' g ind' ind k (s x) (s y) (conj Ht Hs) Hn' Hn Hu'
      (image_inv n s t g g' Hren Hn Hn' H) (renamed_inv n s t ind ind' Hren Hind Ho') Ho (proj1 (H x y Hx Hy) J) K) as R.
    now rewrite Ex, Ey in R.
Qed.
Lemma loop_image limit : forall fuel k st st', ug (skG st) -> gn (skG st) = n -> ug (skG st') -> gn (skG st') = n -> image n s (skG st) (skG st') ->
  match sk_loop ind ban true fasm fuel limit k st, sk_loop ind' ban' true fasm fuel limit k st' with
  | Some r, Some r' => image n s (skG r) (skG r')
  | None, None => True
  | _, _ => False
  end.
Proof.
  induction fuel as [|fuel IH]; intros k st st' Hu Hn Hu' Hn' H; cbn [sk_loop];
    rewrite (max_degree_eq n s t _ _ Hren Hn Hn' H); destruct (_ && _); auto.
  destruct (pass_stable ind ban fasm n k st Hu Hn) as (Q1 & Q2 & Q3).
  destruct (pass_stable ind' ban' fasm n k st' Hu' Hn') as (Q1' & Q2' & Q3').
  apply IH; auto. intros a b Ha Hb. rewrite Q3, Q3'. split.
  - intros (J & H1 & H2). pose proof (ug_joined_sym _ _ _ Hu J) as J'.
    rewrite (hitp_image k _ _ a b Hn Hn' Hu Hu' H J) in H1. rewrite (hitp_image k _ _ b a Hn Hn' Hu Hu' H J') in H2.
    split; [now apply H|auto].
  - intros (J0 & H1 & H2). assert (J : joined (skG st) a b) by now apply H. pose proof (ug_joined_sym _ _ _ Hu J) as J'.
    rewrite <- (hitp_image k _ _ a b Hn Hn' Hu Hu' H J) in H1. rewrite <- (hitp_image k _ _ b a Hn Hn' Hu Hu' H J') in H2. auto.
Qed.
Lemma init_image : image n s (skG (sk_init n)) (skG (sk_init n)).
Proof.
  intros a b Ha Hb. cbn [sk_init skG]. destruct (complete_spec n) as (_ & _ & C). rewrite !C. pose proof Hren as [Hs _].
  destruct (Hs a Ha) as [Sa Ea], (Hs b Hb) as [Sb Eb]. split; intros (K1 & K2 & K3); repeat split; auto; congruence.
Qed.
Theorem search_image limit fuel st st' : sk_search ind ban true fasm fuel limit n = Some st -> sk_search ind' ban' true fasm fuel limit n = Some st' ->
  image n s (skG st) (skG st').
Proof.
  unfold sk_search. intros E E'. destruct (complete_spec n) as (C1 & C2 & _).
  pose proof (loop_image limit fuel 0 (sk_init n) (sk_init n) C2 C1 C2 C1 init_image) as H. now rewrite E, E' in H.
Qed.
End Lockstep.
