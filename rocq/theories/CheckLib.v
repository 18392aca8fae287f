(** Boolean checkers for concrete graphs, with soundness lemmas; used only to exhibit examples. *)
From Verif Require Import Base EdgeModel GraphModel GraphSpec GraphProofs RankLib DsepSpec MeekSpec.
Local Open Scope Z_scope.

Definition allb (n : nat) (f : nat -> bool) : bool := forallb f (seq 0 n).
Lemma allb_spec n f : allb n f = true <-> forall i, (i < n)%nat -> f i = true.
Proof. unfold allb. rewrite forallb_forall. split; intros H i Hi; apply H; [now apply in_seq0 | now apply in_seq0 in Hi]. Qed.
Definition all2 (n : nat) (f : nat -> nat -> bool) : bool := allb n (fun i => allb n (f i)).
Lemma all2_spec n f : all2 n f = true <-> forall i j, (i < n)%nat -> (j < n)%nat -> f i j = true.
Proof.
  unfold all2. rewrite allb_spec. split.
  - intros H i j Hi Hj. specialize (H i Hi). rewrite allb_spec in H. auto.
  - intros H i Hi. apply allb_spec. auto.
Qed.

Definition legalb (x y : Z) : bool := existsb (fun p => (fst p =? x) && (snd p =? y)) legal_pairs.
Lemma legalb_sound x y : legalb x y = true -> legal_pair x y.
Proof.
  unfold legalb. rewrite existsb_exists. intros ((a & b) & H & E). cbn [fst snd] in E.
  rewrite andb_true_iff, !Z.eqb_eq in E. destruct E as [-> ->]. exact H.
Qed.
Definition wfb (g : ggraph) : bool :=
  allb (gn g) (fun i => gm g i i =? 0) && all2 (gn g) (fun i j => legalb (gm g i j) (gm g j i)).
Lemma wfb_sound g : wfb g = true -> wf g.
Proof.
  unfold wfb. rewrite andb_true_iff, allb_spec, all2_spec. intros [H1 H2]. split.
  - intros i Hi. now apply Z.eqb_eq, H1.
  - intros i j Hi Hj. apply legalb_sound. auto.
Qed.
Definition simpleb (g : ggraph) : bool :=
  all2 (gn g) (fun i j => (gm g i j =? -1) || (gm g i j =? 0) || (gm g i j =? 1) || (gm g i j =? 2)).
Lemma simpleb_sound g : simpleb g = true -> simple g.
Proof.
  unfold simpleb. rewrite all2_spec. intros H i j Hi Hj. specialize (H i j Hi Hj).
  rewrite !orb_true_iff, !Z.eqb_eq in H. tauto.
Qed.
Definition dedgeb (g : ggraph) (i j : nat) : bool :=
  ((gm g i j =? -1) && (gm g j i =? 1)) || ((gm g i j =? 4) && (gm g j i =? 5)).
(** [r] is a topological rank. *)
Definition dagb (r : nat -> nat) (g : ggraph) : bool :=
  wfb g && all2 (gn g) (fun i j => negb (dedgeb g i j) || Nat.ltb (r i) (r j)) &&
  all2 (gn g) (fun i j => (gm g i j =? 0) || ((gm g i j =? -1) && (gm g j i =? 1)) || ((gm g i j =? 1) && (gm g j i =? -1))).
Lemma dagb_sound r g : dagb r g = true -> dag g.
Proof.
  unfold dagb. rewrite !andb_true_iff, !all2_spec. intros [[H1 H2] H3].
  split; [now apply wfb_sound|]. split.
  - apply (rank_acyclic (dedge g) r). intros a b (Ha & Hb & H). specialize (H2 a b Ha Hb). unfold dedgeb in H2.
    rewrite orb_true_iff, negb_true_iff, Nat.ltb_lt in H2. destruct H2 as [H2|H2]; [|exact H2].
    rewrite orb_false_iff, !andb_false_iff, !Z.eqb_neq in H2. tauto.
  - intros i j Hi Hj N. specialize (H3 i j Hi Hj). rewrite !orb_true_iff, !andb_true_iff, !Z.eqb_eq in H3. tauto.
Qed.

Definition ucolb (g : ggraph) (a b c : nat) : bool :=
  negb (Nat.eqb a c) && (gm g b a =? 1) && (gm g b c =? 1) && negb (gm g a b =? 0) && negb (gm g c b =? 0) && (gm g a c =? 0).
Lemma ucolb_spec g a b c : (a < gn g)%nat -> (b < gn g)%nat -> (c < gn g)%nat -> ucolb g a b c = true <-> ucollider g a b c.
Proof.
  intros Ha Hb Hc. unfold ucolb, ucollider. rewrite !andb_true_iff, !negb_true_iff, !Z.eqb_eq, !Z.eqb_neq, Nat.eqb_neq. tauto.
Qed.
Definition extb (r : nat -> nat) (g D : ggraph) : bool :=
  Nat.eqb (gn D) (gn g) && dagb r D &&
  all2 (gn g) (fun i j => Bool.eqb (gm D i j =? 0) (gm g i j =? 0)) &&
  all2 (gn g) (fun i j => negb ((gm g i j =? -1) && (gm g j i =? 1)) || ((gm D i j =? -1) && (gm D j i =? 1))) &&
  all2 (gn g) (fun i j => allb (gn g) (fun k => negb (ucolb D i j k) || ucolb g i j k)).
Lemma extb_sound r g D : extb r g D = true -> extension g D.
Proof.
  unfold extb. rewrite !andb_true_iff, !all2_spec, Nat.eqb_eq. intros [[[[Hn H1] H2] H3] H4].
  split; [exact Hn|]. split; [now apply dagb_sound in H1|]. split; [|split].
  - intros a b. unfold joined. rewrite Hn. split; intros (Ha & Hb & N); (split; [exact Ha|]; split; [exact Hb|]);
    specialize (H2 a b Ha Hb); apply eqb_prop in H2; rewrite <- Z.eqb_neq in *; congruence.
  - intros a b (Ha & Hb & E1 & E2). specialize (H3 a b Ha Hb). rewrite E1, E2 in H3. cbn [Z.eqb Pos.eqb andb negb orb] in H3.
    unfold directed. rewrite Hn. rewrite andb_true_iff, !Z.eqb_eq in H3. tauto.
  - intros a b c Hc. pose proof Hc as (Ha & Hb & Hcc & _). rewrite <- ucolb_spec in Hc by auto. rewrite Hn in *.
    specialize (H4 a b Ha Hb). rewrite allb_spec in H4. specialize (H4 c Hcc). rewrite Hc in H4. cbn in H4.
    now apply ucolb_spec in H4.
Qed.

(** Graphs from edge lists. *)
Definition graph_of (n : nat) (es : list edge) : ggraph := fold_left add_edge es (empty_graph n).
Definition dir (a b : nat) : edge := Edge a b TAIL ARROW.
Definition und (a b : nat) : edge := Edge a b TAIL TAIL.
