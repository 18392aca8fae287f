(** C261: knowledge given to a grow-shrink tree (gst.py). *)
From Verif Require Import Base EdgeModel GraphModel GraphSpec RankLib UtilsModel UtilsProofs CpdagModel CacheModel CacheProofs ExactSpec BossModel BossSpec BossTree GstModel.
From Coq Require Import Permutation.
Local Open Scope Z_scope.

(** The list of forbidden parents given last; at the start the variable itself. *)
Definition in_force (v : nat) (h : list gcall) : list nat :=
  fold_left (fun F c => match c with CKnow f _ => f | _ => F end) h [v].
(** What a fresh tree answers that was told to forbid F and nothing else. *)
Definition fresh_answer (sc : nat -> list nat -> Z) (p v : nat) (F prefix : list nat) : Z * list nat :=
  let '(_, s, ps) := gst_query sc p v (gst_know sc v (gst_new sc v) F []) prefix in (s, ps).

Definition allowed_vars (p : nat) (F : list nat) : list nat := filter (fun i => negb (memb i F)) (seq 0 p).
Lemma allowed_nodup p F : NoDup (allowed_vars p F).
Proof. apply NoDup_filter, seq_NoDup. Qed.
Lemma allowed_length p F : (length (allowed_vars p F) < S p)%nat.
Proof.
  unfold allowed_vars. assert (H : forall (f : nat -> bool) l, (length (filter f l) <= length l)%nat) by (induction l as [|x l IH]; cbn; [lia|destruct (f x); cbn; lia]).
  specialize (H (fun i => negb (memb i F)) (seq 0 p)). rewrite seq_length in H. lia.
Qed.
Definition tree_ok (sc : nat -> list nat -> Z) (p v : nat) (t : gst) : Prop := ok sc (S p) v (allowed_vars p (g_forb t)) [] (g_root t).
Lemma fresh_ok sc p v F R : set_score sc -> tree_ok sc p v (mkGst (new_node v (sc v [])) F R).
Proof. intros Hsc. exact (new_node_ok sc Hsc (S p) v _ [] v). Qed.
Lemma query_ok sc p v t prefix : set_score sc -> tree_ok sc p v t ->
  let '(t', s, ps) := gst_query sc p v t prefix in tree_ok sc p v t' /\ g_forb t' = g_forb t /\
  s = fst (ptrace sc (S p) v prefix (allowed_vars p (g_forb t)) []) /\ Permutation ps (snd (ptrace sc (S p) v prefix (allowed_vars p (g_forb t)) [])).
Proof.
  intros Hsc H. unfold gst_query. pose proof (trace_ok sc Hsc (S p) v prefix _ [] (g_root t) H (allowed_nodup p (g_forb t)) (NoDup_nil _) (fun x _ F => F) (allowed_length p (g_forb t))) as Q.
  unfold allowed_vars in Q at 1. destruct (trace _ _ _ _ _ _ _) as [[n s] ps]. destruct Q as (Q1 & Q2 & Q3). cbn [g_forb]. auto.
Qed.
Lemma after_ok sc p v h : set_score sc -> tree_ok sc p v (gst_after sc p v h) /\ g_forb (gst_after sc p v h) = in_force v h.
Proof.
  intros Hsc. unfold gst_after, in_force. induction h as [|c h IH] using rev_ind; [split; [now apply fresh_ok | reflexivity]|].
  rewrite !fold_left_app. cbn [fold_left]. destruct IH as [IH1 IH2]. destruct c as [f r| |prefix]; cbn [gst_step].
  - split; [now apply fresh_ok | reflexivity].
  - split; [now apply fresh_ok | exact IH2].
  - pose proof (query_ok sc p v _ prefix Hsc IH1) as Q. destruct (gst_query _ _ _ _ _) as [[t s] ps]. destruct Q as (Q1 & Q2 & _). cbn [fst]. split; [exact Q1|congruence].
Qed.

(** After any history of calls, the answer is the one of a fresh tree told the forbidden list in force; the parents are distinct, from the prefix, none of them forbidden; the score is theirs,
    at least that of no parents and at least that of dropping any one of them. *)
Theorem C261_forbidden_partial : forall sc p v h prefix, set_score sc ->
  let '(_, s, ps) := gst_query sc p v (gst_after sc p v h) prefix in
  NoDup ps /\ (forall x, In x ps -> (x < p)%nat /\ In x prefix /\ ~ In x (in_force v h)) /\
  s = sc v ps /\ sc v [] <= s /\ (forall x, In x ps -> sc v (lremove x ps) <= s) /\
  s = fst (fresh_answer sc p v (in_force v h) prefix) /\ Permutation ps (snd (fresh_answer sc p v (in_force v h) prefix)).
Proof.
  intros sc p v h prefix Hsc. destruct (after_ok sc p v h Hsc) as [H1 H2]. pose proof (query_ok sc p v _ prefix Hsc H1) as Q. rewrite H2 in Q.
  pose proof (query_ok sc p v (gst_know sc v (gst_new sc v) (in_force v h) []) prefix Hsc (fresh_ok sc p v _ _ Hsc)) as Q'. cbn [g_forb gst_know gst_reset] in Q'.
  unfold fresh_answer. destruct (gst_query sc p v (gst_know sc v (gst_new sc v) (in_force v h) []) prefix) as [[t' s'] ps']. cbn [fst snd]. destruct Q' as (_ & _ & R1 & R2).
  destruct (gst_query sc p v (gst_after sc p v h) prefix) as [[t s] ps]. destruct Q as (_ & _ & Q1 & Q2).
  pose proof (ptrace_spec sc Hsc (S p) v prefix (allowed_vars p (in_force v h)) [] (allowed_nodup p _) (NoDup_nil _) (fun x _ F => F) (allowed_length p _)) as P.
  destruct (ptrace sc (S p) v prefix (allowed_vars p (in_force v h)) []) as [s0 ps0]. cbn [fst snd] in *. destruct P as (P1 & P2 & P3 & P4 & P5). subst s s'.
  split; [exact (Permutation_NoDup (Permutation_sym Q2) P3)|]. split.
  - intros x Hx. apply (Permutation_in _ Q2) in Hx. destruct (P4 x Hx) as [[]|[A B]]. apply filter_In in A. destruct A as [A1 A2]. apply in_seq in A1. apply negb_true_iff in A2.
    split; [lia|]. split; [exact B|]. intros I. apply memb_In in I. congruence.
  - split; [rewrite P1; now apply Hsc, Permutation_sym|]. split; [exact P2|]. split; [|split; [reflexivity|]].
    + intros x Hx. rewrite (Hsc v _ _ (lremove_Perm x _ _ Q2)). apply P5. exact (Permutation_in _ Q2 Hx).
    + exact (Permutation_trans Q2 (Permutation_sym R2)).
Qed.
Example C261_case : let sc := fun (_ : nat) P => Z.of_nat (length P) in gst_query sc 4 0 (gst_after sc 4 0 [CTrace [1; 2; 3]%nat; CKnow [0; 2]%nat []]) [1; 2; 3]%nat =
  (fst (fst (gst_query sc 4 0 (gst_after sc 4 0 [CKnow [0; 2]%nat []]) [1; 2; 3]%nat)), 2, [1; 3]%nat).
Proof. reflexivity. Qed.

(** Required parents are stored and never looked at: here 0 is required, is in the prefix, and is not among the parents. *)
Theorem C261_required_refuted : exists sc p v F R prefix, set_score sc /\ ~ In 0%nat F /\ In v F /\ R = [0%nat] /\ In 0%nat prefix /\
  snd (gst_query sc p v (gst_know sc v (gst_new sc v) F R) prefix) = [].
Proof.
  exists (fun _ _ => 0), 2%nat, 1%nat, [1%nat], [0%nat], [0%nat]. split; [intros ? ? ? _; reflexivity|]. split; [cbn; intuition discriminate|]. split; [now left|]. split; [reflexivity|]. split; [now left|]. reflexivity.
Qed.
(** The forbidden list replaces the initial one, which held the variable itself: given another one, a variable can be its own parent. *)
Theorem C261_own_parent_refuted : exists sc p v F prefix, set_score sc /\ snd (gst_query sc p v (gst_know sc v (gst_new sc v) F []) prefix) = [v].
Proof.
  exists (fun _ P => Z.of_nat (length P)), 2%nat, 0%nat, [1%nat], [0; 1]%nat. split; [|reflexivity]. intros v P P' H. now rewrite (Permutation_length H).
Qed.
