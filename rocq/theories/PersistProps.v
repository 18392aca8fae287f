(** C259, C260: the cache file. *)
From Verif Require Import Base CacheModel CacheProofs CacheProps PersistModel.
Require Import Ascii String.
Local Open Scope Z_scope.
Local Open Scope list_scope.

(** Specification: everything the first cache holds is in the second. *)
Definition within (c c' : cache) : Prop := forall k v, cget c k = Some v -> cget c' k = Some v.

Lemma call_grows kernel test n c X Y C : within c (snd (cit_call kernel test n c X Y C)).
Proof.
  intros k v H. unfold cit_call. destruct (formatted kernel X Y C) as [[[[xs ys] s] key]|]; [|exact H].
  destruct (cget c key) eqn:E; [exact H|]. destruct (test n xs ys s); [|exact H]. cbn [snd]. rewrite cget_cset.
  destruct (str_eqb key k) eqn:K; [apply str_eqb_spec in K; congruence|exact H].
Qed.

Lemma prun_snapshot kernel test es : forall n st d0, (disk st = d0 \/ exists c, disk st = Some (Whole c) /\ within c (mem st)) ->
  within (mem st) (mem (prun kernel test n st es)) /\
  (disk (prun kernel test n st es) = d0 \/ exists c, disk (prun kernel test n st es) = Some (Whole c) /\ within c (mem (prun kernel test n st es))).
Proof.
  induction es as [|[[t t'] [[X Y] C]] es IH]; intros n st d0 H; [split; [intros k v K; exact K|exact H]|]. cbn [prun pcall snd].
  set (st1 := mkP _ _ _). assert (M : within (mem st) (mem st1)).
  { unfold st1, save. cbn [mem]. destruct (save_due t st); cbn [mem]; apply call_grows. }
  assert (D : disk st1 = d0 \/ exists c, disk st1 = Some (Whole c) /\ within c (mem st1)).
  { unfold st1 at 1 2, save. cbn [disk]. destruct (save_due t st); cbn [disk].
    - right. exists (mem st). split; [reflexivity|exact M].
    - destruct H as [H|(c & H & W)]; [now left|]. right. exists c. split; [exact H|]. intros k v K. apply M, W, K. }
  destruct (IH (S n) st1 d0 D) as [I1 I2]. split; [|exact I2]. intros k v K. apply I1, M, K.
Qed.

(** The file after any history is the one found at the start, or a whole snapshot all of whose p-values are those the running test
    object gives; and so it is if the process dies at any moment, unless while writing. *)
Theorem C259_file_is_right : forall kernel test t0 d0 hash m p st es, start t0 d0 hash m p = Ok st ->
  let st' := prun kernel test 0 st es in
  (disk st' = d0 \/ exists c, disk st' = Some (Whole c) /\ within c (mem st')) /\
  (forall e d, crash_during st' e d -> d = d0 \/ (d = Some Torn /\ save_due (fst (fst e)) st' = true) \/ exists c, d = Some (Whole c) /\ within c (mem st')) /\
  (forall c X Y C xs ys s key v, disk st' = Some (Whole c) -> disk st' <> d0 -> formatted kernel X Y C = Ok (xs, ys, s, key) -> cget c key = Some v ->
     forall n, fst (cit_call kernel test n (mem st') X Y C) = Ok v).
Proof.
  intros kernel test t0 d0 hash m p st es H st'.
  assert (D0 : disk st = d0) by (unfold start in H; destruct (match d0 with None => _ | Some (Whole c) => _ | Some Torn => _ end); [injection H as <-; reflexivity|discriminate]).
  destruct (prun_snapshot kernel test es 0%nat st d0 (or_introl D0)) as [_ A]. fold st' in A. split; [exact A|]. split.
  - intros e d [|S|].
    + destruct A as [A|A]; [now left|right; now right].
    + right. left. auto.
    + unfold save. destruct (save_due _ st'); [|destruct A as [A|A]; [now left|right; now right]]. right. right. exists (mem st'). split; [reflexivity|]. intros k v K. exact K.
  - intros c X Y C xs ys s key v E N F G n. destruct A as [A|(c' & A & W)]; [congruence|]. rewrite E in A. injection A as <-.
    unfold cit_call. rewrite F, (W _ _ G). reflexivity.
Qed.
Print Assumptions C259_file_is_right.

(** "Every p-value that was computed is in the file when the run has ended" fails.  A run all of whose calls come within 30 seconds of the
    constructor writes nothing, however many calls it makes; *)
Lemma prun_quick kernel test es : forall n st, (forall e, In e es -> fst (fst e) - last_saved st <= 30) -> disk (prun kernel test n st es) = disk st.
Proof.
  induction es as [|[[t t'] [[X Y] C]] es IH]; intros n st H; [reflexivity|]. cbn [prun pcall snd].
  assert (NS : save t t' st = st). { unfold save, save_due. specialize (H _ (or_introl eq_refl)). cbn [fst] in H. destruct (Z.ltb_spec 30 (t - last_saved st)); [lia|reflexivity]. }
  rewrite NS. rewrite IH; [reflexivity|]. intros e He. cbn [last_saved]. apply H. now right.
Qed.
Theorem C260_short_run_refuted : forall kernel test t0 d0 hash m p st es, start t0 d0 hash m p = Ok st ->
  (forall e, In e es -> fst (fst e) <= t0 + 30) -> disk (prun kernel test 0 st es) = d0.
Proof.
  intros kernel test t0 d0 hash m p st es H Q. unfold start in H.
  destruct (match d0 with None => _ | Some (Whole c) => _ | Some Torn => _ end); [injection H as <-|discriminate].
  rewrite prun_quick; [reflexivity|]. intros e He. cbn [last_saved]. specialize (Q e He). lia.
Qed.
Print Assumptions C260_short_run_refuted.

(** and in a run of any length the p-value computed by the last call is never in the file, because a call saves before it computes. *)
Theorem C260_last_answer_refuted : forall kernel test n st t t' X Y C xs ys s key v, formatted kernel X Y C = Ok (xs, ys, s, key) ->
  cget (mem st) key = None -> (forall c, disk st = Some (Whole c) -> within c (mem st)) ->
  fst (pcall kernel test n st (t, t', (X, Y, C))) = Ok v ->
  let st' := snd (pcall kernel test n st (t, t', (X, Y, C))) in
  cget (mem st') key = Some v /\ forall c, disk st' = Some (Whole c) -> cget c key = None.
Proof.
  intros kernel test n st t t' X Y C xs ys s key v F G W A. cbn [pcall snd fst mem disk] in *.
  assert (M : mem (save t t' st) = mem st) by (unfold save; destruct (save_due t st); reflexivity). rewrite M in *.
  split.
  - unfold cit_call in *. rewrite F in *. rewrite G in *. destruct (test n xs ys s); [|discriminate]. cbn [fst snd] in *. injection A as <-.
    rewrite cget_cset, str_eqb_refl. reflexivity.
  - intros c E. unfold save in E. destruct (save_due t st); cbn [disk] in E.
    + injection E as <-. exact G.
    + destruct (cget c key) eqn:Q; [|reflexivity]. apply (W c E) in Q. congruence.
Qed.
Print Assumptions C260_last_answer_refuted.

(** "A crash costs at most the answers since the last save" fails: at any moment when a save is due, a crash may leave a file that no
    test object can be started from any more, whatever was in it. *)
Theorem C260_crash_refuted : forall st e, save_due (fst (fst e)) st = true -> exists d, crash_during st e d /\ forall t hash m p, start t d hash m p = Raise.
Proof. intros st e H. exists (Some Torn). split; [now constructor|]. reflexivity. Qed.
Print Assumptions C260_crash_refuted.

(** When the file is written: a save that ends at t' keeps the file as it is for the calls of the next 30 seconds, counted from its end, and the
    first call after that saves everything in memory. *)
Lemma prun_last kernel test es : forall n st, (forall e, In e es -> fst (fst e) - last_saved st <= 30) -> last_saved (prun kernel test n st es) = last_saved st.
Proof.
  induction es as [|[[t t'] [[X Y] C]] es IH]; intros n st H; [reflexivity|]. cbn [prun pcall snd].
  assert (NS : save t t' st = st). { unfold save, save_due. specialize (H _ (or_introl eq_refl)). cbn [fst] in H. destruct (Z.ltb_spec 30 (t - last_saved st)); [lia|reflexivity]. }
  rewrite NS. rewrite IH; [reflexivity|]. intros e He. cbn [last_saved]. apply H. now right.
Qed.
Theorem C260_save_times : forall kernel test n st t t' q es t2 t2' q2, save_due t st = true -> (forall e, In e es -> fst (fst e) <= t' + 30) ->
  let st1 := prun kernel test n st ((t, t', q) :: es) in
  disk st1 = Some (Whole (mem st)) /\
  (save_due t2 st1 = true <-> t' + 30 < t2) /\
  (t' + 30 < t2 -> disk (snd (pcall kernel test (S n + List.length es)%nat st1 (t2, t2', q2))) = Some (Whole (mem st1))).
Proof.
  intros kernel test n st t t' [[X Y] C] es t2 t2' [[X2 Y2] C2] D Q st1. unfold st1. cbn [prun]. set (st0 := snd (pcall kernel test n st (t, t', (X, Y, C)))).
  assert (L : last_saved st0 = t') by (unfold st0, pcall, save; rewrite D; reflexivity). assert (K : disk st0 = Some (Whole (mem st))) by (unfold st0, pcall, save; rewrite D; reflexivity).
  assert (R : forall e, In e es -> fst (fst e) - last_saved st0 <= 30) by (intros e I; specialize (Q e I); lia).
  assert (W : save_due t2 (prun kernel test (S n) st0 es) = true <-> t' + 30 < t2) by (unfold save_due; rewrite prun_last, L, Z.ltb_lt by exact R; lia).
  split; [rewrite prun_quick by exact R; exact K|]. split; [exact W|]. intros T. apply W in T. unfold pcall, save. rewrite T. reflexivity.
Qed.

(** A run of two calls, the second 40 seconds later: the file holds the first answer (7) and not the second. *)
Example C260_example : exists st, start 0 None (lit "h") (lit "fisherz") (lit "p") = Ok st /\
  let e1 := (1, 1, (One 0%nat, One 1%nat, [])) in let e2 := (41, 42, (One 0%nat, One 2%nat, [])) in
  exists c, disk (prun false (fun _ _ _ _ => Ok 7) 0 st [e1; e2]) = Some (Whole c) /\ cget c (lit "0;1") = Some (PVal 7) /\ cget c (lit "0;2") = None /\
  save_due 41 (prun false (fun _ _ _ _ => Ok 7) 0 st [e1]) = true.
Proof. eexists. split; [reflexivity|]. cbv zeta. eexists. repeat split; reflexivity. Qed.
