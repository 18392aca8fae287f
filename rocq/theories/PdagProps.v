(** C18, C19, C50: pdag2dag. *)
From Verif Require Import Base EdgeModel EdgeProofs GraphModel GraphSpec GraphProofs DpathProofs RankLib UtilsModel UtilsProofs
  DsepSpec DsepProofs MeekModel MeekSpec MeekProofs PdagModel PdagProofs CheckLib.
Local Open Scope Z_scope.

(** C18: whatever pdag2dag returns for a graph of directed and undirected edges is a consistent extension of it
    (see MeekSpec.extension: a DAG, same adjacencies, directed edges kept, no new unshielded collider). *)
Theorem C18_pdag2dag_extension : forall fuel g d, pdag g -> pdag2dag fuel g = Some d -> extension g d.
Proof. intros fuel g d Hp E. eapply loop_extension; [exact Hp| |exact E]. now apply init_inv. Qed.

(** The unshielded colliders of the result are exactly those of the input. *)
Theorem C18_same_colliders : forall fuel g d, pdag g -> pdag2dag fuel g = Some d ->
  forall a b c, ucollider d a b c <-> ucollider g a b c.
Proof.
  intros fuel g d Hp E a b c. pose proof (C18_pdag2dag_extension _ _ _ Hp E) as (Hn & Hdag & Hj & Hd & Hu).
  split; [apply Hu|]. intros (Ha & Hb & Hc & Hne & E1 & E2 & E3 & E4 & E5).
  assert (Da : directed g a b) by (destruct (pair_cases_pdag g Hp a b Ha Hb) as [[X _]|[X|[(_ & _ & X & _)|(_ & _ & _ & X)]]]; [lia|exact X|lia|lia]).
  assert (Dc : directed g c b) by (destruct (pair_cases_pdag g Hp c b Hc Hb) as [[X _]|[X|[(_ & _ & X & _)|(_ & _ & _ & X)]]]; [lia|exact X|lia|lia]).
  apply Hd in Da, Dc. destruct Da as (X1 & X2 & X3 & X4), Dc as (X5 & X6 & X7 & X8).
  unfold ucollider. repeat (split; [first [assumption|lia]|]).
  destruct (Z.eq_dec (gm d a c) 0) as [|N]; [assumption|]. exfalso.
  assert (J : joined d a c) by (split; auto). apply Hj in J. destruct J as (_ & _ & J). contradiction.
Qed.

(** C19: pdag2dag returns exactly on the graphs that have a consistent extension (within one pass per node), and loops
    forever on the others. *)
Theorem C19_returns_iff_extendable : forall g, pdag g ->
  ((exists fuel d, pdag2dag fuel g = Some d) <-> (exists D, extension g D)) /\
  (forall fuel, (exists D, extension g D) -> (gn g <= fuel)%nat -> exists d, pdag2dag fuel g = Some d).
Proof.
  intros g Hp.
  assert (R : forall fuel, (exists D, extension g D) -> (gn g <= fuel)%nat -> exists d, pdag2dag fuel g = Some d).
  { intros fuel (D & HX) Hf. apply (loop_returns g Hp D fuel HX); [now apply init_inv|].
    unfold left_over. etransitivity; [apply filter_len|]. rewrite seq_length. exact Hf. }
  split; [|exact R]. split.
  - intros (fuel & d & E). exists d. now apply (C18_pdag2dag_extension fuel).
  - intros HX. exists (gn g). now apply R.
Qed.

(** Concrete case: 0 --- 1 --- 2, 0 --- 2, 3 -> 2. *)
Definition pd_ex : ggraph := graph_of 4 [und 0 1; und 1 2; und 0 2; dir 3 2; und 3 0; und 3 1].
Lemma pdagb_sound g : wfb g = true ->
  all2 (gn g) (fun a b => (gm g a b =? 0) || is_fully_directed g a b || is_fully_directed g b a || is_undirected g a b) = true -> pdag g.
Proof.
  intros H1 H2. split; [now apply wfb_sound|]. rewrite all2_spec in H2. intros a b (Ha & Hb & N).
  specialize (H2 a b Ha Hb). rewrite !orb_true_iff, Z.eqb_eq in H2.
  rewrite <- !is_directed_iff, <- is_undirected_iff by auto. tauto.
Qed.
Example C18_ex : pdag pd_ex /\ exists d, pdag2dag 4 pd_ex = Some d.
Proof.
  assert (H : pdag pd_ex) by (apply pdagb_sound; vm_compute; reflexivity).
  split; [exact H|]. apply C19_returns_iff_extendable; [exact H| |vm_compute; lia].
  exists (graph_of 4 [dir 0 1; dir 1 2; dir 0 2; dir 3 2; dir 3 0; dir 3 1]).
  apply (extb_sound (fun v => nth v [1; 2; 3; 0]%nat 0%nat)). vm_compute. reflexivity.
Qed.

(** C50 is false: on the undirected four-cycle (and on any other graph without a consistent extension) the loop never ends. *)
Definition square : ggraph := graph_of 4 [und 0 1; und 1 2; und 2 3; und 3 0].
Theorem C50_pdag2dag_may_hang_refuted : exists g, pdag g /\ forall fuel, pdag2dag fuel g = None.
Proof.
  exists square. split; [apply pdagb_sound; vm_compute; reflexivity|].
  assert (P : forall d, pd_pass square (d, []) = (d, [])).
  { intros d. unfold pd_pass. change (gn square) with 4%nat. cbn [seq fold_left].
    assert (St : forall i, selectable square [] i = false -> pd_step square (d, []) i = (d, [])).
    { intros i E. unfold pd_step. cbn [memb existsb snd]. now rewrite E. }
    rewrite !St by (vm_compute; reflexivity). reflexivity. }
  intros fuel. unfold pdag2dag. generalize (strip square). intros d.
  induction fuel as [|f IH]; [reflexivity|]. cbn [pd_loop]. rewrite P. exact IH.
Qed.

Print Assumptions C18_pdag2dag_extension.
Print Assumptions C18_same_colliders.
Print Assumptions C19_returns_iff_extendable.
Print Assumptions C50_pdag2dag_may_hang_refuted.
