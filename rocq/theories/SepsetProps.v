(** get_sepset on DAGs. *)
From Verif Require Import Base EdgeModel GraphModel GraphSpec GraphProofs UtilsModel UtilsProofs DsepSpec DsepProofs DsepTheory CheckLib SepsetModel SepsetProofs.
From Coq Require Import Permutation.
Local Open Scope nat_scope.

(** ** C177 *)
(** On a DAG, get_sepset ends; it returns None exactly for one node and for adjacent nodes; otherwise the nodes it returns are distinct proper
    ancestors of the two nodes, and they d-separate them. *)
Theorem C177_get_sepset : forall g latent srt, dag g -> (forall l, Permutation (srt l) l) -> exists N, forall fuel x y, N <= fuel -> x < gn g -> y < gn g ->
  exists r, gg_get_sepset fuel g latent srt x y = Ret r /\
    match r with
    | None => x = y \/ adjacent g x y
    | Some Z => x <> y /\ ~ adjacent g x y /\ ~ dconnected g x y Z /\ NoDup Z /\
                forall v, In v Z -> v < gn g /\ (reach1 (dedge g) v x \/ reach1 (dedge g) v y)
    end.
Proof.
  intros g latent srt HD HS. exists (S (gn g) + S (gn g * S (gn g) ^ gn g)). intros fuel x y HF Hx Hy. unfold gg_get_sepset, get_sepset, get_sepset_visit.
  destruct (Nat.eqb_spec x y) as [->|N]; [rewrite Nat.eqb_refl; exists None; auto|].
  destruct (Nat.eqb_spec y x); [congruence|].
  assert (O : forall u v, okz g u v []) by (intros u v; split; [constructor|intros w []]).
  assert (P : forall v z, v <> z -> reach (dedge g) v z -> reach1 (dedge g) v z) by (intros v z Nz R; destruct (reach_split _ _ _ R); [congruence|assumption]).
  destruct (adjacent_dec g x y) as [A|A].
  - assert (A' : adjacent g y x) by (unfold adjacent in *; tauto).
    destruct (loop_spec g HD x y latent fuel Hx Hy N ltac:(lia) srt HS fuel ltac:(lia) fuel [] (O x y) ltac:(lia)) as [L _]. rewrite (L A).
    destruct (loop_spec g HD y x latent fuel Hy Hx ltac:(auto) ltac:(lia) srt HS fuel ltac:(lia) fuel [] (O y x) ltac:(lia)) as [L' _]. rewrite (L' A'). exists None. auto.
  - destruct (loop_spec g HD x y latent fuel Hx Hy N ltac:(lia) srt HS fuel ltac:(lia) fuel [] (O x y) ltac:(lia)) as [_ L]. destruct (L A) as (Z & E & [OZ1 OZ2] & ND). rewrite E. exists (Some Z).
    split; [reflexivity|]. do 4 (split; [assumption|]). intros v Hv. destruct (OZ2 v Hv) as (H1 & H2 & H3 & [H4|H4]); split; auto.
Qed.
(** The order of the arguments does not matter for success. *)
Theorem C177_arguments_swapped : forall g latent srt, dag g -> (forall l, Permutation (srt l) l) -> exists N, forall fuel x y, N <= fuel -> x < gn g -> y < gn g ->
  (gg_get_sepset fuel g latent srt x y = Ret None <-> gg_get_sepset fuel g latent srt y x = Ret None).
Proof.
  assert (M : forall g latent srt, dag g -> (forall l, Permutation (srt l) l) -> exists N, forall fuel x y, N <= fuel -> x < gn g -> y < gn g ->
    gg_get_sepset fuel g latent srt x y = Ret None -> gg_get_sepset fuel g latent srt y x = Ret None).
  { intros g latent srt HD HS. destruct (C177_get_sepset g latent srt HD HS) as (N & H). exists N. intros fuel x y HF Hx Hy E. destruct (H fuel x y HF Hx Hy) as (r & E1 & H1).
    assert (r = None) by congruence. subst r. destruct (H fuel y x HF Hy Hx) as ([Z|] & E2 & H2); [|exact E2]. exfalso. destruct H2 as (K1 & K2 & _). unfold adjacent in *. destruct H1 as [->|H1]; tauto. }
  intros g latent srt HD HS. destruct (M g latent srt HD HS) as (N & H). exists N. intros. split; apply H; auto.
Qed.

(** ** C178: latent variables, and the method of Dag *)
(** 0 <-- 1 --> 2 with 1 latent: the latent node is in the answer.  (The types of the nodes are never looked at.) *)
Definition fork : ggraph := graph_of 3 [dir 1 0; dir 1 2].
Lemma fork_dag : dag fork.
Proof. apply (dagb_sound (fun v => 3 - v - if Nat.eqb v 1 then 2 else 0)). reflexivity. Qed.
Theorem C178_latent_refuted : exists g latent x y Z v, dag g /\ gg_get_sepset 20 g latent (fun l => l) x y = Ret (Some Z) /\ In v Z /\ latent v = true.
Proof. exists fork, (fun v => Nat.eqb v 1), 0, 2, [1], 1. split; [apply fork_dag|]. split; [vm_compute; reflexivity|]. split; [now left|reflexivity]. Qed.
(** Dag.get_sepset raises on every call. *)
Theorem C178_dag_method_refuted : forall x y, dag_get_sepset x y = Failed.
Proof. reflexivity. Qed.

(** 0 --> 1 --> 2 <-- 3 --> 0, and 1 --> 4 <-- 3: the answer for 0 and 2 has a collider's neighbour in it. *)
Definition wheel : ggraph := graph_of 5 [dir 0 1; dir 1 2; dir 3 2; dir 3 0; dir 1 4; dir 3 4].
Example C177_nonvacuous : dag wheel /\ exists a b, gg_get_sepset 20 wheel (fun _ => false) (fun l => l) 0 2 = Ret (Some [a; b]).
Proof. split; [apply (dagb_sound (fun v => match v with 3 => 0 | 0 => 1 | 1 => 2 | 2 => 3 | _ => 4 end)); reflexivity|]. do 2 eexists. vm_compute. reflexivity. Qed.
