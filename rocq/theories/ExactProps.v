(** Properties of exact score-based search (ExactSearch.py). *)
From Verif Require Import Base GraphSpec RankLib UtilsModel UtilsProofs SkelModel SkelProofs CacheModel CacheProofs ExactModel ExactSpec ExactParents ExactOrder ExactAStar ExactDP.
From Coq Require Import Permutation Sorted.
Local Open Scope Z_scope.

(** heapq: the k-th pop takes an entry of least weight. *)
Definition least_picker (pick : nat -> list qentry -> nat) : Prop :=
  forall k l, l <> [] -> exists e, nth_error l (pick k l) = Some e /\ forall x, In x l -> ele (q_f e) (q_f x).

(** ** C30: exact search is exact *)
(** The parent graphs: query_best_structure returns a best allowed parent set inside its argument, and fails only if there is none. *)
Theorem C30_best_parents : forall bic so d maxp sup inc i T, set_score bic -> (forall l, Permutation (so l) l) ->
  match query (parent_graphs bic so d maxp sup inc i) T with
  | Some (P, s) => allowed d maxp sup inc i P /\ incl P T /\ s = bic i P /\ forall P', allowed d maxp sup inc i P' -> incl P' T -> s <= bic i P'
  | None => forall P, allowed d maxp sup inc i P -> ~ incl P T
  end.
Proof.
  intros bic so d maxp sup inc i T Hb Hs. destruct (query (parent_graphs bic so d maxp sup inc i) T) as [[P s]|] eqn:E.
  - exact (query_best bic Hb so Hs d maxp sup inc i T P s E).
  - exact (query_fails bic so Hs d maxp sup inc i T E).
Qed.

Theorem C30_astar : forall bic so d maxp sup inc use_ext pick fuel,
  set_score bic -> (forall l, Permutation (so l) l) -> least_picker pick -> (2 ^ d < fuel)%nat ->
  (exists pa, network d maxp sup inc pa) ->
  let pgs := parent_graphs bic so d maxp sup inc in
  exists st pa, astar d pgs use_ext (fun U => Some (simple_h d pgs U)) pick fuel = Some st /\
    matrix_of d pa (dag_est st) /\ optimal bic d maxp sup inc pa.
Proof.
  intros bic so d maxp sup inc use_ext pick fuel Hb Hs Hp Hf (pa0 & H0) pgs.
  destruct (network_cost bic Hb so Hs d maxp sup inc pa0 H0) as (c0 & Hc0 & _).
  destruct (astar_spec d pgs (best_mono bic Hb so Hs d maxp sup inc) (best_gbest bic so Hs d maxp sup inc) use_ext pick Hp c0 fuel Hc0 Hf) as (st & U & a & E & HB & HL & HM).
  destruct (built_optimal bic Hb so Hs d maxp sup inc U st a HB HL HM) as (pa & H1 & H2 & _). exists st, pa. auto.
Qed.

Theorem C30_dp : forall bic so d maxp sup inc use_ext path,
  set_score bic -> (forall l, Permutation (so l) l) -> (exists pa, network d maxp sup inc pa) ->
  let pgs := parent_graphs bic so d maxp sup inc in
  shortest (dp_edges d pgs use_ext) [] (seq 0 d) path ->
  exists pa, matrix_of d pa (dag_est (dp_structures d path)) /\ optimal bic d maxp sup inc pa.
Proof.
  intros bic so d maxp sup inc use_ext path Hb Hs (pa0 & H0) pgs HP.
  destruct (network_cost bic Hb so Hs d maxp sup inc pa0 H0) as (c0 & Hc0 & _).
  assert (HF : forall i T, (i < d)%nat -> incl (gstruct pgs i) T -> best pgs i T = Some (gbest pgs i)).
  { intros i T Hi. apply best_first. intros E. destruct H0 as [_ H0]. specialize (H0 i Hi).
    assert (Q0 : query (pgs i) (pa0 i) = None) by (change (pgs i = []) in E; now rewrite E). exact (query_fails bic so Hs d maxp sup inc i (pa0 i) Q0 (pa0 i) H0 (incl_refl _)). }
  destruct (dp_spec d pgs (best_mono bic Hb so Hs d maxp sup inc) (best_gbest bic so Hs d maxp sup inc) HF use_ext c0 path Hc0 HP) as (a & HB & HM).
  destruct (built_optimal bic Hb so Hs d maxp sup inc (seq 0 d) _ a HB (seq_length _ _) HM) as (pa & H1 & H2 & _). exists pa. auto.
Qed.
(** The order graph does contain a path, so that networkx has one to return. *)
Theorem C30_dp_path : forall bic so d maxp sup inc use_ext,
  set_score bic -> (forall l, Permutation (so l) l) -> (exists pa, network d maxp sup inc pa) ->
  let pgs := parent_graphs bic so d maxp sup inc in exists path, is_path (dp_edges d pgs use_ext) [] path (seq 0 d) /\ weight path <> None.
Proof.
  intros bic so d maxp sup inc use_ext Hb Hs (pa0 & H0) pgs.
  destruct (network_cost bic Hb so Hs d maxp sup inc pa0 H0) as (c0 & Hc0 & _).
  assert (HF : forall i T, (i < d)%nat -> incl (gstruct pgs i) T -> best pgs i T = Some (gbest pgs i)).
  { intros i T Hi. apply best_first. intros E. destruct H0 as [_ H0]. specialize (H0 i Hi).
    assert (Q0 : query (pgs i) (pa0 i) = None) by (change (pgs i = []) in E; now rewrite E). exact (query_fails bic so Hs d maxp sup inc i (pa0 i) Q0 (pa0 i) H0 (incl_refl _)). }
  exact (dp_path_exists d pgs (best_mono bic Hb so Hs d maxp sup inc) (best_gbest bic so Hs d maxp sup inc) HF use_ext c0 Hc0).
Qed.

(** ** Examples *)
(** Three variables; the scores as a table. *)
Definition tbl (i : nat) (P : list nat) : Z :=
  match i, P with
  | 0%nat, []%nat => 0 | 0%nat, [1]%nat => 6 | 0%nat, [2]%nat => 0 | 0%nat, [1; 2]%nat => -6
  | 1%nat, []%nat => -2 | 1%nat, [0]%nat => 2 | 1%nat, [2]%nat => 1 | 1%nat, [0; 2]%nat => 0
  | 2%nat, []%nat => 6 | 2%nat, [0]%nat => -2 | 2%nat, [1]%nat => 1 | 2%nat, [0; 1]%nat => -1
  | _, _ => 100
  end.
Definition tbl_score (i : nat) (P : list nat) : Z := tbl i (sort_set P).
Lemma tbl_set : set_score tbl_score.
Proof.
  intros i P P' H. unfold tbl_score. f_equal. apply sort_set_eq. intros x. split; apply Permutation_in; [exact H|now apply Permutation_sym].
Qed.
Definition any_parent (p i : nat) : bool := negb (Nat.eqb p i).
Definition no_parent (p i : nat) : bool := false.
Definition tbl_pgs : nat -> pgraph := parent_graphs tbl_score (fun l => l) 3 3 any_parent no_parent.
Lemma net_of (pa : nat -> list nat) (r : nat -> nat) : (forall i, (i < 3)%nat -> NoDup (pa i) /\ forall p, In p (pa i) -> (p < 3)%nat /\ (r p < r i)%nat) -> network 3 3 any_parent no_parent pa.
Proof.
  intros H. split; [apply (rank_acyclic _ r); intros p i [Hi Hp]; now apply (H i)|]. intros i Hi. destruct (H i Hi) as [H1 H2]. split; [exact H1|]. split; [|split].
  - intros p Hp. destruct (H2 p Hp) as [H3 H4]. split; [exact H3|]. unfold any_parent. apply negb_true_iff, Nat.eqb_neq. intros ->. lia.
  - discriminate.
  - pose proof (NoDup_incl_length (l' := seq 0 3) H1) as L. rewrite seq_length in L. apply L. intros p Hp. apply in_seq0. now apply H2.
Qed.
(** The first entry of least weight. *)
Definition eleb (a b : ext) : bool := match a, b with Some x, Some y => x <=? y | _, None => true | None, Some _ => false end.
Fixpoint first_least (l : list qentry) : nat :=
  match l with [] => 0 | e :: r => if forallb (fun x => eleb (q_f e) (q_f x)) r then 0 else S (first_least r) end%nat.
Lemma first_least_ok : least_picker (fun _ => first_least).
Proof.
  intros _. assert (EL : forall a b, eleb a b = true <-> ele a b) by (intros [x|] [y|]; cbn; rewrite ?Z.leb_le; intuition discriminate).
  induction l as [|e r IH]; intros N; [congruence|]. cbn [first_least]. destruct (forallb _ r) eqn:E.
  - exists e. split; [reflexivity|]. rewrite forallb_forall in E. intros x [<-|Hx]; [apply ele_refl|now apply EL, E].
  - destruct r as [|e' r]; [discriminate|]. destruct (IH ltac:(discriminate)) as (m & Em & Hm). exists m. split; [exact Em|]. intros x [<-|Hx]; [|auto].
    assert (K : exists y, In y (e' :: r) /\ eleb (q_f e) (q_f y) = false).
    { clear - E. induction (e' :: r) as [|a l IHl]; [discriminate|]. cbn [forallb] in E. destruct (eleb (q_f e) (q_f a)) eqn:Ea; [|exists a; split; [now left|exact Ea]].
      destruct (IHl E) as (y & Hy & E'). exists y. split; [now right|exact E']. }
    destruct K as (y & Hy & Ey). specialize (Hm y Hy). destruct (q_f m), (q_f e), (q_f y); cbn in *; try tauto; try discriminate. rewrite Z.leb_gt in Ey. lia.
Qed.
(** The hypotheses of C30 are met, and the searches really return a graph with edges. *)
Definition tbl_best (i : nat) : list nat := match i with 0 => [1; 2] | 2 => [1] | _ => [] end%nat.
Lemma C30_example : network 3 3 any_parent no_parent tbl_best /\
  astar 3 tbl_pgs true (fun U => Some (simple_h 3 tbl_pgs U)) (fun _ => first_least) 9 = Some [Some [1; 2]; Some []; Some [1]]%nat.
Proof.
  split; [|vm_compute; reflexivity]. apply (net_of tbl_best (fun i => match i with 1 => 0 | 2 => 1 | _ => 2 end)%nat). intros i Hi.
  assert (E : (i = 0 \/ i = 1 \/ i = 2)%nat) by lia. destruct E as [-> | [-> | ->]]; cbn; (split; [repeat constructor; cbn; intuition discriminate|]); intros p Hp; intuition (subst; lia).
Qed.

(** ** C80: A star with the k-cycle conflict heuristic *)
(** The heuristic adds up costs of patterns inside the variables already placed instead of those still to be placed: the search returns a
    graph that is not optimal (total score -4, optimum -7), with the default k = 3 and path extension on. *)
Theorem C80_k_cycle_refuted : exists bic d pick st,
  set_score bic /\ least_picker pick /\ (exists pa, network d d any_parent no_parent pa) /\
  astar d (parent_graphs bic (fun l => l) d d any_parent no_parent) true
    (compute_dynamic_h (create_dynamic_pd d (parent_graphs bic (fun l => l) d d any_parent no_parent) 3)) pick (2 ^ d + 1) = Some st /\
  forall pa, matrix_of d pa (dag_est st) -> ~ optimal bic d d any_parent no_parent pa.
Proof.
  exists tbl_score, 3%nat, (fun _ => first_least), [Some []; Some []; Some [0]]%nat.
  destruct C30_example as [HN _]. split; [exact tbl_set|]. split; [exact first_least_ok|]. split; [exists tbl_best; exact HN|]. split; [vm_compute; reflexivity|].
  intros pa HM [[HA HP] HO]. specialize (HO tbl_best HN).
  assert (S0 : pa 0%nat = []).
  { destruct (pa 0%nat) as [|p l] eqn:E; [reflexivity|]. specialize (HM p 0%nat ltac:(lia)). rewrite E in HM. cbn [dag_est nth_error memb existsb] in HM. destruct HM as [[HM _]|[_ HM]]; [discriminate|destruct HM; now left]. }
  assert (S1 : pa 1%nat = []).
  { destruct (pa 1%nat) as [|p l] eqn:E; [reflexivity|]. specialize (HM p 1%nat ltac:(lia)). rewrite E in HM. cbn [dag_est nth_error memb existsb] in HM. destruct HM as [[HM _]|[_ HM]]; [discriminate|destruct HM; now left]. }
  assert (S2 : sort_set (pa 2%nat) = sort_set [0%nat]).
  { apply sort_set_eq. intros p. specialize (HM p 2%nat ltac:(lia)). cbn [dag_est nth_error memb existsb] in HM. rewrite orb_false_r in HM. destruct (Nat.eqb_spec p 0) as [E|N].
    - subst p. destruct HM as [[_ HM]|[HM _]]; [|discriminate]. split; intros _; [now left|exact HM].
    - destruct HM as [[HM _]|[_ HM]]; [discriminate|]. split; [contradiction|]. intros [E|[]]. congruence. }
  unfold total, tbl_score in HO. cbn [seq map fold_right] in HO. rewrite S0, S1, S2 in HO. vm_compute in HO. apply HO. reflexivity.
Qed.
