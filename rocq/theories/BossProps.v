(** C31, C81 - C86: permutation based search (BOSS.py, GRaSP.py, gst.py). *)
From Verif Require Import Base EdgeModel GraphModel GraphSpec RankLib UtilsModel UtilsProofs DsepSpec MeekSpec CheckLib CpdagModel CpdagSpec CpdagMain CacheModel CacheProofs ExactSpec
  BossModel BossSpec BossTree BossProofs GraspProofs BossGraph.
From Coq Require Import Permutation.
Local Open Scope Z_scope.

(** The parents that a tree asked for the first time chooses for v among [before]. *)
Definition chosen (sc : nat -> list nat -> Z) (p v : nat) (before : list nat) : list nat := snd (gst_trace sc p (new_gsts sc) v before).
(** The score of an order: every variable with the parents chosen among those before it. *)
Definition order_score (sc : nat -> list nat -> Z) (p : nat) (order : list nat) : Z := order_total sc (chosen sc p) order.
(** The trees after any series of queries (variable, prefix). *)
Definition after (sc : nat -> list nat -> Z) (p : nat) (qs : list (nat * list nat)) : gsts :=
  fold_left (fun G q => fst (fst (gst_trace sc p G (fst q) (snd q)))) qs (new_gsts sc).

Lemma lindex_le x (l : list nat) r : (lindex x (l ++ x :: r) <= length l)%nat.
Proof. induction l as [|a l IH]; cbn [app lindex length]; [rewrite Nat.eqb_refl; lia|]. destruct (Nat.eqb a x); lia. Qed.
Section L.
Variable sc : nat -> list nat -> Z.
Hypothesis Hsc : set_score sc.
Variable p : nat.
Lemma chosen_tr v b : Permutation (chosen sc p v b) (snd (tr sc p v b)) /\ sc v (chosen sc p v b) = val sc p v b.
Proof.
  unfold chosen. pose proof (gst_trace_ok sc Hsc p (new_gsts sc) v b (new_gok sc Hsc p)) as Q. destruct (gst_trace _ _ _ _ _) as [[G s] ps]. destruct Q as (_ & _ & Q). cbn [snd]. split; [exact Q|].
  rewrite (Hsc v _ _ Q). unfold val. pose proof (tr_spec sc Hsc p v b) as R. destruct (tr sc p v b) as [s' ps']. destruct R as (R & _). cbn. now symmetry.
Qed.
Lemma order_score_tot order : order_score sc p order = tot sc p [] order.
Proof.
  unfold order_score, order_total.
  assert (G : forall l b, fold_right Z.add 0 (map (fun k => sc (nth k (b ++ l) 0%nat) (chosen sc p (nth k (b ++ l) 0%nat) (firstn k (b ++ l)))) (seq (length b) (length l))) = tot sc p b l).
  { induction l as [|v l IH]; intros b; [reflexivity|]. cbn [length seq map fold_right tot]. rewrite nth_middle, firstn_app, Nat.sub_diag, firstn_all. cbn [firstn]. rewrite app_nil_r.
    rewrite (proj2 (chosen_tr v b)). f_equal. rewrite <- (IH (b ++ [v])). rewrite app_length, <- app_assoc. cbn [length app]. rewrite Nat.add_1_r. reflexivity. }
  exact (G order []).
Qed.
Lemma after_gok qs : gok sc p (after sc p qs).
Proof.
  unfold after. assert (G : forall G, gok sc p G -> gok sc p (fold_left (fun G q => fst (fst (gst_trace sc p G (fst q) (snd q)))) qs G)).
  { induction qs as [|[v b] qs IH]; intros G HG; [exact HG|]. cbn. apply IH. pose proof (gst_trace_ok sc Hsc p G v b HG) as Q. destruct (gst_trace _ _ _ _ _) as [[G' s] ps]. apply Q. }
  apply G, (new_gok sc Hsc).
Qed.
(** Parents among the predecessors give a DAG. *)
Lemma order_graph order pa cfuel : Permutation order (seq 0 p) -> (forall l1 v l2, order = l1 ++ v :: l2 -> Permutation (pa v) (snd (tr sc p v l1))) -> (p < cfuel)%nat ->
  (forall x y, (y < p)%nat -> In x (pa y) -> precedes order x y) /\
  exists D C, dag D /\ gn D = p /\ (forall x y, directed D x y <-> (y < p)%nat /\ In x (pa y)) /\ dag2cpdag cfuel (graph_of_parents p pa) = Ret C /\ completed D C.
Proof.
  intros HO HP Hc. assert (HN : NoDup order) by (rewrite HO; apply seq_NoDup).
  assert (K : forall x y, (y < p)%nat -> In x (pa y) -> precedes order x y /\ (x < p)%nat /\ (lindex x order < lindex y order)%nat).
  { intros x y Hy Hx. assert (Hyo : In y order) by (rewrite HO; now apply in_seq0). destruct (lindex_split y order Hyo HN) as (A & B & E & EI & _ & NA & _).
    specialize (HP A y B E). rewrite HP in Hx. pose proof (tr_spec sc Hsc p y A) as Q. destruct (tr sc p y A) as [s ps]. destruct Q as (_ & _ & _ & Q & _). destruct (Q x Hx) as (Q1 & Q2 & Q3).
    assert (Hxo : In x order) by (rewrite HO; now apply in_seq0).
    apply in_split in Q3. destruct Q3 as (A1 & A2 & ->). split; [|split; [exact Q1|]].
    - exists A1, A2, B. rewrite E, <- app_assoc. reflexivity.
    - rewrite EI. rewrite E. rewrite <- app_assoc. clear. rewrite app_length. cbn [length].
      pose proof (lindex_le x A1 (A2 ++ y :: B)) as L. cbn [app]. lia. }
  split; [intros x y Hy Hx; now apply K|].
  destruct (graph_of_parents_dag p pa) with (r := fun v => lindex v order) as (D1 & D2 & D3).
  - intros x y Hy Hx. now apply (K x y).
  - intros x y Hx Hy H H'. apply (K x y Hy) in H. apply (K y x Hx) in H'. lia.
  - intros x y Hy Hx. now apply (K x y).
  - exists (graph_of_parents p pa). destruct (dag2cpdag_correct (graph_of_parents p pa) cfuel D1 ltac:(lia)) as (C & E & HC). exists C. auto.
Qed.
End L.

(** ** C31: the order stays a permutation, parents precede, the result is the CPDAG of that DAG *)
Theorem C31_boss : forall sc p sh eps verbose, set_score sc -> shuffling sh -> 0 < eps ->
  exists fuel0, forall fuel cfuel, (fuel0 <= fuel)%nat -> (p < cfuel)%nat ->
  exists order pa D C, boss_search sc p sh fuel eps verbose = Some (order, pa) /\ boss sc p sh fuel cfuel eps verbose = Ret C /\
    Permutation order (seq 0 p) /\ (forall x y, (y < p)%nat -> In x (pa y) -> precedes order x y) /\
    dag D /\ gn D = p /\ (forall x y, directed D x y <-> (y < p)%nat /\ In x (pa y)) /\ completed D C.
Proof.
  intros sc p sh eps verbose Hsc Hsh He. destruct (tot_bound sc Hsc p) as [M HM]. exists (S (Z.to_nat (M - tot sc p [] (seq 0 p)))). intros fuel cfuel Hf Hc.
  destruct (boss_loop_spec sc Hsc p sh Hsh eps verbose M He HM fuel 0 (seq 0 p) (seq 0 p) (new_gsts sc) (new_gok sc Hsc p) (Permutation_refl _) (Permutation_refl _) ltac:(lia)) as (order & G & E & HG & HO & _ & _).
  assert (HN : NoDup order) by (rewrite HO; apply seq_NoDup).
  pose proof (trace_all_spec sc Hsc p order [] G (fun _ => []) HG HN) as Q. unfold boss, boss_search. rewrite E. destruct (trace_all sc p [] order G (fun _ => [])) as [G' pa]. destruct Q as (_ & Q & _). cbn [snd].
  destruct (order_graph sc Hsc p order pa cfuel HO Q Hc) as (A & D & C & B1 & B2 & B3 & B4 & B5). exists order, pa, D, C. auto 10.
Qed.
Theorem C31_grasp : forall sc p sh eps depth fuel cfuel s, set_score sc -> shuffling sh -> 0 < eps -> (p < cfuel)%nat ->
  grasp_search sc p sh fuel eps depth = Some s ->
  exists D C, grasp sc p sh fuel cfuel eps depth = Ret C /\
    Permutation (g_order s) (seq 0 p) /\ (forall x y, (y < p)%nat -> In x (g_pa s y) -> precedes (g_order s) x y) /\
    dag D /\ gn D = p /\ (forall x y, directed D x y <-> (y < p)%nat /\ In x (g_pa s y)) /\ completed D C.
Proof.
  intros sc p sh eps depth fuel cfuel s Hsc Hsh He Hc E. unfold grasp. pose proof E as E'. unfold grasp_search in E'.
  assert (HL : forall o o', Permutation o (seq 0 p) -> Permutation o' (seq 0 p) -> - eps < tot sc p [] o' - tot sc p [] o -> - eps <= tot sc p [] o' - tot sc p [] o) by (intros; lia).
  pose proof (grasp_loop_inv sc Hsc p sh Hsh eps eps HL ltac:(lia) depth fuel _ _ (grasp_init_inv sc Hsc p sh Hsh) E') as HI. rewrite E.
  pose proof HI as (_ & HO & _ & HD). destruct (order_graph sc Hsc p (g_order s) (g_pa s) cfuel HO (fun l1 v l2 H => proj1 (HD l1 v l2 H)) Hc) as (A & D & C & B1 & B2 & B3 & B4 & B5).
  exists D, C. auto 10.
Qed.
(** An accepted move of BOSS raises the score by at least 1e-6, and takes the best position; a rejected one changes nothing, and no position would have
    gained as much. *)
Theorem C31_boss_move : forall sc p eps qs v order, set_score sc -> NoDup order -> In v order ->
  let '(improved, order', _) := better_mutation sc p eps v order (after sc p qs) in
  Permutation order' order /\
  (improved = true -> order_score sc p order + eps <= order_score sc p order' /\ lremove v order' = lremove v order /\
     forall k, order_score sc p (linsert k v (lremove v order)) <= order_score sc p order') /\
  (improved = false -> order' = order /\ forall k, order_score sc p (linsert k v (lremove v order)) < order_score sc p order + eps).
Proof.
  intros sc p eps qs v order Hsc HN Hv. pose proof (better_mutation_spec sc Hsc p eps v order _ (after_gok sc Hsc p qs) HN Hv) as Q.
  destruct (better_mutation _ _ _ _ _ _) as [[b o'] G']. destruct Q as (_ & Q1 & Q2). split; [|split].
  - destruct b; [destruct (Q1 eq_refl) as (k & -> & _); now apply lremove_linsert_perm|destruct (Q2 eq_refl) as [-> _]; reflexivity].
  - intros ->. destruct (Q1 eq_refl) as (k & E & A & B). rewrite !order_score_tot by exact Hsc. split; [exact A|]. split.
    + assert (ND : NoDup o') by (rewrite E, lremove_linsert_perm by exact Hv; exact HN). rewrite (lremove_filter v o' ND), E. unfold linsert. rewrite filter_app. cbn [filter]. rewrite Nat.eqb_refl. cbn [negb].
      rewrite <- filter_app, firstn_skipn. rewrite <- lremove_filter by now apply lremove_NoDup. apply lremove_not. rewrite lremove_In by exact HN. tauto.
    + intros k'. rewrite order_score_tot by exact Hsc. apply B.
  - intros ->. destruct (Q2 eq_refl) as [E A]. split; [exact E|]. intros k. rewrite !order_score_tot by exact Hsc. apply A.
Qed.

(** ** C81: BOSS terminates in a local optimum *)
Theorem C81_boss_optimum : forall sc p sh eps verbose, set_score sc -> shuffling sh -> 0 < eps ->
  exists fuel0, forall fuel, (fuel0 <= fuel)%nat -> exists order pa, boss_search sc p sh fuel eps verbose = Some (order, pa) /\
    (forall k, (k < p)%nat -> Permutation (pa (nth k order 0%nat)) (chosen sc p (nth k order 0%nat) (firstn k order))) /\
    order_score sc p (seq 0 p) <= order_score sc p order /\
    forall v k, (v < p)%nat -> order_score sc p (linsert k v (lremove v order)) < order_score sc p order + eps.
Proof.
  intros sc p sh eps verbose Hsc Hsh He. destruct (tot_bound sc Hsc p) as [M HM]. exists (S (Z.to_nat (M - tot sc p [] (seq 0 p)))). intros fuel Hf.
  destruct (boss_loop_spec sc Hsc p sh Hsh eps verbose M He HM fuel 0 (seq 0 p) (seq 0 p) (new_gsts sc) (new_gok sc Hsc p) (Permutation_refl _) (Permutation_refl _) ltac:(lia)) as (order & G & E & HG & HO & HT & HL).
  assert (HN : NoDup order) by (rewrite HO; apply seq_NoDup).
  pose proof (trace_all_spec sc Hsc p order [] G (fun _ => []) HG HN) as Q. unfold boss_search. rewrite E. destruct (trace_all sc p [] order G (fun _ => [])) as [G' pa]. destruct Q as (_ & Q & _). cbn [snd].
  exists order, pa. split; [reflexivity|]. split; [|split; [rewrite !order_score_tot by exact Hsc; exact HT|intros v k Hv; rewrite !order_score_tot by exact Hsc; now apply HL]].
  intros k Hk. rewrite (proj1 (chosen_tr sc Hsc p _ _)). assert (LO : length order = p) by (rewrite (Permutation_length HO); apply seq_length).
  destruct (nth_split order 0%nat (n := k) ltac:(lia)) as (l1 & l2 & E1 & E2). specialize (Q l1 (nth k order 0%nat) l2 E1). cbn [app] in Q. rewrite Q.
  assert (EF : firstn k order = l1) by (rewrite E1, <- E2, firstn_app, Nat.sub_diag, firstn_all; apply app_nil_r). now rewrite EF.
Qed.

(** ** C82: a query of a grow-shrink tree does not depend on earlier queries *)
Theorem C82_history : forall sc p qs v before, set_score sc ->
  let '(_, s, ps) := gst_trace sc p (after sc p qs) v before in
  Permutation ps (chosen sc p v before) /\ s = sc v ps /\ s = sc v (chosen sc p v before).
Proof.
  intros sc p qs v before Hsc. pose proof (gst_trace_ok sc Hsc p _ v before (after_gok sc Hsc p qs)) as Q. destruct (gst_trace _ _ _ _ _) as [[G s] ps]. destruct Q as (_ & Q1 & Q2).
  destruct (chosen_tr sc Hsc p v before) as [C1 C2]. assert (P : Permutation ps (chosen sc p v before)) by now rewrite C1. split; [exact P|]. split; [|congruence]. rewrite (Hsc v _ _ P). congruence.
Qed.
(** What is chosen: distinct variables before v, at least as good as no parents, and dropping any one of them does not help; the choice depends on
    the set of variables before v only. *)
Theorem C82_choice : forall sc p v before, set_score sc -> let ps := chosen sc p v before in
  NoDup ps /\ (forall x, In x ps -> (x < p)%nat /\ x <> v /\ In x before) /\ sc v [] <= sc v ps /\
  (forall x, In x ps -> sc v (lremove x ps) <= sc v ps) /\
  forall before', (forall x, In x before <-> In x before') -> Permutation (chosen sc p v before') ps.
Proof.
  intros sc p v before Hsc ps. destruct (chosen_tr sc Hsc p v before) as [C1 C2]. fold ps in C1, C2. pose proof (tr_spec sc Hsc p v before) as Q. unfold val in C2.
  destruct (tr sc p v before) as [s ps'] eqn:E. destruct Q as (Q1 & Q2 & Q3 & Q4 & Q5). cbn [fst snd] in *. split; [now rewrite C1|]. split; [intros x Hx; apply Q4; now rewrite <- C1|]. split; [lia|]. split.
  - intros x Hx. rewrite C2. rewrite (Hsc v _ _ (lremove_Perm x _ _ C1)). apply Q5. now rewrite <- C1.
  - intros b' Hb. rewrite (proj1 (chosen_tr sc Hsc p v b')), C1. rewrite <- (tr_ext sc p v before b' Hb), E. reflexivity.
Qed.

(** ** C83: GRaSP's search steps *)
(** The states GRaSP goes through. *)
Inductive grasp_state (sc : nat -> list nat -> Z) (p : nat) (sh : nat -> list nat -> list nat) (eps : Z) : gstate -> Prop :=
| gs_init : grasp_state sc p sh eps (grasp_init sc p sh)
| gs_dfs : forall depth s, grasp_state sc p sh eps s -> grasp_state sc p sh eps (snd (dfs sc p sh eps depth [] [] s)).
Definition same_search (p : nat) (s s' : gstate) : Prop :=
  g_order s' = g_order s /\ g_edges s' = g_edges s /\ forall v, (v < p)%nat -> Permutation (g_pa s' v) (g_pa s v) /\ g_loc s' v = g_loc s v.
Lemma grasp_state_inv sc p sh eps s : set_score sc -> shuffling sh -> 0 < eps -> grasp_state sc p sh eps s -> Inv sc p s.
Proof.
  intros Hsc Hsh He H. induction H as [|depth s H IH]; [now apply grasp_init_inv|].
  pose proof (dfs_spec sc Hsc p sh Hsh eps eps ltac:(intros; lia) ltac:(lia) depth [] [] s IH) as Q. destruct (dfs _ _ _ _ _ _ _ _) as [b s']. apply Q.
Qed.
Lemma inv_same sc p s s' : Inv sc p s -> Inv sc p s' -> g_order s' = g_order s -> g_edges s' = g_edges s -> same_search p s s'.
Proof.
  intros HI HI' HO HE. split; [exact HO|]. split; [exact HE|]. intros v Hv. destruct (order_ok sc p s HI) as (HN & HB & _). apply HB in Hv. apply in_split in Hv. destruct Hv as (l1 & l2 & E).
  destruct HI as (_ & _ & _ & HD). destruct HI' as (_ & _ & _ & HD'). destruct (HD l1 v l2 E) as [A1 A2]. destruct (HD' l1 v l2) as [B1 B2]; [congruence|]. split; [now rewrite A1, B1|congruence].
Qed.
(** Every variable keeps the parents and the score chosen for its predecessors; a search that fails leaves the order, the parents, the scores and the edge
    count as they were; a search of depth d that succeeds moves to an order whose score is larger by more than (2 - d) * 1e-6. *)
Theorem C83_dfs : forall sc p sh eps depth s, set_score sc -> shuffling sh -> 0 < eps -> grasp_state sc p sh eps s ->
  Permutation (g_order s) (seq 0 p) /\
  (forall k, (k < p)%nat -> let v := nth k (g_order s) 0%nat in Permutation (g_pa s v) (chosen sc p v (firstn k (g_order s))) /\ g_loc s v = sc v (g_pa s v)) /\
  let '(found, s') := dfs sc p sh eps (depth - 1) [] [] s in
  (found = false -> same_search p s s') /\
  (found = true -> order_score sc p (g_order s) + eps - Z.of_nat (depth - 1) * eps < order_score sc p (g_order s')).
Proof.
  intros sc p sh eps depth s Hsc Hsh He H. pose proof (grasp_state_inv sc p sh eps s Hsc Hsh He H) as HI. destruct (order_ok sc p s HI) as (HN & HB & HL). split; [apply HI|]. split.
  - intros k Hk v. destruct (nth_split (g_order s) 0%nat (n := k) ltac:(lia)) as (l1 & l2 & E1 & E2). fold v in E1. destruct (proj2 (proj2 (proj2 HI)) l1 v l2 E1) as [A1 A2].
    assert (EF : firstn k (g_order s) = l1) by (rewrite E1, <- E2, firstn_app, Nat.sub_diag, firstn_all; apply app_nil_r). rewrite EF. destruct (chosen_tr sc Hsc p v l1) as [C1 C2].
    assert (P : Permutation (g_pa s v) (chosen sc p v l1)) by now rewrite A1, C1. split; [exact P|]. rewrite (Hsc v _ _ P). congruence.
  - pose proof (dfs_spec sc Hsc p sh Hsh eps eps ltac:(intros; lia) ltac:(lia) (depth - 1) [] [] s HI) as Q. destruct (dfs _ _ _ _ _ _ _ _) as [b s']. destruct Q as (Q1 & Q2 & Q3). split.
    + intros E. destruct (Q2 E). now apply (inv_same sc).
    + intros E. rewrite !order_score_tot by exact Hsc. now apply Q3.
Qed.
(** A successful search of GRaSP raises the score, whenever different order scores differ by more than the tolerance 1e-6 (without that, see the bound in C83_dfs). *)
Theorem C31_grasp_move : forall sc p sh eps depth s, set_score sc -> shuffling sh -> 0 < eps -> grasp_state sc p sh eps s ->
  (forall o o', Permutation o (seq 0 p) -> Permutation o' (seq 0 p) -> order_score sc p o < order_score sc p o' -> eps < order_score sc p o' - order_score sc p o) ->
  let '(found, s') := dfs sc p sh eps (depth - 1) [] [] s in
  (found = false -> g_order s' = g_order s) /\ (found = true -> order_score sc p (g_order s) + eps < order_score sc p (g_order s')).
Proof.
  intros sc p sh eps depth s Hsc Hsh He H Hgap. pose proof (grasp_state_inv sc p sh eps s Hsc Hsh He H) as HI.
  assert (HL : forall o o', Permutation o (seq 0 p) -> Permutation o' (seq 0 p) -> - eps < tot sc p [] o' - tot sc p [] o -> - 0 <= tot sc p [] o' - tot sc p [] o).
  { intros o o' H1 H2 H3. specialize (Hgap o' o H2 H1). rewrite !order_score_tot in Hgap by exact Hsc. lia. }
  pose proof (dfs_spec sc Hsc p sh Hsh eps 0 HL ltac:(lia) (depth - 1) [] [] s HI) as Q. destruct (dfs _ _ _ _ _ _ _ _) as [b s']. destruct Q as (Q1 & Q2 & Q3). split.
  - intros E. now destruct (Q2 E).
  - intros E. specialize (Q3 E). rewrite !order_score_tot by exact Hsc. lia.
Qed.
(** If different order scores differ by more than 1e-6, every successful search raises the score, and GRaSP returns. *)
Theorem C83_terminates : forall sc p sh eps depth, set_score sc -> shuffling sh -> 0 < eps ->
  (forall o o', Permutation o (seq 0 p) -> Permutation o' (seq 0 p) -> order_score sc p o < order_score sc p o' -> eps < order_score sc p o' - order_score sc p o) ->
  exists fuel0, forall fuel, (fuel0 <= fuel)%nat -> exists s, grasp_search sc p sh fuel eps depth = Some s /\
    order_score sc p (sh 0%nat (seq 0 p)) <= order_score sc p (g_order s).
Proof.
  intros sc p sh eps depth Hsc Hsh He Hgap. destruct (tot_bound sc Hsc p) as [M HM]. set (s0 := grasp_init sc p sh). assert (HI : Inv sc p s0) by now apply grasp_init_inv.
  assert (HL : forall o o', Permutation o (seq 0 p) -> Permutation o' (seq 0 p) -> - eps < tot sc p [] o' - tot sc p [] o -> - 0 <= tot sc p [] o' - tot sc p [] o).
  { intros o o' H1 H2 H3. specialize (Hgap o' o H2 H1). rewrite !order_score_tot in Hgap by exact Hsc. lia. }
  exists (S (Z.to_nat (M - tot sc p [] (g_order s0)))). intros fuel Hf.
  destruct (grasp_loop_total sc Hsc p sh Hsh eps 0 He HL ltac:(lia) depth M ltac:(lia) HM fuel s0 HI ltac:(lia)) as (s & A & B & C). exists s. split; [exact A|].
  rewrite !order_score_tot by exact Hsc. assert (EO : g_order s0 = sh 0%nat (seq 0 p)); [|now rewrite <- EO].
  unfold s0, grasp_init. generalize (seq 0 p) at 1. intros l. set (t := mkGS _ _ _ _ _ _ _ _). assert (ET : g_order t = sh 0%nat (seq 0 p)) by reflexivity. revert ET. generalize t. clear t.
  induction l as [|k l IH]; intros t ET; [exact ET|]. cbn [fold_left]. destruct (gst_trace _ _ _ _ _) as [[G x] ps]. apply IH. exact ET.
Qed.
(** tuck(i, j): the ancestors of the i-th variable at positions j+1..i move in front of position j; everything else keeps its relative order. *)
Theorem C83_tuck : forall sc p sh eps s i j, set_score sc -> shuffling sh -> 0 < eps -> grasp_state sc p sh eps s -> (j <= i)%nat -> (i < p)%nat ->
  exists P x M Q up down, g_order s = P ++ x :: M ++ Q /\ length P = j /\ length M = (i - j)%nat /\
    g_order (tuck p i j s) = P ++ up ++ x :: down ++ Q /\
    (exists f, up = filter f M /\ down = filter (fun v => negb (f v)) M /\ forall v, f v = true <-> ancestor (g_pa s) v (nth i (g_order s) 0%nat)).
Proof.
  intros sc p sh eps s i j Hsc Hsh He H Hj Hi. pose proof (grasp_state_inv sc p sh eps s Hsc Hsh He H) as HI. destruct (order_ok sc p s HI) as (HN & HB & HL).
  destruct (tuck_spec p i j s Hj ltac:(lia)) as (P & x & M & Q & anc & E1 & E2 & E3 & E4 & E5). exists P, x, M, Q, (filter (fun v => memb v anc) M), (filter (fun v => negb (memb v anc)) M).
  split; [exact E1|]. split; [exact E2|]. split; [exact E3|]. split; [rewrite E5; reflexivity|]. exists (fun v => memb v anc). split; [reflexivity|]. split; [reflexivity|]. intros v. rewrite memb_In, E4.
  apply get_anc_all; [|apply HB; apply nth_In; lia]. intros a b Hb Ha. apply HB in Hb. apply in_split in Hb. destruct Hb as (l1 & l2 & E). destruct (proj2 (proj2 (proj2 HI)) l1 b l2 E) as [A1 _].
  rewrite A1 in Ha. pose proof (tr_spec sc Hsc p b l1) as T. destruct (tr sc p b l1). destruct T as (_ & _ & _ & T & _). now apply T.
Qed.

(** ** Examples *)
Definition gtab (i : nat) (P : list nat) : Z :=
  match i, P with
  | 0%nat, [] => 30 | 0%nat, [1%nat] => 20 | 0%nat, [2%nat] => 20 | 0%nat, [1; 2]%nat => 10
  | 1%nat, [] => 10 | 1%nat, [0%nat] => 0 | 1%nat, [2%nat] => 20 | 1%nat, [0; 2]%nat => 30
  | 2%nat, [] => 0 | 2%nat, [0%nat] => 20 | 2%nat, [1%nat] => 0 | 2%nat, [0; 1]%nat => 30
  | _, _ => 0
  end.
Definition gsc (i : nat) (P : list nat) : Z := gtab i (sort_set P).
Lemma table_set (t : nat -> list nat -> Z) : set_score (fun i P => t i (sort_set P)).
Proof. intros i P P' H. f_equal. apply sort_set_eq. intros x. split; apply Permutation_in; [exact H|now apply Permutation_sym]. Qed.
Lemma no_shuffle : shuffling (fun _ l => l).
Proof. intros k l. reflexivity. Qed.
Lemma C31_example : match boss_search gsc 3 (fun _ l => l) 5 1 true with Some (o, pa) => (o, map pa [0; 1; 2]%nat) | _ => ([], []) end = ([0; 2; 1], [[]; [2; 0]; [0]])%nat.
Proof. vm_compute. reflexivity. Qed.
Definition htab (i : nat) (P : list nat) : Z :=
  match i, P with
  | 0%nat, [1%nat] => 20 | 0%nat, [2%nat] => 10 | 0%nat, [1; 2]%nat => 20
  | 1%nat, [0%nat] => 10 | 1%nat, [2%nat] => 30 | 1%nat, [0; 2]%nat => 20
  | 2%nat, [] => 10 | 2%nat, [0%nat] => 20 | 2%nat, [1%nat] => 20
  | _, _ => 0
  end.
Definition hsc (i : nat) (P : list nat) : Z := htab i (sort_set P).
Definition grasp_out sc p depth := match grasp_search sc p (fun _ l => l) 5 1 depth with Some s => (g_order s, map (g_pa s) (seq 0 p), g_edges s) | _ => ([], [], 0) end.
Lemma C83_example : grasp_out gsc 3 1 = ([0; 1; 2]%nat, [[]; []; [0; 1]]%nat, 2) /\ grasp_out hsc 3 1 = ([1; 0; 2]%nat, [[1]; []; [0]]%nat, 2).
Proof. vm_compute. auto. Qed.
(** Scores whose values are multiples of 10 satisfy the hypothesis of C83_terminates for eps = 1. *)
Lemma C83_terminates_example : forall o o', Permutation o (seq 0 3) -> Permutation o' (seq 0 3) -> order_score gsc 3 o < order_score gsc 3 o' -> 1 < order_score gsc 3 o' - order_score gsc 3 o.
Proof.
  assert (T : forall i P, exists k, gsc i P = 10 * k).
  { intros i P. unfold gsc, gtab. destruct i as [|[|[|i]]]; [..|exists 0; reflexivity];
      repeat match goal with |- context [match ?x with _ => _ end] => destruct x end; (now exists 0) || (now exists 1) || (now exists 2) || (now exists 3). }
  assert (S : forall o, exists k, order_score gsc 3 o = 10 * k).
  { intros o. unfold order_score, order_total. induction (seq 0 (length o)) as [|a l [k IH]]; [now exists 0|]. cbn [map fold_right]. rewrite IH. destruct (T (nth a o 0%nat) (chosen gsc 3 (nth a o 0%nat) (firstn a o))) as [k' ->]. exists (k' + k). lia. }
  intros o o' _ _ H. destruct (S o) as [a Ha], (S o') as [b Hb]. rewrite Ha, Hb in *. lia.
Qed.

(** ** C84: the order GRaSP returns is optimal for single tucks -- it is not *)
Definition single_tuck_optimal sc p eps (s : gstate) : Prop :=
  forall i x, (i < p)%nat -> In x (g_pa s (nth i (g_order s) 0%nat)) ->
    order_score sc p (g_order (tuck p i (lindex x (g_order s)) s)) <= order_score sc p (g_order s) + eps.
Definition probe84 (r : option gstate) : bool * Z * Z :=
  match r with
  | Some s => (memb 1 (g_pa s (nth 2 (g_order s) 0%nat)), order_score gsc 3 (g_order (tuck 3 2 (lindex 1 (g_order s)) s)), order_score gsc 3 (g_order s))
  | None => (false, 0, 0)
  end.
Theorem C84_refuted : ~ (forall sc p sh fuel eps depth s, set_score sc -> shuffling sh -> 0 < eps -> (1 <= depth)%nat ->
  grasp_search sc p sh fuel eps depth = Some s -> single_tuck_optimal sc p eps s).
Proof.
  intros H. destruct (grasp_search gsc 3 (fun _ l => l) 5 1 1) as [s|] eqn:E; [|vm_compute in E; discriminate E].
  specialize (H gsc 3%nat (fun _ l => l) 5%nat 1 1%nat s (table_set gtab) no_shuffle ltac:(lia) ltac:(lia) E).
  assert (F : probe84 (Some s) = (true, 80, 70)).
  { rewrite <- E. vm_compute. reflexivity. }
  unfold probe84 in F. pose proof (f_equal (fun q => fst (fst q)) F) as F1. pose proof (f_equal (fun q => snd (fst q)) F) as F2. pose proof (f_equal snd F) as F3. cbv beta in F1, F2. cbn [fst snd] in F1, F2, F3. clear F.
  specialize (H 2%nat 1%nat ltac:(lia) (proj1 (memb_In _ _) F1)). rewrite F2, F3 in H. lia.
Qed.

(** ** C85: a parent is added greedily, the best first -- it is not *)
(** No single variable before v scores better than what is chosen. *)
Definition beats_singles sc p v before : Prop := forall x, In x before -> (x < p)%nat -> x <> v -> sc v [x] <= sc v (chosen sc p v before).
Definition ktab (i : nat) (P : list nat) : Z := match i, P with 2%nat, [0%nat] => 1 | 2%nat, [1%nat] => 5 | _, _ => 0 end.
Theorem C85_refuted : ~ (forall sc p v before, set_score sc -> beats_singles sc p v before).
Proof. intros H. specialize (H _ 3%nat 2%nat [0; 1]%nat (table_set ktab) 1%nat ltac:(cbn; tauto) ltac:(lia) ltac:(lia)). vm_compute in H. congruence. Qed.

(** ** C86: the number of edges GRaSP keeps and prints is that of its graph -- it is not *)
Definition probe86 (r : option gstate) : Z * Z :=
  match r with Some s => (g_edges s, fold_right Z.add 0 (map (fun v => Z.of_nat (length (g_pa s v))) (seq 0 3))) | None => (0, 0) end.
Theorem C86_refuted : ~ (forall sc p sh fuel eps depth s, set_score sc -> shuffling sh -> 0 < eps -> (1 <= depth)%nat ->
  grasp_search sc p sh fuel eps depth = Some s -> g_edges s = fold_right Z.add 0 (map (fun v => Z.of_nat (length (g_pa s v))) (seq 0 p))).
Proof.
  intros H. destruct (grasp_search hsc 3 (fun _ l => l) 5 1 3) as [s|] eqn:E; [|vm_compute in E; discriminate E].
  specialize (H hsc 3%nat (fun _ l => l) 5%nat 1 3%nat s (table_set htab) no_shuffle ltac:(lia) ltac:(lia) E).
  assert (F : probe86 (Some s) = (2, 3)).
  { rewrite <- E. vm_compute. reflexivity. }
  unfold probe86 in F. pose proof (f_equal fst F) as F1. pose proof (f_equal snd F) as F2. cbn [fst snd] in F1, F2. rewrite F1, F2 in H. discriminate H.
Qed.
(** It is right before the first search. *)
Lemma C86_example : g_edges (grasp_init hsc 3 (fun _ l => l)) = 2 /\ map (g_pa (grasp_init hsc 3 (fun _ l => l))) (seq 0 3) = [[]; [0]; [0]]%nat.
Proof. vm_compute. auto. Qed.
