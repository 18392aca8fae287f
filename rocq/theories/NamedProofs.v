(** Lemmas about node bookkeeping and graph comparison. *)
From Coq Require Import Permutation.
From Verif Require Import Base EdgeModel EdgeProofs GraphModel GraphSpec GraphProofs DpathProofs SumLib QueryProofs NamedModel.
Local Open Scope Z_scope.

Definition pos_map (s : nat) (l : list nat) : dict := combine l (seq s (length l)).
Arguments pos_map : simpl never.

Lemma dget_cons k' v' d k : dget ((k', v') :: d) k = if Nat.eqb k' k then Some v' else dget d k.
Proof. unfold dget. cbn. destruct (Nat.eqb k' k); reflexivity. Qed.

Lemma dget_pos l : NoDup l -> forall s k i, dget (pos_map s l) k = Some i <-> (s <= i)%nat /\ nth_error l (i - s) = Some k.
Proof.
  induction 1 as [|a l Hn Hd IH]; intros s k i; unfold pos_map; cbn [length seq combine].
  - cbn. split; [discriminate|]. intros [_ H]. destruct (i - s)%nat; discriminate H.
  - change (combine l (seq (S s) (length l))) with (pos_map (S s) l). rewrite dget_cons.
    destruct (Nat.eqb_spec a k) as [->|Hak].
    + split.
      * intros H. injection H as <-. split; [lia|]. rewrite Nat.sub_diag. reflexivity.
      * intros [Hs H]. destruct (i - s)%nat as [|m] eqn:E; [f_equal; lia|]. cbn in H.
        exfalso. apply Hn. eapply nth_error_In; eauto.
    + rewrite IH. split.
      * intros [Hs H]. split; [lia|]. replace (i - s)%nat with (S (i - S s)) by lia. exact H.
      * intros [Hs H]. destruct (i - s)%nat as [|m] eqn:E; [cbn in H; congruence|]. cbn in H.
        split; [lia|]. replace (i - S s)%nat with m by lia. exact H.
Qed.

Lemma dset_absent d k v : ~ In k (keys d) -> dset d k v = d ++ [(k, v)].
Proof.
  induction d as [|[k' v'] d IH]; intros H; cbn; [reflexivity|]. cbn in H.
  destruct (Nat.eqb_spec k' k) as [->|]; [tauto|]. rewrite IH; [reflexivity|tauto].
Qed.

Lemma keys_pos s l : keys (pos_map s l) = l.
Proof.
  unfold keys, pos_map. revert s. induction l as [|a l IH]; intros s; cbn; [reflexivity|]. now rewrite IH.
Qed.

Lemma pos_app s l v : pos_map s (l ++ [v]) = pos_map s l ++ [(v, (s + length l)%nat)].
Proof.
  unfold pos_map. revert s. induction l as [|a l IH]; intros s; cbn.
  - now rewrite Nat.add_0_r.
  - rewrite IH. do 3 f_equal. cbn. now rewrite Nat.add_succ_r.
Qed.

Lemma enumerate_aux r : forall l, NoDup (l ++ r) ->
  fold_left (fun d p => dset d (snd p) (fst p)) (combine (seq (length l) (length r)) r) (pos_map 0 l) = pos_map 0 (l ++ r).
Proof.
  induction r as [|a r IH]; intros l Hd; cbn [length seq combine fold_left].
  - now rewrite app_nil_r.
  - cbn [fst snd]. rewrite dset_absent.
    + assert (E : pos_map 0 l ++ [(a, length l)] = pos_map 0 (l ++ [a])) by (rewrite pos_app; reflexivity).
      rewrite E. replace (l ++ a :: r) with ((l ++ [a]) ++ r) by (rewrite <- app_assoc; reflexivity).
      rewrite <- IH; [|rewrite <- app_assoc; exact Hd]. rewrite app_length. cbn [length]. now rewrite Nat.add_1_r.
    + rewrite keys_pos. apply NoDup_remove_2 in Hd. intros H. apply Hd, in_app_iff. now left.
Qed.

Lemma enumerate_pos l : NoDup l -> enumerate_map l = pos_map 0 l.
Proof. intros H. apply (enumerate_aux l [] H). Qed.

(** The bookkeeping invariant: distinct names, matrix size = number of nodes, node_map = position. *)
Definition consistent (G : ngraph) : Prop :=
  NoDup (nodes G) /\ gn (ng G) = length (nodes G) /\ node_map G = pos_map 0 (nodes G).

Lemma consistent_get G v i : consistent G -> (dget (node_map G) v = Some i <-> nth_error (nodes G) i = Some v).
Proof.
  intros (Hd & _ & ->). rewrite dget_pos by exact Hd. rewrite Nat.sub_0_r. intuition lia.
Qed.

Lemma consistent_in G v : consistent G -> In v (nodes G) -> exists i, dget (node_map G) v = Some i /\ (i < gn (ng G))%nat.
Proof.
  intros HC Hv. apply In_nth_error in Hv. destruct Hv as (i & Hi). exists i. split; [now apply consistent_get|].
  destruct HC as (_ & -> & _). apply nth_error_Some. congruence.
Qed.

Lemma new_consistent l : NoDup l -> consistent (new_ngraph l).
Proof. intros H. split; [exact H|]. split; [reflexivity|]. cbn. now apply enumerate_pos. Qed.

Lemma existsb_In x l : existsb (Nat.eqb x) l = true <-> In x l.
Proof.
  rewrite existsb_exists. split; [intros (y & Hy & E); apply Nat.eqb_eq in E; now subst|].
  intros H. exists x. split; [exact H|apply Nat.eqb_refl].
Qed.

Lemma add_consistent G v : consistent G -> consistent (fst (nadd_node G v)).
Proof.
  intros HC. unfold nadd_node. destruct (existsb (Nat.eqb v) (nodes G)) eqn:E; [exact HC|].
  destruct HC as (Hd & Hn & Hm).
  assert (Hv : ~ In v (nodes G)) by (rewrite <- existsb_In; congruence).
  split; [|split]; cbn.
  - apply (NoDup_Add (a := v) (l := nodes G)); [rewrite <- (app_nil_r (nodes G)) at 1; apply Add_app|auto].
  - rewrite app_length, Hn. cbn. lia.
  - rewrite Hm, dset_absent by (now rewrite keys_pos). rewrite pos_app, Hn. reflexivity.
Qed.

Lemma lremove_spec v l i : NoDup l -> nth_error l i = Some v ->
  forall k, nth_error (lremove v l) k = nth_error l (skip i k).
Proof.
  intros Hd. revert i. induction Hd as [|a l Hn Hd IH]; intros i Hi k; [destruct i; discriminate Hi|].
  cbn [lremove]. destruct (Nat.eqb_spec a v) as [->|Hav].
  - destruct i as [|i]; [destruct k; reflexivity|]. cbn in Hi. exfalso. apply Hn. eapply nth_error_In; eauto.
  - destruct i as [|i]; [cbn in Hi; congruence|]. cbn in Hi. destruct k as [|k]; [reflexivity|].
    cbn [nth_error]. rewrite (IH i Hi k). unfold skip. change (Nat.ltb (S k) (S i)) with (Nat.ltb k i).
    destruct (Nat.ltb k i); reflexivity.
Qed.

Lemma lremove_in v l x : NoDup l -> (In x (lremove v l) <-> In x l /\ x <> v).
Proof.
  induction 1 as [|a l Hn Hd IH]; cbn; [tauto|]. destruct (Nat.eqb_spec a v) as [->|Hav]; cbn.
  - split; [intros H; split; [now right|]; intros ->; contradiction|]. intros [[->|H] Hx]; [congruence|exact H].
  - rewrite IH. split; [intros [->|H]; tauto|]. intros [[->|H] Hx]; tauto.
Qed.

Lemma lremove_nodup v l : NoDup l -> NoDup (lremove v l).
Proof.
  intros Hd. induction Hd as [|a l Hn Hd IH]; cbn; [constructor|]. destruct (Nat.eqb_spec a v); [exact Hd|].
  constructor; [|exact IH]. intros H. apply Hn. apply lremove_in in H; tauto.
Qed.

Lemma lremove_length v l : In v l -> length (lremove v l) = (length l - 1)%nat.
Proof.
  induction l as [|a l IH]; intros H; [destruct H|]. cbn. destruct (Nat.eqb_spec a v) as [->|Hav]; [lia|].
  destruct H as [H|H]; [congruence|]. cbn. rewrite IH by exact H. destruct l; [destruct H|cbn; lia].
Qed.

Lemma reconstitute_gm g es : gm (reconstitute_dpath g es) = gm g.
Proof. reflexivity. Qed.
Lemma reconstitute_gn g es : gn (reconstitute_dpath g es) = gn g.
Proof. reflexivity. Qed.

Lemma remove_consistent G v G' : consistent G -> nremove_node G v = Ok G' -> consistent G'.
Proof.
  intros HC. unfold nremove_node. destruct (dget (node_map G) v) as [i|] eqn:Ei; [|discriminate].
  apply (consistent_get G v i HC) in Ei. destruct HC as (Hd & Hn & Hm). intros H. injection H as <-.
  assert (Hv : In v (nodes G)) by (eapply nth_error_In; eauto).
  split; [|split]; cbn.
  - now apply lremove_nodup.
  - rewrite lremove_length by exact Hv. now rewrite Hn.
  - apply enumerate_pos. now apply lremove_nodup.
Qed.

Lemma remove_defined G v : consistent G -> In v (nodes G) -> exists G', nremove_node G v = Ok G'.
Proof.
  intros HC Hv. destruct (consistent_in G v HC Hv) as (i & Ei & _). unfold nremove_node. rewrite Ei. eauto.
Qed.

Lemma skip_lt i a n : (i < n)%nat -> (a < n - 1)%nat -> (skip i a < n)%nat.
Proof. unfold skip. destruct (Nat.ltb a i); lia. Qed.

Lemma rd_in n m i j : (i < n)%nat -> (j < n)%nat -> rd n m i j = Ok (m i j).
Proof.
  intros Hi Hj. unfold rd. apply Nat.ltb_lt in Hi, Hj. now rewrite Hi, Hj.
Qed.

Lemma nget_edge_idx G a b i j : consistent G -> nth_error (nodes G) i = Some a -> nth_error (nodes G) j = Some b ->
  nget_edge G a b = (if gm (ng G) i j =? 0 then Ok None
        else res_bind (endpoint_of (gm (ng G) i j)) (fun p => res_bind (endpoint_of (gm (ng G) j i)) (fun q => Ok (Some (Edge a b p q))))).
Proof.
  intros HC Hi Hj. unfold nget_edge.
  rewrite (proj2 (consistent_get G a i HC) Hi), (proj2 (consistent_get G b j HC) Hj).
  assert (Hin : (i < gn (ng G))%nat) by (destruct HC as (_ & -> & _); apply nth_error_Some; congruence).
  assert (Hjn : (j < gn (ng G))%nat) by (destruct HC as (_ & -> & _); apply nth_error_Some; congruence).
  rewrite !rd_in by auto. reflexivity.
Qed.

Lemma remove_keeps_edges G v G' a b : consistent G -> nremove_node G v = Ok G' -> In a (nodes G') -> In b (nodes G') ->
  nget_edge G' a b = nget_edge G a b.
Proof.
  intros HC HR Ha Hb. pose proof (remove_consistent G v G' HC HR) as HC'.
  apply In_nth_error in Ha, Hb. destruct Ha as (k & Hk), Hb as (l & Hl).
  rewrite (nget_edge_idx G' a b k l) by auto.
  unfold nremove_node in HR. destruct (dget (node_map G) v) as [i|] eqn:Ei; [|discriminate].
  apply (consistent_get G v i HC) in Ei. injection HR as <-. cbn [nodes ng] in *.
  rewrite (lremove_spec v (nodes G) i) in Hk, Hl by (auto; apply HC).
  rewrite (nget_edge_idx G a b (skip i k) (skip i l)) by auto. reflexivity.
Qed.

Lemma remove_nodes_spec G v G' : consistent G -> nremove_node G v = Ok G' ->
  forall x, In x (nodes G') <-> In x (nodes G) /\ x <> v.
Proof.
  intros HC. unfold nremove_node. destruct (dget (node_map G) v) as [i|] eqn:Ei; [|discriminate].
  intros H. injection H as <-. cbn. intros x. apply lremove_in, HC.
Qed.

Lemma remove_wf G v G' : consistent G -> wf (ng G) -> nremove_node G v = Ok G' -> wf (ng G').
Proof.
  intros HC [W1 W2] HR. unfold nremove_node in HR. destruct (dget (node_map G) v) as [i|] eqn:Ei; [|discriminate].
  apply (consistent_get G v i HC) in Ei. injection HR as <-. cbn [ng].
  assert (Hi : (i < gn (ng G))%nat) by (destruct HC as (_ & -> & _); apply nth_error_Some; congruence).
  split; cbn [gn gm reconstitute_dpath set_gd]; unfold del_rc.
  - intros k Hk. apply W1. now apply skip_lt.
  - intros k l Hk Hl. apply W2; now apply skip_lt.
Qed.

Lemma pad_in n m i j : (i < n)%nat -> (j < n)%nat -> pad n m i j = m i j.
Proof. intros Hi Hj. unfold pad. apply Nat.ltb_lt in Hi, Hj. now rewrite Hi, Hj. Qed.
Lemma pad_out n m i j : (n <= i \/ n <= j)%nat -> pad n m i j = 0.
Proof.
  intros H. unfold pad. destruct (Nat.ltb_spec i n), (Nat.ltb_spec j n); cbn; try reflexivity. lia.
Qed.

Lemma add_wf G v : wf (ng G) -> wf (ng (fst (nadd_node G v))).
Proof.
  intros [W1 W2]. unfold nadd_node. destruct (existsb (Nat.eqb v) (nodes G)); [split; assumption|]. cbn [fst ng].
  set (n := gn (ng G)) in *. split; cbn [gn gm].
  - intros k Hk. destruct (le_lt_dec n k); [apply pad_out; auto|]. rewrite pad_in by auto. auto.
  - intros k l Hk Hl. destruct (le_lt_dec n k); [|destruct (le_lt_dec n l)].
    + rewrite !pad_out by auto. left. reflexivity.
    + rewrite !pad_out by auto. left. reflexivity.
    + rewrite !pad_in by auto. auto.
Qed.

Lemma nth_error_lt {A} (l : list A) i a : nth_error l i = Some a -> (i < length l)%nat.
Proof. intros H. apply nth_error_Some. congruence. Qed.

Lemma add_keeps_edges G v a b : consistent G -> In a (nodes G) -> In b (nodes G) ->
  nget_edge (fst (nadd_node G v)) a b = nget_edge G a b.
Proof.
  intros HC Ha Hb. pose proof (add_consistent G v HC) as HC'. revert HC'. unfold nadd_node.
  destruct (existsb (Nat.eqb v) (nodes G)) eqn:E; [reflexivity|]. cbn [fst]. intros HC'.
  apply In_nth_error in Ha, Hb. destruct Ha as (k & Hk), Hb as (l & Hl).
  rewrite (nget_edge_idx G a b k l) by auto.
  pose proof (nth_error_lt _ _ _ Hk) as Lk. pose proof (nth_error_lt _ _ _ Hl) as Ll.
  rewrite (nget_edge_idx _ a b k l HC') by (cbn [nodes]; rewrite nth_error_app1 by auto; auto).
  cbn [ng gm]. destruct HC as (_ & Hn & _). rewrite !pad_in by lia. reflexivity.
Qed.

Lemma add_isolated G v a : consistent G -> ~ In v (nodes G) -> In a (nodes G) ->
  nget_edge (fst (nadd_node G v)) v a = Ok None /\ nget_edge (fst (nadd_node G v)) a v = Ok None.
Proof.
  intros HC Hv Ha. pose proof (add_consistent G v HC) as HC'. revert HC'. unfold nadd_node.
  destruct (existsb (Nat.eqb v) (nodes G)) eqn:E; [apply existsb_In in E; contradiction|]. cbn [fst]. intros HC'.
  apply In_nth_error in Ha. destruct Ha as (k & Hk). pose proof (nth_error_lt _ _ _ Hk) as Lk.
  assert (Hvn : nth_error (nodes G ++ [v]) (length (nodes G)) = Some v) by (rewrite nth_error_app2, Nat.sub_diag; auto).
  destruct HC as (_ & Hn & _).
  split.
  - rewrite (nget_edge_idx _ v a (length (nodes G)) k HC') by (cbn [nodes]; auto; rewrite nth_error_app1 by auto; auto).
    cbn [ng gm]. rewrite pad_out by lia. reflexivity.
  - rewrite (nget_edge_idx _ a v k (length (nodes G)) HC') by (cbn [nodes]; auto; rewrite nth_error_app1 by auto; auto).
    cbn [ng gm]. rewrite pad_out by lia. reflexivity.
Qed.

(* ---------- histories ---------- *)
(** Node additions and removals interleaved with edge operations between named nodes. *)
Inductive nop := NAdd (v : nat) | NRemove (v : nat) | NAddEdge (a b : nat) (p q : endpoint) | NAddDirected (a b : nat)
  | NRemoveEdge (a b : nat) (p q : endpoint) | NRemoveConn (a b : nat).

Definition napply (G : ngraph) (o : nop) : res ngraph :=
  match o with
  | NAdd v => Ok (fst (nadd_node G v))
  | NRemove v => nremove_node G v
  | NAddEdge a b p q => on_nodes G a b (fun g i j => add_edge g (Edge i j p q))
  | NAddDirected a b => on_nodes G a b add_directed_edge
  | NRemoveEdge a b p q => on_nodes G a b (fun g i j => remove_edge g (Edge i j p q))
  | NRemoveConn a b => on_nodes G a b remove_connecting_edge
  end.

(** Edge operations name two different nodes. *)
Definition nop_ok (o : nop) : Prop :=
  match o with NAddEdge a b _ _ | NAddDirected a b | NRemoveEdge a b _ _ | NRemoveConn a b => a <> b | _ => True end.

Lemma on_nodes_inv G a b f G' : consistent G -> wf (ng G) -> a <> b ->
  (forall i j, (i < gn (ng G))%nat -> (j < gn (ng G))%nat -> i <> j -> gn (f (ng G) i j) = gn (ng G) /\ wf (f (ng G) i j)) ->
  on_nodes G a b f = Ok G' -> consistent G' /\ wf (ng G') /\ nodes G' = nodes G.
Proof.
  intros HC HW Hab Hf. unfold on_nodes.
  destruct (dget (node_map G) a) as [i|] eqn:Ei; [|discriminate].
  destruct (dget (node_map G) b) as [j|] eqn:Ej; [|discriminate].
  intros H. injection H as <-.
  apply (consistent_get G a i HC) in Ei. apply (consistent_get G b j HC) in Ej.
  assert (Hi := nth_error_lt _ _ _ Ei). assert (Hj := nth_error_lt _ _ _ Ej).
  destruct HC as (H1 & H2 & H3). rewrite <- H2 in Hi, Hj.
  assert (Hij : i <> j) by congruence.
  destruct (Hf i j Hi Hj Hij) as [E W]. split; [|split; auto]. split; [exact H1|]. split; [cbn; congruence|exact H3].
Qed.

Lemma Edge_op_on n i j p q : (i < n)%nat -> (j < n)%nat -> i <> j ->
  op_on n (AddEdge (Edge i j p q)) /\ op_on n (RemoveEdge (Edge i j p q)).
Proof.
  intros Hi Hj Hij. unfold op_on. cbn. destruct (Edge_nodes i j p q) as [[-> ->]|[-> ->]]; repeat split; auto.
Qed.

Lemma napply_inv G o G' : consistent G -> wf (ng G) -> nop_ok o -> napply G o = Ok G' -> consistent G' /\ wf (ng G').
Proof.
  intros HC HW Ho HA. destruct o as [v|v|a b p q|a b|a b p q|a b]; cbn in *.
  - injection HA as <-. split; [now apply add_consistent|now apply add_wf].
  - split; [eapply remove_consistent; eauto|eapply remove_wf; eauto].
  - enough (H : consistent G' /\ wf (ng G') /\ nodes G' = nodes G) by tauto.
    eapply (on_nodes_inv G a b _ G' HC HW Ho); [|exact HA]. intros i j Hi Hj Hij. destruct (Edge_op_on (gn (ng G)) i j p q Hi Hj Hij) as [O1 _].
    split; [apply add_edge_gn|now apply add_edge_wf].
  - enough (H : consistent G' /\ wf (ng G') /\ nodes G' = nodes G) by tauto.
    eapply (on_nodes_inv G a b _ G' HC HW Ho); [|exact HA]. intros i j Hi Hj Hij. split; [reflexivity|apply add_directed_wf; auto; repeat split; auto].
  - enough (H : consistent G' /\ wf (ng G') /\ nodes G' = nodes G) by tauto.
    eapply (on_nodes_inv G a b _ G' HC HW Ho); [|exact HA]. intros i j Hi Hj Hij. destruct (Edge_op_on (gn (ng G)) i j p q Hi Hj Hij) as [_ O1].
    split; [apply remove_edge_gn|now apply remove_edge_wf].
  - enough (H : consistent G' /\ wf (ng G') /\ nodes G' = nodes G) by tauto.
    eapply (on_nodes_inv G a b _ G' HC HW Ho); [|exact HA]. intros i j Hi Hj Hij. split; [reflexivity|apply remove_conn_wf; auto; repeat split; auto].
Qed.

Definition nrun (G : ngraph) (ops : list nop) : res ngraph := fold_left (fun acc o => res_bind acc (fun G => napply G o)) ops (Ok G).

Lemma nrun_inv ops : forall G G', consistent G -> wf (ng G) -> Forall nop_ok ops -> nrun G ops = Ok G' -> consistent G' /\ wf (ng G').
Proof.
  unfold nrun. induction ops as [|o ops IH]; intros G G' HC HW Ho HR; cbn in HR; [injection HR as <-; auto|].
  inversion Ho as [|? ? Ho1 Ho2]; subst.
  destruct (napply G o) as [G1|] eqn:E.
  - destruct (napply_inv G o G1) as [H1 H2]; auto. eapply IH; eauto.
  - exfalso. clear - HR. revert HR. induction ops as [|o ops IH]; cbn; [discriminate|exact IH].
Qed.

(* ---------- comparison ---------- *)
Lemma sum_over_perm l l' f : Permutation l l' -> sum_over l f = sum_over l' f.
Proof.
  induction 1; rewrite ?sum_over_cons; lia.
Qed.

Lemma perm_of_sets l l' : NoDup l -> NoDup l' -> subsetb l l' = true -> subsetb l' l = true -> Permutation l l'.
Proof.
  intros H1 H2 S1 S2. apply NoDup_Permutation; auto. intros x. unfold subsetb in *.
  rewrite forallb_forall in S1, S2. split; intros H; [apply S1 in H|apply S2 in H]; now apply existsb_In in H.
Qed.

Lemma subset_perm l l' : Permutation l l' -> subsetb l l' = true.
Proof.
  intros H. apply forallb_forall. intros x Hx. apply existsb_In. eapply Permutation_in; eauto.
Qed.

(** Do the two graphs disagree on the edge between two named nodes?  Symmetric in a, b. *)
Definition differ (T E : ngraph) (a b : nat) : Z :=
  if (cell T a b =? cell E a b) && (cell T b a =? cell E b a) then 0 else 1.

Lemma differ_sym T E a b : differ T E a b = differ T E b a.
Proof. unfold differ. now rewrite andb_comm. Qed.
Lemma differ_comm T E a b : differ T E a b = differ E T a b.
Proof. unfold differ. now rewrite (Z.eqb_sym (cell T a b)), (Z.eqb_sym (cell T b a)). Qed.
Lemma differ_tri T E F a b : differ T F a b <= differ T E a b + differ E F a b.
Proof.
  unfold differ.
  destruct (Z.eqb_spec (cell T a b) (cell F a b)), (Z.eqb_spec (cell T b a) (cell F b a)),
   (Z.eqb_spec (cell T a b) (cell E a b)), (Z.eqb_spec (cell T b a) (cell E b a)),
   (Z.eqb_spec (cell E a b) (cell F a b)), (Z.eqb_spec (cell E b a) (cell F b a)); cbn; try lia; congruence.
Qed.
Lemma differ_bounds T E a b : 0 <= differ T E a b <= 1.
Proof. unfold differ. destruct (_ && _); lia. Qed.

Definition no_loops (G : ngraph) : Prop := forall i, (i < gn (ng G))%nat -> gm (ng G) i i = 0.

Lemma id_of_spec G a : consistent G -> In a (nodes G) -> nth_error (nodes G) (id_of G a) = Some a /\ (id_of G a < gn (ng G))%nat.
Proof.
  intros HC Ha. destruct (consistent_in G a HC Ha) as (i & Ei & Hi). unfold id_of. rewrite Ei.
  split; [now apply consistent_get|exact Hi].
Qed.

Lemma id_inj G a b : consistent G -> In a (nodes G) -> In b (nodes G) -> id_of G a = id_of G b -> a = b.
Proof.
  intros HC Ha Hb E. destruct (id_of_spec G a HC Ha) as [H1 _], (id_of_spec G b HC Hb) as [H2 _]. congruence.
Qed.

Lemma differ_diag T E a : consistent T -> consistent E -> no_loops T -> no_loops E -> In a (nodes T) -> In a (nodes E) -> differ T E a a = 0.
Proof.
  intros HT HE LT LE H1 H2. unfold differ, cell.
  rewrite LT, LE; [reflexivity| |]; eapply id_of_spec; eauto.
Qed.

(** The counting loop visits every unordered pair once. *)
Lemma shd_double T E ks : consistent T -> (forall a, In a ks -> In a (nodes T)) -> (forall a, In a ks -> differ T E a a = 0) ->
  2 * sum_over ks (fun a => sum_over ks (fun b => if Nat.ltb (id_of T b) (id_of T a) then 0 else differ T E a b))
  = sum_over ks (fun a => sum_over ks (fun b => differ T E a b)).
Proof.
  intros HC Hk Hd.
  set (low := fun a b => if Nat.ltb (id_of T b) (id_of T a) then 0 else differ T E a b).
  change (2 * sum_over ks (fun a => sum_over ks (fun b => low a b)) = sum_over ks (fun a => sum_over ks (fun b => differ T E a b))).
  replace (2 * sum_over ks (fun a => sum_over ks (fun b => low a b)))
    with (sum_over ks (fun a => sum_over ks (fun b => low a b)) + sum_over ks (fun a => sum_over ks (fun b => low a b))) by lia.
  rewrite (sum_over_swap ks ks low) at 2. rewrite <- sum_over_plus. apply sum_over_ext. intros a Ha.
  rewrite <- sum_over_plus. apply sum_over_ext. intros b Hb. unfold low.
  rewrite (differ_sym T E b a).
  destruct (Nat.ltb_spec (id_of T b) (id_of T a)), (Nat.ltb_spec (id_of T a) (id_of T b)); try lia.
  assert (a = b) by (eapply id_inj; eauto; lia). subst b. rewrite Hd by exact Ha. lia.
Qed.

Lemma shd_value T E : consistent T -> consistent E -> no_loops T -> no_loops E -> Permutation (nodes T) (nodes E) ->
  exists d, shd T E = Ok d /\ 2 * d = sum_over (nodes T) (fun a => sum_over (nodes T) (fun b => differ T E a b)).
Proof.
  intros HT HE LT LE HP. unfold shd.
  assert (HT' : node_map T = pos_map 0 (nodes T)) by apply HT. rewrite HT'.
  assert (HE' : node_map E = pos_map 0 (nodes E)) by apply HE. rewrite HE'. rewrite !keys_pos.
  rewrite (subset_perm _ _ HP), (subset_perm _ _ (Permutation_sym HP)). cbn [andb]. eexists. split; [reflexivity|].
  apply (shd_double T E (nodes T)); auto.
  intros a Ha. apply differ_diag; auto. eapply Permutation_in; eauto.
Qed.

(* ---------- adjacency / arrow confusion ---------- *)
Lemma b2z_cases b : (b = true /\ b2z b = 1) \/ (b = false /\ b2z b = 0).
Proof. destruct b; auto. Qed.

Lemma all_cells_plus T f g : all_cells T (fun a b => f a b + g a b) = all_cells T f + all_cells T g.
Proof.
  unfold all_cells. rewrite <- sum_over_plus. apply sum_over_ext. intros. now rewrite <- sum_over_plus.
Qed.
Lemma all_cells_ext T f g : (forall a b, f a b = g a b) -> all_cells T f = all_cells T g.
Proof. intros H. unfold all_cells. apply sum_over_ext. intros. apply sum_over_ext. intros. apply H. Qed.

Lemma map_nth_seq (l : list nat) : map (fun i => nth i l 0%nat) (seq 0 (length l)) = l.
Proof.
  induction l as [|a l IH]; [reflexivity|]. cbn [length seq map nth]. f_equal.
  rewrite <- seq_shift, map_map. exact IH.
Qed.

Lemma all_cells_names T f : all_cells T f = sum_over (nodes T) (fun a => sum_over (nodes T) (fun b => f a b)).
Proof.
  unfold all_cells.
  assert (G : forall l (h : nat -> Z), sum_over (seq 0 (length l)) (fun i => h (nth i l 0%nat)) = sum_over l h).
  { intros l h. rewrite <- (map_nth_seq l) at 2. 
    assert (M : forall k, sum_over (map (fun i => nth i l 0%nat) k) h = sum_over k (fun i => h (nth i l 0%nat))).
    { induction k as [|x k IH]; [reflexivity|]. cbn [map]. now rewrite !sum_over_cons, IH. }
    now rewrite M. }
  rewrite (G (nodes T) (fun a => sum_over (seq 0 (length (nodes T))) (fun j => f a (nth j (nodes T) 0%nat)))).
  apply sum_over_ext. intros a _. apply (G (nodes T) (fun b => f a b)).
Qed.
