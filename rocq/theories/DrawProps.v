(** C241-C243: the drawings of a graph, its networkx form, the difference of two graphs. *)
From Verif Require Import Base EdgeModel GraphModel GraphSpec GraphProofs MeekModel MeekSpec MeekProofs PCModel CheckLib FinderProps TransferProps DrawModel.
Local Open Scope Z_scope.

(** * C241: to_pydot and to_pgv *)
(** The tip that a code stands for; 4 and 5 stand for two edges, of which this is the first and the second is bidirected. *)
Definition tip (z : Z) : option arrowtype := if (z =? -1) || (z =? 4) then Some NoTip else if (z =? 1) || (z =? 5) then Some Normal else if z =? 2 then Some Odot else None.
(** The graph has an edge with tip x at a and tip y at b. *)
Definition line (g : ggraph) (a b : nat) (x y : arrowtype) : Prop :=
  (tip (gm g a b) = Some x /\ tip (gm g b a) = Some y) \/ (3 < gm g a b /\ 3 < gm g b a /\ x = Normal /\ y = Normal).
(** The number of edges that a code stands for. *)
Definition how_many (z : Z) : nat := if z =? 0 then 0%nat else if 3 <? z then 2%nat else 1%nat.
(** The drawing shows it so. *)
Definition shows (d : drawn) (a b : nat) (x y : arrowtype) : Prop := d = mkD a b x y \/ d = mkD b a y x.
Definition between (a b : nat) (d : drawn) : bool := (Nat.eqb (d_from d) a && Nat.eqb (d_to d) b) || (Nat.eqb (d_from d) b && Nat.eqb (d_to d) a).

Definition pair_drawn (g : ggraph) (p : nat * nat) : list drawn := match collect (map draw (pair_edges g (fst p) (snd p))) with Some l => l | None => [] end.
Lemma pair_drawn_ok g i j : i <> j -> legal_pair (gm g i j) (gm g j i) -> collect (map draw (pair_edges g i j)) = Some (pair_drawn g (i, j)) /\
  (forall d, In d (pair_drawn g (i, j)) -> between i j d = true) /\
  length (pair_drawn g (i, j)) = how_many (gm g i j) /\
  forall x y, (exists d, In d (pair_drawn g (i, j)) /\ shows d i j x y) <-> line g i j x y.
Proof.
  intros N L. unfold pair_drawn, pair_edges, get_edge, line. cbn [fst snd]. remember (gm g i j) as u eqn:Eu. remember (gm g j i) as v eqn:Ev. clear Eu Ev.
  pair_cases L; subst u v; cbn; (split; [reflexivity|]; split; [|split; [reflexivity|]]).
  all: try (intros d Hd; repeat (destruct Hd as [<-|Hd]; [unfold between; cbn; rewrite !Nat.eqb_refl; cbn; rewrite ?orb_true_r; reflexivity|]); contradiction).
  all: intros x y; split.
  all: try (intros (d & Hd & Hs); repeat (destruct Hd as [<-|Hd]; [unfold shows in Hs; destruct Hs as [Hs|Hs]; injection Hs; intros; subst; try congruence; solve [left; split; reflexivity|right; repeat split; lia]|]); contradiction).
  all: intros [[Hx Hy]|(H1 & H2 & -> & ->)]; try lia; try discriminate; try (injection Hx as <-; injection Hy as <-);
    first [eexists; split; [left; reflexivity|unfold shows; solve [left; reflexivity|right; reflexivity]]|eexists; split; [right; left; reflexivity|unfold shows; solve [left; reflexivity|right; reflexivity]]].
Qed.
Lemma collect_app {A} (l m : list (option A)) a b : collect l = Some a -> collect m = Some b -> collect (l ++ m) = Some (a ++ b).
Proof.
  revert a. induction l as [|[x|] l IH]; intros a Hl Hm; cbn in *; [injection Hl as <-; exact Hm| |discriminate].
  destruct (collect l) as [s|]; [|discriminate]. injection Hl as <-. rewrite (IH s eq_refl Hm). reflexivity.
Qed.
Lemma drawn_all g ps : wf g -> (forall p, In p ps -> (fst p < snd p /\ snd p < gn g)%nat) ->
  collect (map draw (flat_map (fun p => pair_edges g (fst p) (snd p)) ps)) = Some (flat_map (pair_drawn g) ps).
Proof.
  intros [_ W]. induction ps as [|[i j] ps IH]; intros LT; [reflexivity|]. cbn [flat_map fst snd]. rewrite map_app. destruct (LT (i, j) (or_introl eq_refl)) as [L1 L2]. cbn [fst snd] in *.
  apply collect_app; [apply pair_drawn_ok; [lia|apply W; lia]|apply IH; intros p Hp; apply LT; now right].
Qed.
Lemma between_inv a b d : between a b d = true -> (d_from d = a /\ d_to d = b) \/ (d_from d = b /\ d_to d = a).
Proof. unfold between. rewrite orb_true_iff, !andb_true_iff, !Nat.eqb_eq. tauto. Qed.
Lemma filter_none {A} (f : A -> bool) l : (forall x, In x l -> f x = false) -> filter f l = [].
Proof. induction l as [|x l IH]; intros H; [reflexivity|]. cbn. rewrite (H x) by now left. apply IH. intros y Hy. apply H. now right. Qed.
Lemma filter_full {A} (f : A -> bool) l : (forall x, In x l -> f x = true) -> filter f l = l.
Proof. induction l as [|x l IH]; intros H; [reflexivity|]. cbn. rewrite (H x) by now left. f_equal. apply IH. intros y Hy. apply H. now right. Qed.
Lemma drawn_between g ps a b : wf g -> (forall p, In p ps -> (fst p < snd p /\ snd p < gn g)%nat) -> NoDup ps -> (a < b)%nat -> In (a, b) ps ->
  filter (between a b) (flat_map (pair_drawn g) ps) = pair_drawn g (a, b).
Proof.
  intros W LT ND Hab HI. assert (Other : forall i j, In (i, j) ps -> (i, j) <> (a, b) -> filter (between a b) (pair_drawn g (i, j)) = []).
  { intros i j Hp Hne. apply filter_none. intros d Hd. destruct (LT _ Hp) as [L1 L2]. cbn [fst snd] in *. destruct W as [_ W]. destruct (pair_drawn_ok g i j) as (_ & B & _); [lia|apply W; lia|].
    apply B, between_inv in Hd. apply not_true_is_false. intros Q. apply between_inv in Q. apply Hne. f_equal; lia. }
  induction ps as [|[i j] ps IH]; [contradiction|]. cbn [flat_map]. rewrite filter_app. inversion ND as [|? ? Ni Nl]; subst. destruct HI as [E|HI].
  - injection E as -> ->. replace (filter (between a b) (flat_map (pair_drawn g) ps)) with (@nil drawn).
    + rewrite app_nil_r. apply filter_full. destruct (LT (a, b) (or_introl eq_refl)) as [L1 L2]. cbn [fst snd] in *. destruct W as [_ W]. apply pair_drawn_ok; [lia|apply W; lia].
    + symmetry. clear IH. assert (O : forall p, In p ps -> filter (between a b) (pair_drawn g p) = []) by (intros [c d] Hp; apply Other; [now right|intros [= -> ->]; contradiction]).
      clear Other LT ND Ni Nl. induction ps as [|p ps IH]; [reflexivity|]. cbn [flat_map]. rewrite filter_app, (O p) by now left. apply IH. intros q Hq. apply O. now right.
  - rewrite (Other i j) by (try (now left); intros [= -> ->]; contradiction). cbn [app]. apply IH; [intros p Hp; apply LT; now right|exact Nl|exact HI|intros c d Hp; apply Other; now right].
Qed.

Lemma between_sym a b d : between a b d = between b a d.
Proof. unfold between. apply orb_comm. Qed.
Lemma shows_sym d a b x y : shows d a b x y <-> shows d b a y x.
Proof. unfold shows. tauto. Qed.
Lemma line_sym g a b x y : line g a b x y <-> line g b a y x.
Proof. unfold line. tauto. Qed.

(** Drawing never fails, and shows the edges of the graph with their marks: one line for each pair that one edge joins, two for one with parallel edges. *)
Theorem C241_drawn : forall g, wf g -> exists l, to_pydot g = Some l /\ forall a b, (a < gn g)%nat -> (b < gn g)%nat -> a <> b ->
  (forall x y, (exists d, In d l /\ shows d a b x y) <-> line g a b x y) /\
  length (filter (between a b) l) = how_many (gm g a b).
Proof.
  intros g W. exists (flat_map (pair_drawn g) (pairs_of (gn g))). assert (LT : forall p, In p (pairs_of (gn g)) -> (fst p < snd p /\ snd p < gn g)%nat) by (intros [c d] Hp; now apply in_pairs in Hp).
  split; [unfold to_pydot; rewrite edges_pairs; now apply drawn_all|].
  assert (M : forall a b, (a < b)%nat -> (b < gn g)%nat -> (forall x y, (exists d, In d (flat_map (pair_drawn g) (pairs_of (gn g))) /\ shows d a b x y) <-> line g a b x y) /\
    length (filter (between a b) (flat_map (pair_drawn g) (pairs_of (gn g)))) = how_many (gm g a b)).
  { intros a b H1 H2. pose proof (drawn_between g _ a b W LT (NoDup_pairs (gn g)) H1 (proj2 (in_pairs _ a b) (conj H1 H2))) as F. destruct (pair_drawn_ok g a b) as (_ & B & Len & Sh); [lia|destruct W as [_ W]; apply W; lia|].
    split; [|rewrite F; exact Len]. intros x y. rewrite <- Sh. split; intros (d & Hd & Hs); exists d; split; try exact Hs.
    - rewrite <- F. apply filter_In. split; [exact Hd|]. destruct Hs as [-> | ->]; unfold between; cbn; rewrite !Nat.eqb_refl; cbn; rewrite ?orb_true_r; reflexivity.
    - rewrite <- F in Hd. now apply filter_In in Hd. }
  intros a b Ha Hb N. destruct (Nat.lt_total a b) as [L|[L|L]]; [now apply M|contradiction|].
  destruct (M b a L Ha) as [M1 M2]. split.
  - intros x y. rewrite line_sym, <- M1. split; intros (d & Hd & Hs); exists d; (split; [exact Hd|now apply shows_sym]).
  - rewrite (filter_ext _ (between b a)) by (intros; apply between_sym). rewrite M2. destruct W as [_ W]. specialize (W a b Ha Hb). remember (gm g a b) as u. remember (gm g b a) as v. clear -W. pair_cases W; subst; reflexivity.
Qed.

Definition key (d : drawn) : nat * nat := (d_from d, d_to d).
Lemma strict_fresh l d : ~ In (key d) (map key l) -> strict_add l d = l ++ [d].
Proof.
  induction l as [|x l IH]; intros H; [reflexivity|]. cbn [strict_add]. destruct (Nat.eqb (d_from x) (d_from d) && Nat.eqb (d_to x) (d_to d)) eqn:E.
  - exfalso. apply H. left. apply andb_true_iff in E. rewrite !Nat.eqb_eq in E. unfold key. destruct E. congruence.
  - cbn [app]. f_equal. apply IH. intros Q. apply H. now right.
Qed.
Lemma strict_all l : forall acc, NoDup (map key (acc ++ l)) -> fold_left strict_add l acc = acc ++ l.
Proof.
  induction l as [|d l IH]; intros acc ND; cbn [fold_left]; [now rewrite app_nil_r|].
  replace (acc ++ d :: l) with ((acc ++ [d]) ++ l) in * by (rewrite <- app_assoc; reflexivity).
  rewrite strict_fresh; [now apply IH|]. rewrite !map_app, <- app_assoc in ND. cbn [map app] in ND. apply NoDup_remove_2 in ND. intros Q. apply ND, in_or_app. now left.
Qed.
(** Without parallel edges the strict graph of to_pgv has the same lines. *)
Theorem C241_strict_partial : forall g, wf g -> simple g -> to_pgv g = to_pydot g.
Proof.
  intros g W Sg. unfold to_pgv, to_pydot. rewrite edges_pairs. assert (LT : forall p, In p (pairs_of (gn g)) -> (fst p < snd p /\ snd p < gn g)%nat) by (intros [c d] Hp; now apply in_pairs in Hp).
  rewrite (drawn_all g (pairs_of (gn g)) W LT). cbn [option_map]. f_equal. rewrite strict_all; [reflexivity|]. cbn [app].
  pose proof (NoDup_pairs (gn g)) as ND. revert LT ND. generalize (pairs_of (gn g)). intros ps. induction ps as [|[i j] ps IH]; intros LT ND; [constructor|].
  cbn [flat_map]. rewrite map_app. inversion ND as [|? ? Ni Nl]; subst. destruct (LT (i, j) (or_introl eq_refl)) as [L1 L2]. cbn [fst snd] in *.
  destruct (pair_drawn_ok g i j) as (_ & B & Len & _); [lia|destruct W as [_ W]; apply W; lia|].
  apply CpdagProofs.NoDup_app_intro.
  - assert (length (pair_drawn g (i, j)) <= 1)%nat by (rewrite Len; destruct (Sg i j) as [-> |[-> |[-> | ->]]]; cbn; lia).
    destruct (pair_drawn g (i, j)) as [|d [|e l]]; [constructor|constructor; [intros []|constructor]|cbn in *; lia].
  - apply IH; [intros p Hp; apply LT; now right|exact Nl].
  - intros k Hk Hk'. apply in_map_iff in Hk, Hk'. destruct Hk as (d & <- & Hd), Hk' as (e & Ke & He). apply in_flat_map in He. destruct He as ([c f] & Hp & He). destruct (LT (c, f) (or_intror Hp)) as [L3 L4]. cbn [fst snd] in *.
    destruct (pair_drawn_ok g c f) as (_ & B' & _); [lia|destruct W as [_ W]; apply W; lia|]. apply B, between_inv in Hd. apply B', between_inv in He. unfold key in Ke. injection Ke as K1 K2. apply Ni. replace (i, j) with (c, f); [exact Hp|f_equal; lia].
Qed.
Definition bid (a b : nat) : edge := bidirected_edge a b.
(** With parallel edges it loses one: of 0 --> 1 and 0 <-> 1 only the second is drawn. *)
Theorem C241_parallel_refuted : exists g, g = graph_of 2 [dir 0 1; bid 0 1] /\ wf g /\
  to_pydot g = Some [mkD 0 1 NoTip Normal; mkD 0 1 Normal Normal] /\ to_pgv g = Some [mkD 0 1 Normal Normal].
Proof.
  eexists. split; [reflexivity|]. split; [|split; vm_compute; reflexivity]. split.
  - intros [|[|i]] Hi; [reflexivity|reflexivity|exfalso; cbn in Hi; lia].
  - intros [|[|i]] [|[|j]] Hi Hj; cbn in Hi, Hj; try lia; vm_compute; tauto.
Qed.

(** * C242: to_nx_graph and to_nx_skeleton *)
Definition nx_empty : nxg := fun _ _ => None.
Lemma nx_fold c l : forall x i j, fold_left (nx_add c) l x i j = if existsb (fun e => Nat.eqb i (fst e) && Nat.eqb j (snd e)) l then Some c else x i j.
Proof.
  induction l as [|[a b] l IH]; intros x i j; cbn [fold_left existsb]; [reflexivity|]. rewrite IH. unfold nx_add. cbn [fst snd]. destruct (existsb _ l); [now rewrite orb_true_r|]. now rewrite orb_false_r.
Qed.
Lemma exists_pair i j l : existsb (fun e : nat * nat => Nat.eqb i (fst e) && Nat.eqb j (snd e)) l = true <-> In (i, j) l.
Proof.
  rewrite existsb_exists. split; [intros ([a b] & H & E); cbn [fst snd] in E; apply andb_true_iff in E; rewrite !Nat.eqb_eq in E; destruct E as [-> ->]; exact H|].
  intros H. exists (i, j). split; [exact H|]. cbn. now rewrite !Nat.eqb_refl.
Qed.
Lemma nx_cases g x i j : (bidirected g i j /\ to_nx_graph g x i j = Some Red) \/ (directed g i j /\ to_nx_graph g x i j = Some Blue) \/ (undirected g i j /\ to_nx_graph g x i j = Some Green) \/
  (~ bidirected g i j /\ ~ directed g i j /\ ~ undirected g i j /\ to_nx_graph g x i j = x i j).
Proof.
  destruct (C77_edges g) as ([_ U] & [_ D] & [_ B] & _). specialize (U (i, j)). specialize (D (i, j)). specialize (B (i, j)). cbn [fst snd] in *. unfold to_nx_graph. rewrite !nx_fold.
  rewrite <- U, <- D, <- B, <- !exists_pair. destruct (existsb _ (find_bi_directed g)); [left; auto|]. destruct (existsb _ (find_fully_directed g)); [right; left; auto|]. destruct (existsb _ (find_undirected g)); [right; right; left; auto|].
  right. right. right. repeat split; discriminate.
Qed.
(** On the empty nx_graph of a new CausalGraph: a green edge for an undirected one, a blue one for a directed one, a red one for a bidirected one, and nothing else. *)
Theorem C242_colors_partial : forall g i j, (to_nx_graph g nx_empty i j = Some Green <-> undirected g i j) /\ (to_nx_graph g nx_empty i j = Some Blue <-> directed g i j) /\
  (to_nx_graph g nx_empty i j = Some Red <-> bidirected g i j).
Proof.
  intros g i j. destruct (nx_cases g nx_empty i j) as [[H ->]|[[H ->]|[[H ->]|(H1 & H2 & H3 & ->)]]]; unfold bidirected, directed, undirected, nx_empty in *;
  repeat split; intros; try discriminate; try tauto; try (exfalso; lia).
Qed.
(** Called again it keeps what the graph no longer has: an edge removed after the first call is still there after the second. *)
Theorem C242_stale_refuted : exists g h, g = graph_of 2 [dir 0 1] /\ h = remove_edge g (dir 0 1) /\ ~ joined h 0 1 /\ to_nx_graph h (to_nx_graph g nx_empty) 0%nat 1%nat = Some Blue.
Proof. eexists. eexists. split; [reflexivity|]. split; [reflexivity|]. split; [|vm_compute; reflexivity]. intros (_ & _ & H). apply H. vm_compute. reflexivity. Qed.

Lemma skel_fold l : forall x i j, fold_left (fun x e i j => (Nat.eqb i (fst e) && Nat.eqb j (snd e)) || (Nat.eqb j (fst e) && Nat.eqb i (snd e)) || x i j) l x i j = true <-> In (i, j) l \/ In (j, i) l \/ x i j = true.
Proof.
  induction l as [|[a b] l IH]; intros x i j; cbn [fold_left In]; [tauto|]. rewrite IH. cbn [fst snd]. rewrite !orb_true_iff, !andb_true_iff, !Nat.eqb_eq. split.
  - intros [H|[H|[[[-> ->] | [-> ->]]|H]]]; tauto.
  - intros [[[= -> ->]|H]|[[[= -> ->]|H]|H]]; tauto.
Qed.
(** The networkx skeleton joins the nodes that the graph joins, when every mark is a tail or an arrowhead. *)
Theorem C242_skeleton_partial : forall g, wf g -> plain g -> forall i j, to_nx_skeleton g (fun _ _ => false) i j = true <-> joined g i j.
Proof.
  intros g W P i j. unfold to_nx_skeleton. rewrite skel_fold, !filter_In, !(plain_adj g W P). cbn [fst snd]. rewrite !Nat.ltb_lt. split.
  - intros [[H _]|[[H _]|H]]; [exact H|now apply joined_sym|discriminate].
  - intros H. pose proof (joined_sym g i j W H) as H'. destruct (Nat.lt_total i j) as [L|[<-|L]]; [left; auto| |right; left; auto]. destruct H as (H1 & _ & H3). destruct W as [Wd _]. now rewrite Wd in H3.
Qed.
(** With circles an adjacency may be missing: of 0 <-o 1 and 2 <-o 1 only the second is kept. *)
Definition circled : ggraph := graph_of 3 [Edge 1 0 CIRCLE ARROW; Edge 1 2 CIRCLE ARROW].
Theorem C242_circle_refuted : wf circled /\ joined circled 0 1 /\ to_nx_skeleton circled (fun _ _ => false) 0%nat 1%nat = false /\ to_nx_skeleton circled (fun _ _ => false) 1%nat 2%nat = true.
Proof.
  split; [split|].
  - intros [|[|[|i]]] Hi; try reflexivity; exfalso; cbn in Hi; lia.
  - intros [|[|[|i]]] [|[|[|j]]] Hi Hj; cbn in Hi, Hj; try lia; vm_compute; tauto.
  - split; [|split; vm_compute; reflexivity]. split; [|split]; vm_compute; [lia|lia|discriminate].
Qed.

(** * C243: matrix_diff *)
(** The edges that the networkx form shows: the edge from i to j. *)
Definition shown (g : ggraph) (i j : nat) : Prop := undirected g i j \/ directed g i j \/ bidirected g i j.
Lemma has_shown g i j : has_edge (to_nx_graph g nx_empty) i j = true <-> shown g i j.
Proof.
  unfold shown, has_edge. destruct (nx_cases g nx_empty i j) as [[H ->]|[[H ->]|[[H ->]|(H1 & H2 & H3 & ->)]]]; unfold nx_empty; split; intros; try tauto; discriminate.
Qed.
Definition diff (g h : ggraph) : list (nat * nat) := matrix_diff (gn g) (to_nx_graph g nx_empty) (to_nx_graph h nx_empty).
(** The list holds the pairs (i, j) such that one of the graphs has an edge from i to j and the other none, each once. *)
Theorem C243_cells : forall g h, gn g = gn h -> lists (diff g h) (fun c => (shown g (fst c) (snd c) /\ ~ shown h (fst c) (snd c)) \/ (shown h (fst c) (snd c) /\ ~ shown g (fst c) (snd c))).
Proof.
  intros g h E. unfold diff, matrix_diff. split; [apply NoDup_filter, cells_nodup|]. intros [i j]. rewrite filter_In, in_cells. cbn [fst snd]. rewrite <- !has_shown.
  assert (B : forall k, gn k = gn g -> has_edge (to_nx_graph k nx_empty) i j = true -> (i < gn g)%nat /\ (j < gn g)%nat).
  { intros k Ek H. apply has_shown in H. unfold shown, undirected, directed, bidirected in H. lia. }
  pose proof (B g eq_refl) as Bg. pose proof (B h (eq_sym E)) as Bh. destruct (has_edge (to_nx_graph g nx_empty) i j), (has_edge (to_nx_graph h nx_empty) i j); cbn.
  - split; [intros [_ Q]; discriminate|intros [[_ Q]|[_ Q]]; destruct (Q eq_refl)].
  - split; [intros _; left; split; [reflexivity|discriminate]|intros _; split; [auto|reflexivity]].
  - split; [intros _; right; split; [reflexivity|discriminate]|intros _; split; [auto|reflexivity]].
  - split; [intros [_ Q]; discriminate|intros [[Q _]|[Q _]]; discriminate].
Qed.
(** It is a distance: symmetric, and the number of cells satisfies the triangle inequality. *)
Theorem C243_distance : forall f g h, gn f = gn g -> gn g = gn h -> diff f f = [] /\ diff f g = diff g f /\ (length (diff f h) <= length (diff f g) + length (diff g h))%nat.
Proof.
  intros f g h E1 E2. unfold diff, matrix_diff. rewrite <- E1. set (a := has_edge (to_nx_graph f nx_empty)). set (b := has_edge (to_nx_graph g nx_empty)). set (c := has_edge (to_nx_graph h nx_empty)).
  split; [|split].
  - apply filter_none. intros [i j] _. cbn. destruct (a i j); reflexivity.
  - apply filter_ext. intros [i j]. cbn. destruct (a i j), (b i j); reflexivity.
  - induction (cells (gn f)) as [|[i j] l IH]; [reflexivity|]. cbn [filter fst snd]. destruct (a i j), (b i j), (c i j); cbn [Bool.eqb negb length]; lia.
Qed.
(** Between graphs of directed and undirected edges it is empty only when they are equal. *)
Theorem C243_equal_partial : forall g h, wf g -> wf h -> gn g = gn h -> (forall k, k = g \/ k = h -> plain k /\ forall a b, ~ bidirected k a b) ->
  (diff g h = [] <-> forall i j, (i < gn g)%nat -> (j < gn g)%nat -> gm g i j = gm h i j).
Proof.
  intros g h Wg Wh E K.
  assert (Q : forall k i j, (k = g \/ k = h) -> wf k -> (i < gn k)%nat -> (j < gn k)%nat -> gm k i j = (if has_edge (to_nx_graph k nx_empty) i j then -1 else if has_edge (to_nx_graph k nx_empty) j i then 1 else 0)).
  { intros k i j Hk Wk Hi Hj. destruct (K k Hk) as [P NB]. pose proof (has_shown k i j) as S1. pose proof (has_shown k j i) as S2. unfold shown, undirected, directed in *. specialize (NB i j) as N1. specialize (NB j i) as N2.
    pose proof (P i j) as P1. pose proof (P j i) as P2. unfold joined in *. pose proof (joined_sym k i j Wk) as J1. pose proof (joined_sym k j i Wk) as J2. unfold joined in *.
    assert (V : gm k i j = 0 /\ gm k j i = 0 \/ gm k i j = -1 /\ gm k j i = -1 \/ gm k i j = -1 /\ gm k j i = 1 \/ gm k i j = 1 /\ gm k j i = -1).
    { unfold bidirected in *. destruct (Z.eq_dec (gm k i j) 0) as [Z0|Z0], (Z.eq_dec (gm k j i) 0) as [Z1|Z1]; try tauto. }
    destruct (has_edge (to_nx_graph k nx_empty) i j); [destruct (proj1 S1 eq_refl) as [?|[?|?]]; [lia|lia|contradiction]|].
    destruct (has_edge (to_nx_graph k nx_empty) j i).
    - destruct V as [V|[V|[V|V]]]; [destruct (proj1 S2 eq_refl) as [?|[?|?]]; [lia|lia|contradiction]| | |lia]; exfalso; assert (false = true) by (apply S1; lia); discriminate.
    - destruct V as [V|[V|[V|V]]]; [lia| | |]; exfalso; [| |assert (false = true) by (apply (proj2 S2); clear - V Hi Hj; lia); discriminate]; assert (false = true) by (apply (proj2 S1); clear - V Hi Hj; lia); discriminate. }
  split.
  - intros D i j Hi Hj. assert (A : forall a b, (a < gn g)%nat -> (b < gn g)%nat -> has_edge (to_nx_graph g nx_empty) a b = has_edge (to_nx_graph h nx_empty) a b).
    { intros a b Ha Hb. destruct (Bool.bool_dec (has_edge (to_nx_graph g nx_empty) a b) (has_edge (to_nx_graph h nx_empty) a b)) as [e|e]; [exact e|]. exfalso.
      assert (In (a, b) (diff g h)) as HI; [|rewrite D in HI; destruct HI]. unfold diff, matrix_diff. rewrite filter_In, in_cells. cbn [fst snd]. split; [auto|]. apply negb_true_iff, Bool.eqb_false_iff, e. }
    rewrite (Q g), (Q h) by (auto; lia). rewrite !A by assumption. reflexivity.
  - intros H. unfold diff, matrix_diff. apply filter_none. intros [i j] Hc. apply in_cells in Hc. cbn [fst snd]. apply negb_false_iff, Bool.eqb_true_iff. apply eq_true_iff_eq. rewrite !has_shown. unfold shown, undirected, directed, bidirected.
    rewrite <- E, (H i j), (H j i) by tauto. tauto.
Qed.
(** Otherwise different graphs may have no difference: an undirected edge counts as a bidirected one, and one with a circle as none.  An edge that is missing counts 1 cell (and so 1/2) when it is directed, 2 when it is not. *)
Theorem C243_blind_refuted : 
  diff (graph_of 2 [und 0 1]) (graph_of 2 [bid 0 1]) = [] /\ diff (graph_of 2 [Edge 0 1 CIRCLE ARROW]) (graph_of 2 []) = [] /\
  diff (graph_of 2 [dir 0 1]) (graph_of 2 []) = [(0, 1)]%nat /\ diff (graph_of 2 [und 0 1]) (graph_of 2 []) = [(0, 1); (1, 0)]%nat /\ diff (graph_of 2 [dir 0 1]) (graph_of 2 [dir 1 0]) = [(0, 1); (1, 0)]%nat.
Proof. repeat split; vm_compute; reflexivity. Qed.
