(** R5 of FCI for cycles of any length (continues C72). *)
From Verif Require Import Base EdgeModel EdgeProofs GraphModel GraphSpec GraphProofs DsepSpec DsepProofs DsepTheory UtilsModel UtilsProofs RankLib CheckLib DconnLib
  SkelModel SkelSpec SkelProofs SkelSep SkelMain SkelProps PCModel MeekSpec MeekProofs
  FCIModel FCISpec FCIProofs FCIRules FCILoops FCIFront FCISep FCITotal FCIStill FCIExhaust FCISound FCISuff FCITri FCIProps.
From Coq Require Import Permutation.
Local Open Scope Z_scope.

(** Rule R5 applies to A = the first and B = the last node of [p] when [p] is an uncovered path of circle edges from A to B, A o-o B, the first node is not adjacent to the
    last but one and the last not to the second: a cycle of circle edges no two edges of which lie in a triangle. *)
Definition r5_cycle (n : nat) (g : ggraph) (p : list nat) : Prop :=
  (4 <= length p)%nat /\ NoDup p /\ (forall x, In x p -> (x < n)%nat) /\
  (forall i, (i + 1 < length p)%nat -> circles g (nth i p 0%nat) (nth (i + 1) p 0%nat)) /\ circles g (nth (length p - 1) p 0%nat) (nth 0 p 0%nat) /\
  (forall i, (i + 2 < length p)%nat -> ~ adj g (nth i p 0%nat) (nth (i + 2) p 0%nat)) /\
  ~ adj g (nth (length p - 2) p 0%nat) (nth 0 p 0%nat) /\ ~ adj g (nth (length p - 1) p 0%nat) (nth 1 p 0%nat).

(** With an oracle for d-separation in a DAG there is no such cycle: closed under R5, for cycles of every length. *)
Theorem C72_R5_oracle : forall D ind so srt mpl kall n fuel g l, (forall l, Permutation (so l) l) -> (forall l, Permutation (srt l) l) ->
  (2 * n + n * n + 2 <= fuel)%nat -> oracle n D ind -> fci ind nok nok so srt fuel None mpl kall n = Ret (g, l) -> forall p, ~ r5_cycle n g p.
Proof.
  intros D ind so srt mpl kall n fuel g l H1 H2 HF HO E p (L & ND & B & CP & CE & UP & UA & UB).
  destruct (oracle_out D ind so srt mpl kall n fuel g l H1 H2 HF HO E) as (gs & gc & go & sep & Mo & Ms & A & SG & K & F & S & _).
  pose proof HO as (Dn & HD & _). destruct (topological_rank D) as (r & Hr); [apply HD|].
  pose proof (proj1 (proj2 K)) as SA1. pose proof (same_adj_fills n gs gc go SA1 F) as SA. pose proof K as (_ & _ & (_ & TT) & _).
  assert (CC : forall x y, (x < n)%nat -> (y < n)%nat -> circles g x y -> adjacent D x y /\ ~ arrow_at gc x y).
  { intros x y Hx Hy [C1 C2]. unfold circle_at in C1, C2. rewrite S in C1, C2. split.
    - apply A; auto. apply SA; auto. unfold adj. lia.
    - intros Q. destruct (F x y Hx Hy) as [F1 _]. unfold arrow_at in Q. rewrite F1 in C1; [lia|]. unfold circle_at. lia. }
  assert (NA : forall x y, (x < n)%nat -> (y < n)%nat -> ~ adj g x y -> ~ adj gc x y).
  { intros x y Hx Hy Q J. apply Q. unfold adj. rewrite S. apply (SA x y Hx Hy). now apply SA1. }
  assert (NR : forall u m, dedge D u m -> ~ reach (dedge D) m u) by (intros u m E1 R; destruct HD as (_ & AC & _); apply (AC u); exists m; auto).
  assert (SINK : forall x m y, In x p -> In m p -> In y p -> x <> y -> circles g x m -> circles g y m -> ~ adj g x y -> (r x <= r m)%nat -> (r y <= r m)%nat -> False).
  { intros x m y Ix Im Iy Nxy Cx Cy Nx Lx Ly. pose proof (B x Ix) as Hx. pose proof (B m Im) as Hm. pose proof (B y Iy) as Hy.
    destruct (CC x m Hx Hm Cx) as [Ax NAx]. destruct (CC y m Hy Hm Cy) as [Ay NAy].
    assert (ED : forall u, adjacent D u m -> (r u <= r m)%nat -> dedge D u m) by (intros u [Q|Q] Lu; [exact Q|]; apply Hr in Q; lia).
    destruct (TT x m y Hx Hm Hy Nxy) as [[Q _]|[R|R]].
    - apply SA1; auto. now apply A.
    - apply SA1; auto. now apply A.
    - now apply NA.
    - exact (NAx Q).
    - exact (NR x m (ED x Ax Lx) R).
    - exact (NR y m (ED y Ay Ly) R). }
  destruct (max_rank r p) as (m & Hm & HX); [intros ->; cbn in L; lia|].
  apply (In_nth p m 0%nat) in Hm. destruct Hm as (i & Hi & Em).
  assert (IN : forall j, (j < length p)%nat -> In (nth j p 0%nat) p) by (intros j Hj; now apply nth_In).
  assert (DJ : forall j k, (j < length p)%nat -> (k < length p)%nat -> j <> k -> nth j p 0%nat <> nth k p 0%nat) by (intros j k Hj Hk N Q; apply N; exact (proj1 (NoDup_nth p 0%nat) ND j k Hj Hk Q)).
  assert (SY : forall x y, circles g x y -> circles g y x) by (intros x y [Q1 Q2]; now split).
  assert (LAST : forall j k, (j < length p)%nat -> (k < length p)%nat -> j <> k -> circles g (nth j p 0%nat) m -> circles g (nth k p 0%nat) m -> ~ adj g (nth j p 0%nat) (nth k p 0%nat) -> False).
  { intros j k Hj Hk N Cj Ck NJ. rewrite <- Em in *. apply (SINK (nth j p 0%nat) (nth i p 0%nat) (nth k p 0%nat)); auto. }
  destruct i as [|i].
  - apply (LAST (length p - 1)%nat 1%nat); try lia; rewrite <- ?Em; auto. apply SY. apply (CP 0%nat). lia.
  - destruct (Nat.eq_dec (Datatypes.S i) (length p - 1)) as [EQ|NE].
    + apply (LAST (length p - 2)%nat 0%nat); try lia; rewrite <- ?Em; auto.
      * replace (Datatypes.S i) with ((length p - 2) + 1)%nat by lia. apply CP. lia.
      * rewrite EQ. now apply SY.
    + apply (LAST i (i + 2)%nat); try lia; rewrite <- ?Em; auto.
      * replace (Datatypes.S i) with (i + 1)%nat by lia. apply CP. lia.
      * replace (i + 2)%nat with (Datatypes.S i + 1)%nat by lia. apply SY, CP. lia.
      * apply UP. lia.
Qed.

(** Not for every test and knowledge: the breadth-first search keeps one path per node, and gives up when that one is covered.  Node 1 is adjacent to all the others; 1 --> 2,
    1 --> 4 and 1 --> 6 are required.  3, 6, 5, 2, 0, 4 is a cycle of circle edges without chords (R5 should turn it into an undirected cycle), but every search between
    the neighbours of one of its edges meets a path through node 1 first, which is covered. *)
Definition r5_skel : list (nat * nat) := [(0, 1); (0, 2); (0, 4); (1, 2); (1, 3); (1, 4); (1, 5); (1, 6); (2, 5); (3, 4); (3, 6); (5, 6)]%nat.
Definition r5_adj (x y : nat) : bool := existsb (fun p => pair_eqb p (x, y) || pair_eqb p (y, x)) r5_skel.
(** x and y are independent given a set when they are not adjacent and all their common neighbours are in it. *)
Definition r5_ind (x y : nat) (U : list nat) : bool := negb (r5_adj x y) && forallb (fun z => negb (r5_adj x z && r5_adj z y) || memb z U) (seq 0 7).
Definition r5_req (x y : nat) : bool := Nat.eqb x 1 && memb y [2; 4; 6]%nat.
Definition table (o : outcome (ggraph * list (edge * option (bool * bool)))) (k : nat) : list (list Z) :=
  match o with Ret (g, _) => map (fun i => map (gm g i) (seq 0 k)) (seq 0 k) | _ => [] end.
Definition r5_table : list (list Z) :=
  [[0; 2; 2; 0; 2; 0; 0]; [2; 0; -1; 2; -1; 2; -1]; [2; 1; 0; 0; 0; 2; 0]; [0; 2; 0; 0; 2; 0; 2]; [2; 1; 0; 2; 0; 0; 0]; [0; 2; 2; 0; 0; 0; 2]; [0; 1; 0; 2; 0; 2; 0]].
Lemma r5_out_is o : fci r5_ind nok r5_req (fun l => l) (fun l => l) 70 None (-1) false 7 = o -> table o 7 = r5_table.
Proof. intros <-. vm_compute. reflexivity. Qed.
Theorem C72_R5_refuted : exists ind req n fuel g l p, (2 * n + n * n + 2 <= fuel)%nat /\
  fci ind nok req (fun l => l) (fun l => l) fuel None (-1) false n = Ret (g, l) /\ r5_cycle n g p /\ length p = 6%nat.
Proof.
  destruct (fci r5_ind nok r5_req (fun l => l) (fun l => l) 70 None (-1) false 7) as [[g l]| |] eqn:E; pose proof (r5_out_is _ E) as K; try discriminate K.
  exists r5_ind, r5_req, 7%nat, 70%nat, g, l, [3; 6; 5; 2; 0; 4]%nat. split; [cbn; lia|]. split; [exact E|]. split; [|reflexivity].
  assert (C : forall i j, (i < 7)%nat -> (j < 7)%nat -> gm g i j = nth j (nth i r5_table []) 0).
  { intros i j Hi Hj. rewrite <- K. unfold table. rewrite (nth_indep _ [] (map (gm g 0%nat) (seq 0 7))) by (rewrite map_length, seq_length; exact Hi).
    rewrite (map_nth (fun i => map (gm g i) (seq 0 7))), seq_nth by exact Hi. cbn [Nat.add].
    rewrite (nth_indep _ 0 (gm g i 0%nat)) by (rewrite map_length, seq_length; exact Hj). now rewrite map_nth, seq_nth. }
  unfold r5_cycle. cbn [length]. split; [lia|]. split; [repeat constructor; cbn; intuition discriminate|]. split; [intros x Hx; cbn in Hx; intuition lia|].
  split; [intros i Hi|split; [|split; [intros i Hi|split]]].
  - destruct i as [|[|[|[|[|i]]]]]; [| | | | |lia]; unfold circles, circle_at; cbn [Nat.add nth]; rewrite !C by lia; split; reflexivity.
  - unfold circles, circle_at. cbn [Nat.sub nth]. rewrite !C by lia. split; reflexivity.
  - destruct i as [|[|[|[|i]]]]; [| | | |lia]; unfold adj; cbn [Nat.add nth]; rewrite !C by lia; cbn; intros Q; now apply Q.
  - unfold adj. cbn [Nat.sub nth]. rewrite !C by lia. cbn. intros Q; now apply Q.
  - unfold adj. cbn [Nat.sub nth]. rewrite !C by lia. cbn. intros Q; now apply Q.
Qed.
