(** C151-C158: GIN. *)
From Coq Require Import Permutation.
From Verif Require Import Base EdgeModel GraphModel GraphSpec GraphProofs UtilsModel UtilsProofs NamedModel NamedProofs SkelModel SkelProofs GINModel GINSpec GINProofs GINGraph.

(** C151: merge_overlaping_cluster terminates and returns the connected components of the overlap relation: every element of the input clusters occurs exactly
    once, two elements share an output cluster exactly if a chain of overlapping input clusters links them, and (if no input cluster is empty) no output cluster is. *)
Theorem C151_merge ord cl : enumerates ord ->
  exists out, merge_overlaping_cluster ord cl = Some out /\ NoDup (concat out) /\
    (forall v, In v (concat out) <-> In v (concat cl)) /\
    (forall a b, together out a b <-> In a (concat cl) /\ linked cl a b) /\
    ((forall c, In c cl -> c <> []) -> forall c, In c out -> c <> []).
Proof. apply merge_spec. Qed.
(** C151: array_split cuts a list into k consecutive pieces, the first [len mod k] one element longer than the others. *)
Theorem C151_array_split {A} (x : list A) k : 0 < k -> concat (array_split x k) = x /\
  map (@length A) (array_split x k) = repeat (length x / k + 1) (length x mod k) ++ repeat (length x / k) (k - length x mod k).
Proof. intros H. rewrite Nat.add_1_r. now apply array_split_spec. Qed.
Example C151_ex : enumerates (fun l => l) /\ merge_overlaping_cluster (fun l => l) [[0; 1]; [4; 5]; [1; 2]] = Some [[0; 1; 2]; [4; 5]] /\ array_split [7; 8; 9] 2 = [[7; 8]; [9]].
Proof. split; [intros l _; apply Permutation_refl|]. split; vm_compute; reflexivity. Qed.

Section GINTheorems.
Variables (ord : list nat -> list nat) (indep : list nat -> list nat -> nat -> Z) (fisher : list Z -> Z) (alpha : Z).
(** The set S of variables, taken from the unclustered variables V, passes the test of GIN as implemented: Fisher's combination of
    the tests of the surrogate of S against the columns 0 .. |V \ S| - 1. *)
Definition gin_accepts (V S : list nat) : Prop :=
  (alpha <= fisher (map (indep S (ord (filter (fun v => negb (memb v S)) V))) (seq 0 (length (ord (filter (fun v => negb (memb v S)) V))))))%Z.
(** C152: the first phase of GIN ends; clusters and isolated variables partition the variables; every cluster has at least two variables, and is a class, under
    overlapping, of the accepted sets of one size of the variables that were unclustered. *)
Theorem C152_clusters n : enumerates ord ->
  exists cls vs, find_clusters ord indep fisher alpha n 2 (seq 0 n) [] = Some (cls, vs) /\ Permutation (concat cls ++ vs) (seq 0 n) /\
    forall c, In c cls -> 2 <= length c /\
      exists V size, incl c V /\ (forall v, In v V -> v < n) /\ 2 <= size < length V /\
        forall a b, In a c -> (In b c <-> reach (fun x y => exists S, In S (combs size (ord V)) /\ gin_accepts V S /\ In x S /\ In y S) a b).
Proof.
  intros HO. destruct (find_clusters_spec ord indep fisher alpha HO n n 2 (seq 0 n) []) as (cls & vs & E & K1 & K2 & K3);
    [lia|apply seq_NoDup|intros v; now rewrite in_seq0|rewrite seq_length; lia|apply seq_NoDup|intros v; cbn [concat app]; now rewrite in_seq0|intros c []|].
  exists cls, vs. split; [exact E|]. split; [apply NoDup_Permutation; [exact K1|apply seq_NoDup|intros v; now rewrite K2, in_seq0]|].
  intros c Hc. destruct (K3 c Hc) as (V & size & Q1 & Q2 & Q3 & Q4 & Q5 & Q6 & Q6' & Q7).
  assert (R : forall a b, linked (found ord indep fisher alpha size V) a b <-> reach (fun x y => exists S, In S (combs size (ord V)) /\ gin_accepts V S /\ In x S /\ In y S) a b).
  { assert (T : forall x y, together (found ord indep fisher alpha size V) x y <-> exists S, In S (combs size (ord V)) /\ gin_accepts V S /\ In x S /\ In y S).
    { intros x y. unfold together, found. split; intros (S & H); exists S; rewrite ?filter_In, ?Z.leb_le in *; unfold gin_accepts, gin_pval, minus in *; tauto. }
    intros a b. split; apply reach_mono; intros; now apply T. }
  split.
  - destruct c as [|a c]; [congruence|]. destruct c as [|b c]; [|cbn; lia]. exfalso.
    destruct (Q6' a (or_introl eq_refl)) as (S & HS & Ha). apply (found_in ord indep fisher alpha HO size V S Q1) in HS as HS'. destruct HS' as (L1 & L2 & _).
    assert (X : exists b, In b S /\ b <> a).
    { destruct S as [|x [|y S]]; [cbn in L1; lia|cbn in L1; lia|]. inversion L2 as [|? ? N1 N2]; subst. destruct (Nat.eq_dec x a) as [->|N]; [exists y; split; [right; now left|]; intros ->; apply N1; now left|exists x; split; [now left|exact N]]. }
    destruct X as (b & Hb & N). assert (K : In b [a]); [|destruct K as [K|[]]; congruence]. apply (Q7 a b (or_introl eq_refl)). apply reach_one. exists S. auto.
  - exists V, size. split; [exact Q4|]. split; [exact Q2|]. split; [exact Q3|]. intros a b Ha. rewrite (Q7 a b Ha). apply R.
Qed.

(** The test of the second phase, as implemented: cluster c against cluster c' when [order] are the clusters already ordered. *)
Definition gin_passes (order : list (list nat)) (c c' : list nat) : Prop :=
  let h k d := nth k (array_split d 2) [] in
  let X := flat_map (h 0) order ++ h 0 c ++ h 0 c' in let Z' := flat_map (h 1) order ++ h 1 c in
  (alpha <= fisher (map (indep X Z') (seq 0 (length Z'))))%Z.
Lemma passes_iff order c c' : passes indep fisher alpha order c c' = true <-> gin_passes order c c'.
Proof. unfold passes, gin_passes, gin_pval, half. rewrite negb_true_iff, Z.ltb_ge. reflexivity. Qed.
(** C153: the second phase ends; every cluster appears once, in the causal order or in the rest; when a cluster was ordered, the test against every cluster not yet ordered
    passed; every cluster in the rest fails against another one of the rest; in particular a single cluster is never left over. *)
Theorem C153_causal_order cls : NoDup cls ->
  exists order rest, order_loop indep fisher alpha (length cls) [] cls = Some (order, rest) /\ Permutation (order ++ rest) cls /\ length rest <> 1 /\
    (forall k, k < length order -> forall c, In c (skipn (k + 1) order ++ rest) -> gin_passes (firstn k order) (nth k order []) c) /\
    (forall c, In c rest -> exists c', In c' rest /\ c' <> c /\ ~ gin_passes order c c').
Proof.
  intros ND. destruct (order_loop_spec indep fisher alpha (length cls) [] cls ND (le_n _)) as (o & r & E & P1 & P2 & P3). cbn [app] in *. exists o, r. split; [exact E|]. split; [exact P1|].
  assert (P4 : forall c, In c r -> exists c', In c' r /\ c' <> c /\ ~ gin_passes o c c').
  { intros c Hc. destruct (P3 c Hc) as (c' & K1 & K2 & K3). exists c'. split; [exact K1|]. split; [exact K2|]. rewrite <- passes_iff. congruence. }
  split; [|split; [|exact P4]].
  - intros L. destruct r as [|c [|]]; try discriminate. destruct (P4 c (or_introl eq_refl)) as (c' & [<-|[]] & K & _). congruence.
  - intros k Hk c Hc. rewrite Nat.add_1_r in Hc. apply passes_iff. now apply P2.
Qed.
Lemma disjoint_distinct (cls : list (list nat)) : NoDup (concat cls) -> (forall c, In c cls -> c <> []) -> NoDup cls.
Proof.
  induction cls as [|c cls IH]; intros H1 H2; [constructor|]. cbn in H1. constructor.
  - intros K. destruct c as [|a c]; [exact (H2 [] (or_introl eq_refl) eq_refl)|]. cbn in H1. inversion H1 as [|? ? N _]; subst. apply N, in_app_iff. right. apply in_concat'. exists (a :: c). split; [exact K|now left].
  - apply IH; [|intros; apply H2; now right]. clear - H1. induction c as [|a c IHc]; [exact H1|]. cbn in H1. inversion H1; auto.
Qed.
(** C154: GIN returns a graph whose nodes are every observed variable and one latent variable per cluster (each once); with the clusters numbered in causal order, the
    rest last: a latent variable points to exactly the observed variables of its cluster; an ordered latent variable points to every later latent variable; two latent variables
    of the rest are joined by an undirected edge; there is no other edge. *)
Theorem C154_gin_graph n : enumerates ord ->
  exists G order rest vs, GIN ord indep fisher alpha n = Some (Ok G, order) /\ consistent G /\
    Permutation (concat (order ++ rest) ++ vs) (seq 0 n) /\ (forall c, In c (order ++ rest) -> 2 <= length c) /\ length rest <> 1 /\
    Permutation (nodes G) (map obs (seq 0 n) ++ map lat (seq 1 (length (order ++ rest)))) /\
    (forall k o, 1 <= k <= length (order ++ rest) -> o < n ->
       (In o (nth (k - 1) (order ++ rest) []) -> arrow G (lat k) (obs o)) /\ (~ In o (nth (k - 1) (order ++ rest) []) -> apart G (lat k) (obs o))) /\
    (forall j k, 1 <= j < k -> k <= length (order ++ rest) -> (j <= length order -> arrow G (lat j) (lat k)) /\ (length order < j -> line G (lat j) (lat k))) /\
    (forall o p, o < n -> p < n -> apart G (obs o) (obs p)).
Proof.
  intros HO. unfold GIN. destruct (C152_clusters n HO) as (cls & vs & -> & P & Hc).
  assert (ND : NoDup (concat cls ++ vs)) by (eapply Permutation_NoDup; [apply Permutation_sym; exact P|apply seq_NoDup]).
  assert (ND1 : NoDup (concat cls)) by (clear - ND; induction (concat cls) as [|a l IHl]; [constructor|]; cbn in ND; inversion ND as [|? ? N1 N2]; subst; constructor; [intros K; apply N1, in_app_iff; auto|auto]).
  assert (NDv : NoDup vs) by (clear - ND; induction (concat cls) as [|a l IHl]; [exact ND|]; cbn in ND; inversion ND; auto).
  assert (ND2 : NoDup cls) by (apply disjoint_distinct; [exact ND1|intros c K ->; apply Hc in K; cbn in K; lia]).
  destruct (C153_causal_order cls ND2) as (order & rest & -> & P2 & Hr & _ & _). unfold gin_graph.
  destruct (gin_ops_spec order rest (ord vs)) as (G & E & HC & HN & HV & HM). unfold gin_ops in E.
  exists G, order, rest, vs. rewrite E. split; [reflexivity|]. split; [exact HC|].
  assert (PC : Permutation (concat (order ++ rest)) (concat cls)).
  { clear - P2. induction P2; cbn; [constructor|now apply Permutation_app_head| |eapply perm_trans; eauto]. rewrite !app_assoc. apply Permutation_app_tail. apply Permutation_app_comm. }
  assert (PV : Permutation (concat (order ++ rest) ++ vs) (seq 0 n)) by (eapply perm_trans; [apply Permutation_app_tail; exact PC|exact P]).
  split; [exact PV|]. split; [intros c K; apply Hc; eapply Permutation_in; [exact P2|exact K]|]. split; [exact Hr|].
  assert (IV : forall o, o < n <-> In o (ord vs) \/ In o (concat (order ++ rest))).
  { intros o. rewrite <- in_seq0. rewrite (ord_in ord vs o HO NDv). split.
    - intros K. apply (Permutation_in o (Permutation_sym PV)) in K. apply in_app_iff in K. tauto.
    - intros K. apply (Permutation_in o PV). apply in_app_iff. tauto. }
  assert (NO : forall o, o < n -> In (obs o) (nodes G)) by (intros o Ho; apply HV; right; exists o; split; [now apply IV|reflexivity]).
  assert (NL : forall k, 1 <= k <= length (order ++ rest) -> In (lat k) (nodes G)) by (intros k Hk; apply HV; left; eauto).
  split.
  { apply NoDup_Permutation; [exact HN| |].
    - apply nodup_app; [apply FinFun.Injective_map_NoDup; [intros a b; unfold obs; lia|apply seq_NoDup]|apply FinFun.Injective_map_NoDup; [intros a b; unfold lat; lia|apply seq_NoDup]|].
      intros x Hx Hy. apply in_map_iff in Hx, Hy. destruct Hx as (a & <- & _), Hy as (b & K & _). unfold obs, lat in K. lia.
    - intros v. rewrite HV, in_app_iff, !in_map_iff. split.
      + intros [(k & Hk & ->)|(o & Ho & ->)]; [right; exists k; split; [reflexivity|apply in_seq; lia]|left; exists o; split; [reflexivity|apply in_seq0; now apply IV]].
      + intros [(o & <- & Ho)|(k & <- & Hk)]; [right; exists o; split; [apply IV; now apply in_seq0|reflexivity]|left; exists k; apply in_seq in Hk; split; [lia|reflexivity]]. }
  split; [|split].
  - intros k o Hk Ho. specialize (NL k Hk). specialize (NO o Ho). unfold arrow, apart. rewrite !HM by assumption. split; [apply marks_member; lia|apply marks_nonmember].
  - intros j k Hj Hk. assert (K1 := NL j ltac:(lia)). assert (K2 := NL k ltac:(lia)). unfold arrow, line. rewrite !HM by assumption. split; intros; [apply marks_ordered; lia|]. split; apply marks_rest; lia.
  - intros o p Ho Hp. specialize (NO o Ho) as K1. specialize (NO p Hp) as K2. unfold apart. rewrite !HM by assumption. split; apply marks_obs.
Qed.
End GINTheorems.

(** A case with structure: surrogates of {0,1} and {2,3} are independent of the first two columns; the first cluster is a root. *)
Definition ex_indep (X Z' : list nat) (c : nat) : Z :=
  match X, Z' with [0; 1], _ | [2; 3], _ | [0; 2], [1] => 1%Z | _, _ => 0%Z end.
Definition ex_fisher (l : list Z) : Z := fold_right Z.min 1%Z l.
Example C152_C154_ex : enumerates (fun l => l) /\ NoDup [[0; 1]; [2; 3]] /\
  find_clusters (fun l => l) ex_indep ex_fisher 1 5 2 (seq 0 5) [] = Some ([[0; 1]; [2; 3]], [4]) /\
  order_loop ex_indep ex_fisher 1 2 [] [[0; 1]; [2; 3]] = Some ([[0; 1]; [2; 3]], []) /\
  match GIN (fun l => l) ex_indep ex_fisher 1 5 with Some (Ok G, order) => order = [[0; 1]; [2; 3]] /\ nodes G = [8; 3; 0; 2; 5; 4; 6] | _ => False end.
Proof. split; [intros l _; apply Permutation_refl|]. split; [repeat constructor; cbn; intuition discriminate|]. vm_compute. auto 10. Qed.
(** With the second test failing both ways the two latent variables stay unordered. *)
Example C154_ex_line : match GIN (fun l => l) (fun X Z' c => match X with [0; 1] | [2; 3] => 1%Z | _ => 0%Z end) ex_fisher 1 5 with
  Some (Ok G, order) => order = [] /\ cell G (lat 1) (lat 2) = (-1)%Z /\ cell G (lat 2) (lat 1) = (-1)%Z | _ => False end.
Proof. vm_compute. auto. Qed.

(** C155 (refuted): "a set of variables whose surrogate is independent of every remaining variable becomes (part of) a cluster".  The implementation tests the columns 0, 1, ... instead of
    the columns of the remaining variables: here the surrogate of {0, 1} is independent of the remaining variables 2 and 3, nothing else is independent, and no cluster is found. *)
Theorem C155_remaining_variables_tested_refuted fisher alpha : (fisher [0; 0] < alpha)%Z -> (fisher [0] < alpha)%Z -> (alpha <= fisher [1; 1])%Z ->
  exists indep : list nat -> list nat -> nat -> Z,
    (alpha <= fisher (map (indep [0; 1]%nat [2; 3]%nat) [2; 3]%nat))%Z /\
    (forall X Z' c, indep X Z' c <> 0%Z -> X = [0; 1] /\ In c [2; 3]) /\
    exists G, GIN (fun l => l) indep fisher alpha 4 = Some (Ok G, []) /\ nodes G = [obs 0; obs 1; obs 2; obs 3].
Proof.
  intros H1 H2 H3.
  exists (fun X Z' c => match X with [0; 1] => match c with 2 | 3 => 1%Z | _ => 0%Z end | _ => 0%Z end). split; [exact H3|]. split.
  { intros X Z' c H. destruct X as [|[|x] [|[|[|y]] [|]]]; try (exfalso; now apply H). destruct c as [|[|[|[|c]]]]; try (exfalso; now apply H); split; cbn; auto. }
  apply Z.leb_gt in H1, H2.
  match goal with |- exists G, GIN _ ?i _ _ _ = _ /\ _ => set (ind := i) end.
  assert (F2 : found (fun l => l) ind fisher alpha 2 [0; 1; 2; 3] = []).
  { unfold found. cbn [combs map app filter]. unfold gin_pval. cbn. rewrite H1. reflexivity. }
  assert (F3 : found (fun l => l) ind fisher alpha 3 [0; 1; 2; 3] = []).
  { unfold found. cbn [combs map app filter]. unfold gin_pval. cbn. rewrite H2. reflexivity. }
  assert (E : find_clusters (fun l => l) ind fisher alpha 4 2 (seq 0 4) [] = Some ([], [0; 1; 2; 3])).
  { change (seq 0 4) with [0; 1; 2; 3]. change 4 with (S (S 2)) at 1. cbn [find_clusters length Nat.ltb Nat.leb]. rewrite F2. cbn [merge_overlaping_cluster]. 
    change (merge_overlaping_cluster (fun l => l) []) with (Some (@nil (list nat))). cbv beta iota. change (minus [0; 1; 2; 3] (concat [])) with [0; 1; 2; 3]. cbn [length Nat.ltb Nat.leb app].
    rewrite F3. change (merge_overlaping_cluster (fun l => l) []) with (Some (@nil (list nat))). reflexivity. }
  unfold GIN. rewrite E. eexists. split; [vm_compute; reflexivity|reflexivity].
Qed.
Example C155_ex : (ex_fisher [0; 0] < 1)%Z /\ (ex_fisher [0] < 1)%Z /\ (1 <= ex_fisher [1; 1])%Z.
Proof. vm_compute. repeat split; discriminate. Qed.
