(** Properties of the IAMB Markov blanket search and of the Markov network built from it. *)
From Verif Require Import Base EdgeModel GraphModel GraphSpec GraphProofs UtilsModel UtilsProofs DsepSpec DsepProofs DsepTheory MBModel MBSpec MBProofs CheckLib.

Lemma iamb_run pv alpha d t fuel : t < d -> d <= fuel -> exists fw num mb,
  iamb pv alpha d fuel t = Ret (mb, num) /\ mb = backward pv alpha t fw /\ good_list d t fw /\
  (forall x, x < d -> x <> t -> ~ In x fw -> (alpha < pv t x fw)%Z) /\
  (forall l y r, fw = l ++ y :: r -> (pv t y l <= alpha)%Z /\ forall x, x < d -> x <> t -> ~ In x l -> (pv t y l <= pv t x l)%Z) /\
  num = list_sum (map (fun j => d - 1 - j) (seq 0 (length fw + 1))) + length fw.
Proof.
  intros Ht F. assert (G0 : good_list d t []) by (split; [constructor|intros x []]).
  destruct (forward_spec pv alpha d t fuel [] 0 Ht G0) as [fw [num [R [G [_ [A [B C]]]]]]]; [cbn; lia|].
  exists fw, (num + length fw), (backward pv alpha t fw). unfold iamb. rewrite R. split; [reflexivity|]. split; [reflexivity|].
  split; [exact G|]. split; [exact A|]. split.
  - intros l y r E. apply (B l y r E). cbn. lia.
  - rewrite C. cbn [length]. rewrite Nat.sub_0_r. lia.
Qed.

(** C101: with a test that answers d-separation queries of a DAG, the returned list is the Markov blanket of the target:
    its parents, children and the children's other parents, each once. *)
Theorem C101_iamb_returns_the_blanket g pv alpha t fuel : dag g -> dsep_test g pv alpha -> t < gn g -> gn g <= fuel ->
  exists mb num, iamb pv alpha (gn g) fuel t = Ret (mb, num) /\ NoDup mb /\ forall x, In x mb <-> blanket g t x.
Proof.
  intros Dg O Ht F. destruct (iamb_run pv alpha (gn g) t fuel Ht F) as [fw [num [mb [R [E [G [A _]]]]]]].
  exists mb, num. split; [exact R|]. subst mb. split; [apply (backward_fold pv alpha t fw fw), (proj1 G)|].
  intros x. unfold backward. apply (backward_exact g Dg pv alpha O t Ht fw fw G); auto.
  - apply (forward_covers g Dg pv alpha O t Ht fw G A).
  - exact (proj1 G).
Qed.

(** C102: whatever the test answers, the search ends; it returns distinct variables other than the target; there is a growing
    list, each member of which had the smallest p-value (at most alpha) when it was added and outside which every variable is
    independent of the target, and the result is part of it; with k members in that list the number of tests is
    (d-1) + (d-2) + ... + (d-1-k), plus k; that is at most (d-1)(d+2)/2. *)
Theorem C102_iamb_any_test pv alpha d t fuel : t < d -> d <= fuel ->
  exists mb num grown, iamb pv alpha d fuel t = Ret (mb, num) /\
    NoDup mb /\ ~ In t mb /\ (forall x, In x mb -> x < d) /\ incl mb grown /\ NoDup grown /\ length grown < d /\
    (forall x, x < d -> x <> t -> ~ In x grown -> (alpha < pv t x grown)%Z) /\
    (forall l y r, grown = l ++ y :: r -> y < d /\ y <> t /\ (pv t y l <= alpha)%Z /\
       forall x, x < d -> x <> t -> ~ In x l -> (pv t y l <= pv t x l)%Z) /\
    num = list_sum (map (fun j => d - 1 - j) (seq 0 (length grown + 1))) + length grown /\
    2 * num <= (d - 1) * (d + 2).
Proof.
  intros Ht F. destruct (iamb_run pv alpha d t fuel Ht F) as [fw [num [mb [R [E [G [A [B C]]]]]]]].
  exists mb, num, fw. split; [exact R|]. subst mb. destruct (backward_fold pv alpha t fw fw (proj1 G)) as [N I].
  pose proof (good_length pv d t fw Ht G) as Lf. destruct G as [G1 G2].
  split; [exact N|]. split; [intros K; apply I, G2 in K; tauto|]. split; [intros x K; apply I, G2 in K; tauto|].
  split; [intros x K; apply I, K|]. split; [exact G1|]. split; [exact Lf|]. split; [exact A|]. split.
  { intros l y r El. destruct (B l y r El) as [B1 B2]. assert (K : In y fw) by (rewrite El; apply in_elt).
    apply G2 in K. split; [tauto|]. split; [tauto|]. split; assumption. }
  split; [exact C|].
  assert (SM : forall k, k < d -> 2 * list_sum (map (fun j => d - 1 - j) (seq 0 (k + 1))) = (k + 1) * (2 * (d - 1) - k)).
  { induction k as [|k IH]; intros L; [cbn; lia|]. replace (S k + 1) with (S (k + 1)) by lia. rewrite seq_S, map_app, list_sum_app.
    cbn [map list_sum fold_right]. specialize (IH ltac:(lia)). replace (0 + (k + 1)) with (S k) by lia.
    assert (exists e, d = S (S k) + e) as [e ->] by (exists (d - S (S k)); lia).
    replace (S (S k) + e - 1) with (S k + e) in * by lia. replace (S k + e - S k) with e by lia.
    replace (2 * (S k + e) - k) with (k + 2 + 2 * e) in IH by lia. replace (2 * (S k + e) - S k) with (k + 1 + 2 * e) by lia. nia. }
  specialize (SM (length fw) Lf). rewrite C. assert (exists e, d = S (length fw) + e) as [e Ed] by (exists (d - S (length fw)); lia).
  revert SM Ed. generalize (length fw) as k. intros k SM Ed. rewrite Nat.mul_add_distr_l. rewrite SM. subst d. clear.
  replace (2 * (S k + e - 1) - k) with (k + 2 * e) by lia. replace (S k + e - 1) with (k + e) by lia. nia.
Qed.

(** the network *)
Lemma network_raw_spec pv alpha d fuel : d <= fuel -> forall ts m num, (forall i, In i ts -> i < d) ->
  exists m' num', network_raw pv alpha d fuel ts m num = Ret (m', num') /\
    forall a b, m' a b = true <-> m a b = true \/ exists i mb k, In i ts /\ iamb pv alpha d fuel i = Ret (mb, k) /\
      ((a = i /\ In b mb) \/ (b = i /\ In a mb)).
Proof.
  intros F. induction ts as [|i ts IH]; intros m num L; cbn [network_raw].
  { exists m, num. split; [reflexivity|]. intros a b. split; [auto|]. intros [H|[i [mb [k [[] _]]]]]. exact H. }
  destruct (iamb_run pv alpha d i fuel (L i (or_introl eq_refl)) F) as [fw [k [mb [R _]]]]. rewrite R.
  destruct (IH (write_blanket m i mb) (num + k)) as [m' [num' [R' S]]]; [intros j Hj; apply L; right; exact Hj|].
  exists m', num'. split; [exact R'|]. intros a b. rewrite S. unfold write_blanket.
  rewrite !orb_true_iff, !andb_true_iff, !Nat.eqb_eq, !memb_In. split; intros H.
  - destruct H as [[[H|[H1 H2]]|[H1 H2]]|[j [mb' [k' [J1 [J2 J3]]]]]].
    + left. exact H.
    + right. exists i, mb, k. split; [left; reflexivity|]. split; [exact R|left; auto].
    + right. exists i, mb, k. split; [left; reflexivity|]. split; [exact R|right; auto].
    + right. exists j, mb', k'. split; [right; exact J1|]. split; assumption.
  - destruct H as [H|[j [mb' [k' [[<-|J1] [J2 J3]]]]]].
    + left. left. left. exact H.
    + rewrite R in J2. injection J2 as <- <-. left. destruct J3 as [J3|J3]; [left; right|right]; tauto.
    + right. exists j, mb', k'. auto.
Qed.

(** C104 (the claim in the code's comment, refuted below): an edge i - j exactly when i and j are in each other's blankets. *)
(** C103: whatever the test answers, the network is symmetric, has no self loops, and joins i and j exactly when one of them
    is in the blanket found for the other; *)
Theorem C103_network_is_the_or_rule pv alpha d fuel : d <= fuel ->
  exists m num, iamb_markov_network pv alpha d fuel = Ret (m, num) /\
    (forall a b, m a b = m b a) /\ (forall a, m a a = false) /\
    forall a b, m a b = true <-> a < d /\ b < d /\
      ((exists mb k, iamb pv alpha d fuel a = Ret (mb, k) /\ In b mb) \/ (exists mb k, iamb pv alpha d fuel b = Ret (mb, k) /\ In a mb)).
Proof.
  intros F. unfold iamb_markov_network.
  destruct (network_raw_spec pv alpha d fuel F (seq 0 d) (fun _ _ => false) 0) as [m [num [R S]]]; [intros i Hi; apply in_seq in Hi; lia|].
  rewrite R. exists (fun a b => m a b && m b a), num. split; [reflexivity|].
  assert (Q : forall a b, m a b && m b a = true <-> a < d /\ b < d /\
      ((exists mb k, iamb pv alpha d fuel a = Ret (mb, k) /\ In b mb) \/ (exists mb k, iamb pv alpha d fuel b = Ret (mb, k) /\ In a mb))).
  { intros a b. rewrite andb_true_iff, !S. split.
    - intros [[H|[i [mb [k [H1 [H2 H3]]]]]] _]; [discriminate|]. apply in_seq in H1. assert (Hi : i < d) by lia.
      destruct (C102_iamb_any_test pv alpha d i fuel Hi F) as [mb' [k' [gr [R' [_ [_ [B _]]]]]]]. rewrite H2 in R'. injection R' as <- <-.
      destruct H3 as [[-> H3]|[-> H3]]; (split; [auto|split; [auto|]]); [left|right]; exists mb, k; auto.
    - intros [Ha [Hb [[mb [k [H1 H2]]]|[mb [k [H1 H2]]]]]]; split; right.
      + exists a, mb, k. split; [apply in_seq; lia|auto].
      + exists a, mb, k. split; [apply in_seq; lia|auto].
      + exists b, mb, k. split; [apply in_seq; lia|auto].
      + exists b, mb, k. split; [apply in_seq; lia|auto]. }
  split; [intros a b; apply andb_comm|]. split; [|exact Q].
  intros a. destruct (m a a && m a a) eqn:E; [|reflexivity]. apply Q in E. destruct E as [Ha [_ [[mb [k [H1 H2]]]|[mb [k [H1 H2]]]]]];
  destruct (C102_iamb_any_test pv alpha d a fuel Ha F) as [mb' [k' [gr [R' [_ [B _]]]]]]; rewrite H1 in R'; injection R' as <- <-; contradiction.
Qed.

(** with a d-separation test it is the moral graph of the DAG: parents, children and co-parents are joined, nothing else is. *)
Theorem C103_network_is_the_moral_graph g pv alpha fuel : dag g -> dsep_test g pv alpha -> gn g <= fuel ->
  exists m num, iamb_markov_network pv alpha (gn g) fuel = Ret (m, num) /\
    forall a b, m a b = true <-> a <> b /\ (dedge g a b \/ dedge g b a \/ exists c, dedge g a c /\ dedge g b c).
Proof.
  intros Dg O F. destruct (C103_network_is_the_or_rule pv alpha (gn g) fuel F) as [m [num [R [_ [_ S]]]]].
  exists m, num. split; [exact R|]. intros a b. rewrite S. split.
  - intros [Ha [Hb [[mb [k [H1 H2]]]|[mb [k [H1 H2]]]]]].
    + destruct (C101_iamb_returns_the_blanket g pv alpha a fuel Dg O Ha F) as [mb' [k' [R' [_ B]]]]. rewrite H1 in R'. injection R' as <- <-.
      apply B in H2. destruct H2 as [N H2]. split; [congruence|]. tauto.
    + destruct (C101_iamb_returns_the_blanket g pv alpha b fuel Dg O Hb F) as [mb' [k' [R' [_ B]]]]. rewrite H1 in R'. injection R' as <- <-.
      apply B in H2. destruct H2 as [N H2]. split; [congruence|]. destruct H2 as [H2|[H2|[c [H2 H3]]]]; [auto|auto|right; right; exists c; auto].
  - intros [N H]. assert (Bl : blanket g a b) by (split; [congruence|]; destruct H as [H|[H|H]]; auto).
    pose proof (blanket_bound g Dg a b Bl) as Hb.
    assert (Ha : a < gn g) by (destruct H as [H|[H|[c [H _]]]]; apply (dag_dedge g Dg) in H; tauto).
    split; [exact Ha|]. split; [exact Hb|]. left.
    destruct (C101_iamb_returns_the_blanket g pv alpha a fuel Dg O Ha F) as [mb' [k' [R' [_ B]]]]. exists mb', k'. split; [exact R'|].
    apply B, Bl.
Qed.

(** C104: the AND rule announced in the code is not what is computed: this test finds 1 in the blanket of 0, but not 0 in the
    blanket of 1 (with 2 known, 0 looks independent of 1 from 1's side), and 0 - 1 is an edge of the network. *)
Definition lopsided (t x : nat) (cond : list nat) : Z :=
  match t, x, cond with
  | 0, 1, _ => 0%Z
  | 1, 2, [] => 0%Z
  | _, _, _ => 9%Z
  end.
Theorem C104_network_and_rule_refuted : exists pv alpha d m num, iamb_markov_network pv alpha d 10 = Ret (m, num) /\
  m 0 1 = true /\ (exists k, iamb pv alpha d 10 0 = Ret ([1], k)) /\ (exists k, iamb pv alpha d 10 1 = Ret ([2], k)).
Proof.
  exists lopsided, 5%Z, 3.
  destruct (iamb_markov_network lopsided 5 3 10) as [[m num]| |] eqn:E; [|vm_compute in E; discriminate E|vm_compute in E; discriminate E].
  exists m, num. split; [reflexivity|]. split.
  - destruct (C103_network_is_the_or_rule lopsided 5 3 10 ltac:(lia)) as [m' [num' [R [_ [_ S]]]]]. rewrite E in R. injection R as -> ->.
    apply S. split; [lia|]. split; [lia|]. left. eexists _, _. split; [vm_compute; reflexivity|left; reflexivity].
  - split; eexists; vm_compute; reflexivity.
Qed.

(** A collider 0 -> 2 <- 1 with a further child 2 -> 3: a d-separation test for it exists (d-connection is decidable), and the
    blanket of 0 is {1, 2}. *)
Definition four : ggraph := graph_of 4 [dir 0 2; dir 1 2; dir 2 3].
Lemma four_dag : dag four.
Proof. apply (dagb_sound (fun v => v)). vm_compute. reflexivity. Qed.
Definition dsep_pv (g : ggraph) (Dg : dag g) (t x : nat) (Z : list nat) : BinNums.Z := if dconnected_dec g Dg t x Z then 0%Z else 9%Z.
Lemma dsep_pv_ok g (Dg : dag g) : dsep_test g (dsep_pv g Dg) 5.
Proof.
  intros t x Z _ _ _ _ _ _. unfold dsep_pv. destruct (dconnected_dec g Dg t x Z) as [H|H]; split; intros K; [exact H|lia|lia|contradiction].
Qed.
Example C101_applies : exists mb num, iamb (dsep_pv four four_dag) 5 4 4 0 = Ret (mb, num) /\ In 1 mb /\ In 2 mb /\ ~ In 3 mb.
Proof.
  destruct (C101_iamb_returns_the_blanket four (dsep_pv four four_dag) 5 0 4 four_dag (dsep_pv_ok four four_dag)) as [mb [num [R [_ B]]]];
    [vm_compute; lia|vm_compute; lia|].
  assert (E : forall a b, dedge four a b <-> In (a, b) [(0, 2); (1, 2); (2, 3)]).
  { intros a b. rewrite (dag_dedge four four_dag). split.
    - intros [Ha [Hb [H1 H2]]]. change (gn four) with 4 in Ha, Hb.
      do 4 (destruct a as [|a]; [do 4 (destruct b as [|b]; [vm_compute in H1; vm_compute in H2; first [discriminate H1|discriminate H2|cbn; tauto]|]); lia|]). lia.
    - intros H. cbn in H. repeat (destruct H as [H|H]; [injection H as <- <-; vm_compute; repeat split; lia|]). destruct H. }
  exists mb, num. split; [exact R|]. split; [|split].
  - apply B. split; [lia|]. right. right. exists 2. split; apply E; cbn; tauto.
  - apply B. split; [lia|]. right. left. apply E. cbn. tauto.
  - intros K. apply B in K. destruct K as [_ [K|[K|[c [K1 K2]]]]].
    + apply E in K. cbn in K. repeat (destruct K as [K|K]; [discriminate K|]). exact K.
    + apply E in K. cbn in K. repeat (destruct K as [K|K]; [discriminate K|]). exact K.
    + apply E in K1, K2. cbn in K1, K2. destruct K2 as [K2|[K2|[K2|[]]]]; discriminate K2.
Qed.
