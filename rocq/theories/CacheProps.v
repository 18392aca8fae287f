(** C32, C33, C34: the caches. *)
From Verif Require Import Base CacheModel CacheProofs.
From Coq Require Import Ascii String Permutation Sorted.
Local Open Scope Z_scope.

(* ---------- specification ---------- *)
Definition elems (a : arg) : list nat := match a with One x => [x] | Many l => l end.
(** The same independence question: {X,Y} unordered, X, Y and the conditioning set as sets. *)
Definition same_query (q q' : arg * arg * list nat) : Prop :=
  let '(X, Y, C) := q in let '(X', Y', C') := q' in
  ((same_set (elems X) (elems X') /\ same_set (elems Y) (elems Y')) \/
   (same_set (elems X) (elems Y') /\ same_set (elems Y) (elems X'))) /\ same_set C C'.
(** What the caller may ask: indices only, unless the method is kernel based; X, Y outside the conditioning set. *)
Definition proper (kernel : bool) (q : arg * arg * list nat) : Prop :=
  let '(X, Y, C) := q in
  (kernel = false -> exists x y, X = One x /\ Y = One y) /\
  forall v, In v C -> ~ In v (elems X) /\ ~ In v (elems Y).

(* ---------- lemmas ---------- *)
Lemma str_eqb_spec a b : str_eqb a b = true <-> a = b.
Proof. unfold str_eqb. destruct (list_eq_dec ascii_dec a b); split; congruence. Qed.
Lemma str_eqb_refl a : str_eqb a a = true.
Proof. now apply str_eqb_spec. Qed.
Lemma cget_cset c k v k' : cget (cset c k v) k' = if str_eqb k k' then Some v else cget c k'.
Proof.
  unfold cget. induction c as [|[k0 v0] c IH]; cbn [cset find fst]; [now destruct (str_eqb k k')|].
  destruct (str_eqb k0 k) eqn:E.
  - apply str_eqb_spec in E. subst k0. cbn [find fst]. destruct (str_eqb k k'); reflexivity.
  - cbn [find fst]. destruct (str_eqb k0 k') eqn:E'; [|exact IH].
    destruct (str_eqb k k') eqn:E2; [|reflexivity]. apply str_eqb_spec in E', E2. subst. now rewrite str_eqb_refl in E.
Qed.
Lemma disjointb_spec a b : disjointb a b = true <-> forall v, In v b -> ~ In v a.
Proof.
  unfold disjointb. rewrite forallb_forall. split.
  - intros H v Hb Ha. specialize (H v Ha). apply negb_true_iff in H. assert (existsb (Nat.eqb v) b = true); [|congruence].
    apply existsb_exists. exists v. split; [exact Hb|]. apply Nat.eqb_refl.
  - intros H v Ha. apply negb_true_iff. destruct (existsb (Nat.eqb v) b) eqn:E; [|reflexivity].
    apply existsb_exists in E. destruct E as (w & Hw & E). apply Nat.eqb_eq in E. subst w. exfalso. now apply (H v).
Qed.

Definition norm (a : arg) : list nat := match a with One x => [x] | Many l => sort_set l end.
Lemma norm_In a v : In v (norm a) <-> In v (elems a).
Proof. destruct a; cbn; [reflexivity|apply sort_set_In]. Qed.
Lemma norm_sorted a : StronglySorted lt (norm a).
Proof. destruct a; cbn; [repeat constructor|apply sort_set_sorted]. Qed.
Lemma norm_eq a b : norm a = norm b <-> same_set (elems a) (elems b).
Proof.
  split.
  - intros E v. now rewrite <- !norm_In, E.
  - intros E. apply sorted_unique; try apply norm_sorted. intros v. now rewrite !norm_In.
Qed.

(** The formatting function, in one piece for both kinds of method. *)
Lemma formatted_spec kernel X Y C :
  (proper kernel (X, Y, C) -> formatted kernel X Y C =
     Ok (fst (canon (norm X) (norm Y)), snd (canon (norm X) (norm Y)), sort_set C,
         stringize (fst (canon (norm X) (norm Y))) (snd (canon (norm X) (norm Y))) (sort_set C))) /\
  (formatted kernel X Y C <> Raise -> proper kernel (X, Y, C)).
Proof.
  assert (D : forall a b, (disjointb (fst (canon (norm a) (norm b))) (sort_set C) && disjointb (snd (canon (norm a) (norm b))) (sort_set C))%bool = true
              <-> forall v, In v C -> ~ In v (elems a) /\ ~ In v (elems b)).
  { intros a b. rewrite andb_true_iff, !disjointb_spec. unfold canon.
    destruct (list_ltb (norm a) (norm b)); cbn [fst snd]; split.
    - intros [H1 H2] v Hv. rewrite <- sort_set_In in Hv. rewrite <- !norm_In. auto.
    - intros H. split; intros v Hv; rewrite sort_set_In in Hv; apply H in Hv; rewrite <- !norm_In in Hv; tauto.
    - intros [H1 H2] v Hv. rewrite <- sort_set_In in Hv. rewrite <- !norm_In. auto.
    - intros H. split; intros v Hv; rewrite sort_set_In in Hv; apply H in Hv; rewrite <- !norm_In in Hv; tauto. }
  unfold formatted. destruct kernel.
  - fold (norm X) (norm Y). fold (canon (norm X) (norm Y)). split.
    + intros [_ H]. now rewrite (proj2 (D X Y) H).
    + intros H. split; [discriminate|]. apply (D X Y). destruct (_ && _)%bool; [reflexivity|congruence].
  - split.
    + intros [H0 H]. destruct (H0 eq_refl) as (x & y & -> & ->). apply D in H.
      assert (E : (if Nat.ltb x y then (x, y) else (y, x)) = (if list_ltb [x] [y] then (x, y) else (y, x))).
      { cbn [list_ltb]. destruct (Nat.ltb x y); [reflexivity|]. now destruct (Nat.eqb x y). }
      rewrite E. unfold canon in *. cbn [norm] in *. destruct (list_ltb [x] [y]); cbn [fst snd] in *; now rewrite H.
    + intros H. destruct X as [x|], Y as [y|]; try congruence. split; [eauto|]. apply (D (One x) (One y)).
      assert (E : (if Nat.ltb x y then (x, y) else (y, x)) = (if list_ltb [x] [y] then (x, y) else (y, x))).
      { cbn [list_ltb]. destruct (Nat.ltb x y); [reflexivity|]. now destruct (Nat.eqb x y). }
      rewrite E in H. unfold canon in *. cbn [norm] in *. destruct (list_ltb [x] [y]); cbn [fst snd] in *; destruct (_ && _)%bool; congruence.
Qed.

(* ---------- C33 ---------- *)
(** C33, keys: two admissible queries get the same cache key exactly when they are the same question. *)
Theorem C33_cache_key_iff_same_query : forall kernel X Y C X' Y' C' xs ys s k xs' ys' s' k',
  formatted kernel X Y C = Ok (xs, ys, s, k) -> formatted kernel X' Y' C' = Ok (xs', ys', s', k') ->
  (k = k' <-> same_query (X, Y, C) (X', Y', C')) /\ (k = k' -> xs = xs' /\ ys = ys' /\ s = s').
Proof.
  intros * H H'. destruct (formatted_spec kernel X Y C) as [F1 F2]. destruct (formatted_spec kernel X' Y' C') as [F1' F2'].
  rewrite F1 in H by (apply F2; congruence). rewrite F1' in H' by (apply F2'; congruence).
  injection H as <- <- <- <-. injection H' as <- <- <- <-.
  assert (E : stringize (fst (canon (norm X) (norm Y))) (snd (canon (norm X) (norm Y))) (sort_set C) =
              stringize (fst (canon (norm X') (norm Y'))) (snd (canon (norm X') (norm Y'))) (sort_set C') <->
              canon (norm X) (norm Y) = canon (norm X') (norm Y') /\ sort_set C = sort_set C').
  { split.
    - intros E. apply stringize_inj in E. destruct E as (E1 & E2 & E3). split; [|exact E3].
      rewrite (surjective_pairing (canon (norm X) (norm Y))), (surjective_pairing (canon (norm X') (norm Y'))). congruence.
    - intros [-> ->]. reflexivity. }
  split.
  - rewrite E, sort_set_eq. unfold same_query. rewrite <- !norm_eq. split; intros [A B]; (split; [|exact B]).
    + now apply canon_inj.
    + destruct A as [[-> ->]|[-> ->]]; [reflexivity|apply canon_comm].
  - intros K. apply E in K. destruct K as [-> ->]. auto.
Qed.
Print Assumptions C33_cache_key_iff_same_query.

Lemma fresh_shape h m p c : construct None h m p = Ok c ->
  c = cset (cset [(k_hash, Text h)] k_method (Text m)) k_params (Text p).
Proof.
  unfold construct, check_method, cget. intros H. cbn [find fst] in H. destruct (str_eqb k_hash m) eqn:E; cbn -[cset k_method k_params] in H; [discriminate|now injection H].
Qed.

Section Run.
Variables (kernel : bool) (test : nat -> list nat -> list nat -> list nat -> res Z).

Definition answers t c qs := fst (cit_run kernel test t c qs).

(** A cached key keeps its value. *)
Lemma call_mono t c X Y C k v : cget c k = Some v -> cget (snd (cit_call kernel test t c X Y C)) k = Some v.
Proof.
  intros H. unfold cit_call. destruct (formatted kernel X Y C) as [[[[xs ys] s] key]|]; [|exact H].
  destruct (cget c key) eqn:E; [exact H|]. destruct (test t xs ys s); [|exact H]. cbn [snd]. rewrite cget_cset.
  destruct (str_eqb key k) eqn:E2; [|exact H]. apply str_eqb_spec in E2. congruence.
Qed.

(** What the cache may hold after the queries [past] (call numbers 0..), for keys produced by formatting. *)
Definition good (past : list (arg * arg * list nat)) (c : cache) : Prop :=
  forall k v, In ";"%char k -> cget c k = Some v -> exists m X Y C xs ys s p, nth_error past m = Some (X, Y, C) /\
    formatted kernel X Y C = Ok (xs, ys, s, k) /\ test m xs ys s = Ok p /\ v = PVal p.

Lemma key_semicolon X Y C xs ys s k : formatted kernel X Y C = Ok (xs, ys, s, k) -> In ";"%char k.
Proof.
  intros H. destruct (formatted_spec kernel X Y C) as [F1 F2]. rewrite F1 in H by (apply F2; congruence).
  injection H as _ _ _ <-. apply stringize_semicolon.
Qed.

Lemma nth_error_app_l {A} (l r : list A) n x : nth_error l n = Some x -> nth_error (l ++ r) n = Some x.
Proof. intros H. rewrite nth_error_app1; [exact H|]. apply nth_error_Some. congruence. Qed.

Lemma good_call past c X Y C : good past c ->
  good (past ++ [(X, Y, C)]) (snd (cit_call kernel test (List.length past) c X Y C)) /\
  (forall v, fst (cit_call kernel test (List.length past) c X Y C) = Ok v ->
     exists xs ys s k, formatted kernel X Y C = Ok (xs, ys, s, k) /\ cget (snd (cit_call kernel test (List.length past) c X Y C)) k = Some v).
Proof.
  intros G. assert (Gm : good (past ++ [(X, Y, C)]) c).
  { intros k v Hk E. destruct (G k v Hk E) as (m & X0 & Y0 & C0 & xs & ys & s & p & A & B). exists m, X0, Y0, C0, xs, ys, s, p.
    split; [now apply nth_error_app_l|exact B]. }
  unfold cit_call. destruct (formatted kernel X Y C) as [[[[xs ys] s] key]|] eqn:F; [|split; [exact Gm|discriminate]].
  destruct (cget c key) eqn:E.
  - split; [exact Gm|]. cbn. intros v [= ->]. exists xs, ys, s, key. auto.
  - destruct (test (List.length past) xs ys s) as [p|] eqn:T; [|split; [exact Gm|discriminate]]. cbn [fst snd]. split.
    + intros k v Hk. rewrite cget_cset. destruct (str_eqb key k) eqn:E2; [|now apply Gm].
      intros [= <-]. apply str_eqb_spec in E2. subst k. exists (List.length past), X, Y, C, xs, ys, s, p.
      split; [|auto]. rewrite nth_error_app2, Nat.sub_diag by lia. reflexivity.
    + intros v [= <-]. exists xs, ys, s, key. split; [reflexivity|]. rewrite cget_cset. now rewrite str_eqb_refl.
Qed.

Lemma run_mono qs : forall t c k v, cget c k = Some v -> cget (snd (cit_run kernel test t c qs)) k = Some v.
Proof.
  induction qs as [|[[X Y] C] qs IH]; intros t c k v H; cbn [cit_run snd]; [exact H|]. apply IH, call_mono, H.
Qed.

Lemma run_good qs : forall past c, good past c ->
  good (past ++ qs) (snd (cit_run kernel test (List.length past) c qs)) /\
  forall n v, nth_error (answers (List.length past) c qs) n = Some (Ok v) ->
    exists X Y C xs ys s k, nth_error qs n = Some (X, Y, C) /\ formatted kernel X Y C = Ok (xs, ys, s, k) /\
      cget (snd (cit_run kernel test (List.length past) c qs)) k = Some v /\
      (exists m X0 Y0 C0 p, (m <= List.length past + n)%nat /\ nth_error (past ++ qs) m = Some (X0, Y0, C0) /\ 
         formatted kernel X0 Y0 C0 = Ok (xs, ys, s, k) /\ test m xs ys s = Ok p /\ v = PVal p).
Proof.
  induction qs as [|[[X Y] C] qs IH]; intros past c G.
  - cbn. rewrite app_nil_r. split; [exact G|]. intros [|n] v H; discriminate.
  - destruct (good_call past c X Y C G) as [G1 A1]. cbn [cit_run answers fst snd].
    destruct (IH (past ++ [(X, Y, C)]) _ G1) as [G2 A2]. rewrite app_length in G2, A2. cbn [List.length] in G2, A2. rewrite Nat.add_1_r in G2, A2.
    rewrite <- app_assoc in G2, A2. cbn [app] in G2, A2. split; [exact G2|]. intros [|n] v H.
    + cbn in H. injection H as H. destruct (A1 v H) as (xs & ys & s & k & F & E). exists X, Y, C, xs, ys, s, k.
      split; [reflexivity|]. split; [exact F|]. split; [now apply run_mono|].
      destruct (G1 k v (key_semicolon _ _ _ _ _ _ _ F) E) as (m & X0 & Y0 & C0 & xs0 & ys0 & s0 & p & B1 & B2 & B3 & B4).
      destruct (C33_cache_key_iff_same_query _ _ _ _ _ _ _ _ _ _ _ _ _ _ _ F B2) as [_ Eq]. destruct (Eq eq_refl) as (<- & <- & <-).
      exists m, X0, Y0, C0, p. assert (Lm := proj1 (nth_error_Some (past ++ [(X, Y, C)]) m) ltac:(congruence)). rewrite app_length in Lm. cbn in Lm.
      split; [lia|]. split; [|auto]. change ((X, Y, C) :: qs) with ([(X, Y, C)] ++ qs). rewrite app_assoc. now apply nth_error_app_l.
    + cbn in H. destruct (A2 n v H) as (X0 & Y0 & C0 & xs & ys & s & k & B1 & B2 & B3 & m & X1 & Y1 & C1 & p & B4 & B5).
      exists X0, Y0, C0, xs, ys, s, k. split; [exact B1|]. split; [exact B2|]. split; [exact B3|].
      exists m, X1, Y1, C1, p. split; [lia|exact B5].
Qed.

Lemma fresh_good hash method params c : construct None hash method params = Ok c -> good [] c.
Proof.
  intros H k v Hk E. exfalso. apply fresh_shape in H.
  assert (K : forall k', cget c k' <> None -> k' = k_hash \/ k' = k_method \/ k' = k_params).
  { intros k' N. rewrite H in N. rewrite !cget_cset in N.
    destruct (str_eqb k_params k') eqn:E1; [apply str_eqb_spec in E1; auto|].
    destruct (str_eqb k_method k') eqn:E2; [apply str_eqb_spec in E2; auto|].
    unfold cget in N. cbn [find fst] in N. destruct (str_eqb k_hash k') eqn:E3; [apply str_eqb_spec in E3; auto|congruence]. }
  destruct (K k) as [-> | [-> | ->]]; [congruence|..]; cbn in Hk; decompose [or] Hk; try discriminate; contradiction.
Qed.
End Run.

(** C33, transparency.  Any test object with a fresh cache, any history of queries, even if the test is randomised ([test]
    may depend on the call number): each answer is a p-value the test computed, at this call or an earlier one, for exactly
    this question, on identical formatted arguments. *)
Theorem C33_answers_are_computed_for_the_query : forall kernel test hash method params c qs,
  construct None hash method params = Ok c ->
  forall n v, nth_error (fst (cit_run kernel test 0 c qs)) n = Some (Ok v) ->
  exists X Y C m X0 Y0 C0 xs ys s key p, nth_error qs n = Some (X, Y, C) /\ (m <= n)%nat /\ nth_error qs m = Some (X0, Y0, C0) /\
    same_query (X0, Y0, C0) (X, Y, C) /\ formatted kernel X Y C = Ok (xs, ys, s, key) /\ test m xs ys s = Ok p /\ v = PVal p.
Proof.
  intros kernel test hash method params c qs Hc n v H.
  destruct (run_good kernel test qs [] c (fresh_good _ _ _ _ _ _ Hc)) as [_ A]. 
  destruct (A n v H) as (X & Y & C & xs & ys & s & k & B1 & B2 & _ & m & X0 & Y0 & C0 & p & B3 & B4 & B5 & B6 & B7).
  exists X, Y, C, m, X0, Y0, C0, xs, ys, s, k, p. split; [exact B1|]. split; [cbn in B3; lia|]. split; [exact B4|]. split; [|auto].
  now apply (proj1 (C33_cache_key_iff_same_query _ _ _ _ _ _ _ _ _ _ _ _ _ _ _ B5 B2)).
Qed.
Print Assumptions C33_answers_are_computed_for_the_query.

(** C33, symmetry: two answered queries that are the same question get the same answer. *)
Theorem C33_same_query_same_answer : forall kernel test hash method params c qs,
  construct None hash method params = Ok c ->
  forall i j q q' v v', nth_error qs i = Some q -> nth_error qs j = Some q' -> same_query q q' ->
    nth_error (fst (cit_run kernel test 0 c qs)) i = Some (Ok v) -> nth_error (fst (cit_run kernel test 0 c qs)) j = Some (Ok v') -> v = v'.
Proof.
  intros kernel test hash method params c qs Hc i j q q' v v' Hi Hj S Ai Aj.
  destruct (run_good kernel test qs [] c (fresh_good _ _ _ _ _ _ Hc)) as [_ A]. 
  destruct (A i v Ai) as (X & Y & C & xs & ys & s & k & B1 & B2 & B3 & _).
  destruct (A j v' Aj) as (X' & Y' & C' & xs' & ys' & s' & k' & D1 & D2 & D3 & _).
  assert (q = (X, Y, C)) by congruence. assert (q' = (X', Y', C')) by congruence. subst.
  apply (proj1 (C33_cache_key_iff_same_query _ _ _ _ _ _ _ _ _ _ _ _ _ _ _ B2 D2)) in S. congruence.
Qed.
Print Assumptions C33_same_query_same_answer.

(** Admissible queries whose test does not raise are answered; inadmissible ones raise. *)
Theorem C33_answered_iff_admissible : forall kernel test t c X Y C, (forall t xs ys s, test t xs ys s <> Raise) ->
  (fst (cit_call kernel test t c X Y C) <> Raise <-> proper kernel (X, Y, C)).
Proof.
  intros kernel test t c X Y C Ht. destruct (formatted_spec kernel X Y C) as [F1 F2]. unfold cit_call. split.
  - intros H. apply F2. intros E. now rewrite E in H.
  - intros H. rewrite (F1 H). destruct (cget _ _); [discriminate|]. specialize (Ht t (fst (canon (norm X) (norm Y))) (snd (canon (norm X) (norm Y))) (sort_set C)).
    destruct (test _ _ _ _); [discriminate|congruence].
Qed.
Print Assumptions C33_answered_iff_admissible.

(** A randomised test, asked for (3,1 | 2,5,2), (1,3 | 5,2), (1,3 | 5) and an inadmissible query. *)
Example C33_ex : exists c, construct None (lit "h") (lit "fisherz") (lit "p") = Ok c /\
  fst (cit_run false (fun t xs ys s => Ok (Z.of_nat t)) 0 c
    [(One 3, One 1, [2; 5; 2]%nat); (One 1, One 3, [5; 2]%nat); (One 1, One 3, [5%nat]); (One 1, One 3, [1%nat])]) =
  [Ok (PVal 0); Ok (PVal 0); Ok (PVal 2); Raise].
Proof. eexists. split; reflexivity. Qed.

(* ---------- C34 ---------- *)
(** C34 refuted.  Take any cache written by a test object of method m1 after any history; loading it for any other method
    m2 (a name without ';', different from the three book-keeping keys) over the same data succeeds, and every p-value
    cached by m1 is served as an m2 answer. *)
Lemma run_keys kernel test qs : forall t c k, ~ In ";"%char k -> cget (snd (cit_run kernel test t c qs)) k = cget c k.
Proof.
  induction qs as [|[[X Y] C] qs IH]; intros t c k Hk; [reflexivity|]. cbn [cit_run snd]. rewrite IH by exact Hk.
  unfold cit_call. destruct (formatted kernel X Y C) as [[[[xs ys] s] key]|] eqn:F; [|reflexivity].
  destruct (cget c key); [reflexivity|]. destruct (test t xs ys s); [|reflexivity]. cbn [snd]. rewrite cget_cset.
  destruct (str_eqb key k) eqn:E; [|reflexivity]. apply str_eqb_spec in E. subst. exfalso. apply Hk. eapply key_semicolon; eauto.
Qed.

Theorem C34_other_methods_cache_is_accepted_refuted : forall kernel test hash m1 p1 m2 p2 c1 qs,
  construct None hash m1 p1 = Ok c1 ->
  ~ In ";"%char m2 -> m2 <> k_hash -> m2 <> k_method -> m2 <> k_params ->
  let file := snd (cit_run kernel test 0 c1 qs) in
  exists c2, construct (Some file) hash m2 p2 = Ok c2 /\ cget c2 k_method = Some (Text m2) /\
    forall X Y C xs ys s key v, formatted kernel X Y C = Ok (xs, ys, s, key) -> cget file key = Some v ->
      forall test2 t, fst (cit_call kernel test2 t c2 X Y C) = Ok v.
Proof.
  intros kernel test hash m1 p1 m2 p2 c1 qs H N1 N2 N3 N4 file.
  assert (Hc1 : c1 = cset (cset [(k_hash, Text hash)] k_method (Text m1)) k_params (Text p1)) by exact (fresh_shape _ _ _ _ H).
  assert (S1 : ~ In ";"%char k_hash) by (cbn; intros K; decompose [or] K; try discriminate; contradiction).
  assert (S2 : ~ In ";"%char k_method) by (cbn; intros K; decompose [or] K; try discriminate; contradiction).
  assert (S3 : ~ In ";"%char k_params) by (cbn; intros K; decompose [or] K; try discriminate; contradiction).
  assert (Gh : cget file k_hash = Some (Text hash)).
  { unfold file. rewrite run_keys by exact S1. rewrite Hc1, !cget_cset. reflexivity. }
  assert (Gm : cget file m2 = None).
  { unfold file. rewrite run_keys by exact N1. rewrite Hc1, !cget_cset.
    destruct (str_eqb k_params m2) eqn:E1; [apply str_eqb_spec in E1; congruence|].
    destruct (str_eqb k_method m2) eqn:E2; [apply str_eqb_spec in E2; congruence|].
    unfold cget. cbn [find fst]. destruct (str_eqb k_hash m2) eqn:E3; [apply str_eqb_spec in E3; congruence|reflexivity]. }
  unfold construct. rewrite Gh, str_eqb_refl. unfold check_method. rewrite Gm. eexists. split; [reflexivity|]. split.
  - rewrite !cget_cset. reflexivity.
  - intros X Y C xs ys s key v F E test2 t. unfold cit_call. rewrite F.
    assert (Hk := key_semicolon _ _ _ _ _ _ _ _ F). rewrite !cget_cset.
    destruct (str_eqb k_params key) eqn:E1; [apply str_eqb_spec in E1; subst; contradiction|].
    destruct (str_eqb k_method key) eqn:E2; [apply str_eqb_spec in E2; subst; contradiction|]. rewrite E. reflexivity.
Qed.
Print Assumptions C34_other_methods_cache_is_accepted_refuted.

(** A chi-square p-value (7) is served by a Fisher-z object whose own test would say 8. *)
Example C34_ex : exists c1 c2, construct None (lit "h") (lit "chisq") (lit "p") = Ok c1 /\
  construct (Some (snd (cit_run false (fun _ _ _ _ => Ok 7) 0 c1 [(One 0, One 1, [])]))) (lit "h") (lit "fisherz") (lit "p") = Ok c2 /\
  fst (cit_call false (fun _ _ _ _ => Ok 8) 0 c2 (One 1) (One 0) []) = Ok (PVal 7).
Proof. do 2 eexists. split; [reflexivity|]. split; reflexivity. Qed.

(** What does hold: a cache written for other data (another hash) is refused. *)
Theorem C34_other_data_is_refused : forall kernel test h1 h2 m1 p1 m2 p2 c1 qs,
  construct None h1 m1 p1 = Ok c1 -> h1 <> h2 -> construct (Some (snd (cit_run kernel test 0 c1 qs))) h2 m2 p2 = Raise.
Proof.
  intros kernel test h1 h2 m1 p1 m2 p2 c1 qs H N.
  assert (Hc1 : c1 = cset (cset [(k_hash, Text h1)] k_method (Text m1)) k_params (Text p1)) by exact (fresh_shape _ _ _ _ H).
  assert (S1 : ~ In ";"%char k_hash) by (cbn; intros K; decompose [or] K; try discriminate; contradiction).
  unfold construct. rewrite run_keys by exact S1. rewrite Hc1, !cget_cset.
  change (str_eqb k_params k_hash) with false. change (str_eqb k_method k_hash) with false. cbn [cget find fst].
  unfold cget. cbn [find fst snd]. rewrite str_eqb_refl. cbn [snd].
  destruct (str_eqb h1 h2) eqn:E; [apply str_eqb_spec in E; congruence|reflexivity].
Qed.
Print Assumptions C34_other_data_is_refused.

(** Exactly the files that are accepted, over all files: the hash must be that of the data, and the method and parameter entries are compared
    only in a file that has an entry under the method's own name - no file this program writes. *)
Theorem C34_accepted_files : forall c h m p c', construct (Some c) h m p = Ok c' <->
  cget c k_hash = Some (Text h) /\
  ((cget c m = None /\ c' = cset (cset c k_method (Text m)) k_params (Text p)) \/
   (cget c m <> None /\ cget c k_method = Some (Text m) /\ cget c k_params = Some (Text p) /\ c' = c)).
Proof.
  intros c h m p c'. unfold construct, check_method. split.
  - destruct (cget c k_hash) as [[|h']|]; try discriminate. destruct (str_eqb h' h) eqn:E; [|discriminate]. apply str_eqb_spec in E. subst h'.
    destruct (cget c m) as [v|].
    + destruct (cget c k_method) as [[|m']|]; try discriminate. destruct (cget c k_params) as [[|p']|]; try discriminate.
      destruct (str_eqb m' m) eqn:E1; [|discriminate]. destruct (str_eqb p' p) eqn:E2; [|discriminate]. cbn. intros H. injection H as <-.
      apply str_eqb_spec in E1, E2. subst. split; [reflexivity|]. right. repeat split. discriminate.
    + intros H. injection H as <-. split; [reflexivity|]. left. split; reflexivity.
  - intros [-> [[-> ->] | (N & -> & -> & ->)]]; rewrite !str_eqb_refl; [reflexivity|]. destruct (cget c m); [reflexivity|congruence].
Qed.
(** A file with an entry named after the method: refused when the parameters differ, accepted when they do not. *)
Example C34_files : let c := [(k_hash, Text (lit "h")); (k_method, Text (lit "kci")); (k_params, Text (lit "p")); (lit "kci", PVal 3)] in
  construct (Some c) (lit "h") (lit "kci") (lit "q") = Raise /\ construct (Some c) (lit "h") (lit "kci") (lit "p") = Ok c.
Proof. split; reflexivity. Qed.

(* ---------- C32 ---------- *)
Lemma nins_perm x l : Permutation (nins x l) (x :: l).
Proof.
  induction l as [|y l IH]; cbn; [reflexivity|]. destruct (Nat.leb x y); [reflexivity|].
  rewrite IH. apply perm_swap.
Qed.
Lemma nsort_perm l : Permutation (nsort l) l.
Proof. induction l as [|x l IH]; cbn; [reflexivity|]. fold (nsort l). now rewrite nins_perm, IH. Qed.
Lemma nins_sorted x l : StronglySorted le l -> StronglySorted le (nins x l).
Proof.
  induction 1 as [|y l S IH F]; cbn; [repeat constructor|]. destruct (Nat.leb_spec x y).
  - constructor; [now constructor|]. constructor; [assumption|]. eapply Forall_impl; [|exact F]. cbn. intros; lia.
  - constructor; [exact IH|]. apply Forall_forall. intros z Hz. apply (Permutation_in _ (nins_perm x l)) in Hz.
    rewrite Forall_forall in F. destruct Hz as [<-|Hz]; [lia|auto].
Qed.
Lemma nsort_sorted l : StronglySorted le (nsort l).
Proof. induction l; cbn; [constructor|]. now apply nins_sorted. Qed.
Lemma sorted_perm_eq l : forall m, StronglySorted le l -> StronglySorted le m -> Permutation l m -> l = m.
Proof.
  induction l as [|x l IH]; intros m Sl Sm P; [apply Permutation_nil in P; now subst|].
  destruct m as [|y m]; [apply Permutation_sym, Permutation_nil in P; discriminate|].
  inversion_clear Sl as [|? ? Sl' Fl]. inversion_clear Sm as [|? ? Sm' Fm]. rewrite Forall_forall in Fl, Fm.
  assert (x = y).
  { assert (Hx : In x (y :: m)) by (apply (Permutation_in _ P); now left). assert (Hy : In y (x :: l)) by (apply (Permutation_in _ (Permutation_sym P)); now left).
    destruct Hx as [|Hx]; [congruence|]. destruct Hy as [|Hy]; [congruence|]. specialize (Fl y Hy). specialize (Fm x Hx). lia. }
  subst y. f_equal. apply IH; auto. now apply Permutation_cons_inv in P.
Qed.
Lemma nsort_eq l m : nsort l = nsort m <-> Permutation l m.
Proof.
  split.
  - intros E. rewrite <- (nsort_perm l), E. apply nsort_perm.
  - intros P. apply sorted_perm_eq; try apply nsort_sorted. now rewrite !nsort_perm.
Qed.
Lemma skey_eqb_spec a b : skey_eqb a b = true <-> a = b.
Proof.
  destruct a as [i l], b as [j m]. unfold skey_eqb. cbn [fst snd]. rewrite andb_true_iff, Nat.eqb_eq.
  destruct (list_eq_dec Nat.eq_dec l m); split; try congruence; intros; intuition; congruence.
Qed.

Definition sgood f (past : list (nat * list nat)) (c : scache) : Prop :=
  forall e, In e c -> exists i P, In (i, P) past /\ e = ((i, nsort P), f i P).
Lemma score_run_good f qs : forall past c, sgood f past c ->
  forall n v, nth_error (fst (score_run f c qs)) n = Some v ->
  exists i P P', nth_error qs n = Some (i, P) /\ In (i, P') (past ++ firstn (S n) qs) /\ Permutation P P' /\ v = f i P'.
Proof.
  induction qs as [|[i P] qs IH]; intros past c G n v H; [destruct n; discriminate|].
  assert (Q : sgood f (past ++ [(i, P)]) (snd (score_call f c i P)) /\
              exists P', In (i, P') (past ++ [(i, P)]) /\ Permutation P P' /\ fst (score_call f c i P) = f i P').
  { unfold score_call. destruct (find _ c) as [e|] eqn:F; cbn [fst snd].
    - apply find_some in F. destruct F as [He Ek]. apply skey_eqb_spec in Ek. destruct (G e He) as (i' & P' & Hp & ->).
      cbn in Ek. injection Ek as -> E. apply nsort_eq in E. split.
      + intros e He'. destruct (G e He') as (i0 & P0 & Hp0 & ->). exists i0, P0. split; [apply in_or_app; now left|reflexivity].
      + exists P'. split; [apply in_or_app; now left|]. split; [now symmetry|reflexivity].
    - split.
      + intros e He. apply in_app_or in He. destruct He as [He|[<-|[]]].
        * destruct (G e He) as (i0 & P0 & Hp0 & ->). exists i0, P0. split; [apply in_or_app; now left|reflexivity].
        * exists i, P. split; [apply in_or_app; right; now left|reflexivity].
      + exists P. split; [apply in_or_app; right; now left|]. split; reflexivity. }
  destruct Q as [G' A]. cbn [score_run fst snd] in H. destruct n as [|n]; cbn in H.
  - injection H as <-. destruct A as (P' & A1 & A2 & A3). exists i, P, P'. cbn. auto.
  - destruct (IH _ _ G' n v H) as (j & R & R' & B1 & B2 & B3 & B4). exists j, R, R'. rewrite <- app_assoc in B2. auto.
Qed.

(** C32.  For every score function and every history, each answer is the score function's value at the same variable and at
    a parent list requested so far (this call included) that is a rearrangement of this one. *)
Theorem C32_answer_from_some_ordering : forall (f : nat -> list nat -> Z) (qs : list (nat * list nat)) n v, nth_error (fst (score_run f [] qs)) n = Some v ->
  exists i P P', nth_error qs n = Some (i, P) /\ In (i, P') (firstn (S n) qs) /\ Permutation P P' /\ v = f i P'.
Proof. intros f qs n v H. apply (score_run_good f qs [] []) in H; [exact H|]. intros e []. Qed.
Print Assumptions C32_answer_from_some_ordering.

(** C32.  If the score does not depend on the order of the parents, the cache is invisible. *)
Theorem C32_cache_invisible : forall (f : nat -> list nat -> Z) (qs : list (nat * list nat)), (forall i P P', Permutation P P' -> f i P = f i P') ->
  fst (score_run f [] qs) = map (fun q => f (fst q) (snd q)) qs.
Proof.
  intros f qs Hf. assert (L : forall qs c, List.length (fst (score_run f c qs)) = List.length qs).
  { induction qs0 as [|[i P] r IH]; intros c; [reflexivity|]. cbn [score_run fst List.length]. f_equal. apply IH. }
  apply nth_ext with (d := 0) (d' := 0); [rewrite L; now rewrite map_length|]. intros n Hn.
  destruct (nth_error (fst (score_run f [] qs)) n) as [v|] eqn:E; [|apply nth_error_None in E; lia].
  rewrite (nth_error_nth _ _ _ E). destruct (C32_answer_from_some_ordering f qs n v E) as (i & P & P' & A & _ & B & ->).
  symmetry. apply nth_error_nth. rewrite nth_error_map, A. cbn. f_equal. now apply Hf.
Qed.
Print Assumptions C32_cache_invisible.

Example C32_ex : let f := fun i P => Z.of_nat (i * 100 + nth 0 P 0)%nat in
  fst (score_run f [] [(1, [2; 3]); (1, [3; 2]); (2, [3; 2])]%nat) = [102; 102; 203] /\
  fst (score_run (fun i P => Z.of_nat (i * 100 + list_sum P)) [] [(1, [2; 3]); (1, [3; 2]); (2, [3; 2])]%nat) = [105; 105; 205].
Proof. split; reflexivity. Qed.
