(** C29: the priority queue refines a finite map of live entries. *)
From Verif Require Import Base NamedModel NamedProofs KnowledgeModel KnowledgeProps PQModel.
From Coq Require Import Permutation.
Local Open Scope Z_scope.

(* ---------- specification: a finite map from live keys to (weight, payload) ---------- *)
Definition live := nat -> option (Z * nat).
Definition lput (M : live) k v : live := fun x => if Nat.eqb x k then v else M x.
(** [size M m]: the map has m live keys. *)
Definition size (M : live) (m : nat) : Prop := exists ks, NoDup ks /\ length ks = m /\ forall k, In k ks <-> M k <> None.

Inductive spec_step : live -> qop -> qout -> live -> Prop :=
| sp_push M k p w : M k = None -> spec_step M (QPush k p w) OUnit (lput M k (Some (w, p)))
| sp_delete M k : M k <> None -> spec_step M (QDelete k) OUnit (lput M k None)
| sp_delete_raise M k : M k = None -> spec_step M (QDelete k) ORaise M
| sp_pop M k w p : M k = Some (w, p) -> (forall k' w' p', M k' = Some (w', p') -> w <= w') ->
    spec_step M QPop (OPopped w k p) (lput M k None)
| sp_pop_raise M : (forall k, M k = None) -> spec_step M QPop ORaise M
| sp_get M k : spec_step M (QGet k) (OGet (M k)) M
| sp_empty M b : (b = true <-> forall k, M k = None) -> spec_step M QEmpty (OBool b) M
| sp_len M m : size M m -> spec_step M QLen (OLen (Z.of_nat m)) M.

Inductive spec_run : live -> list (qop * qout) -> live -> Prop :=
| sr_nil M M' : (forall k, M k = M' k) -> spec_run M [] M'
| sr_cons M o r M1 h M2 : spec_step M o r M1 -> spec_run M1 h M2 -> spec_run M ((o, r) :: h) M2.

(** A client never pushes a key that is still live (ExactSearch checks with get and deletes first). *)
Fixpoint disciplined (M : live) (h : list (qop * qout)) : Prop :=
  match h with
  | [] => True
  | (QPush k p w, _) :: h' => M k = None /\ disciplined (lput M k (Some (w, p))) h'
  | (QDelete k, OUnit) :: h' => disciplined (lput M k None) h'
  | (QPop, OPopped _ k _) :: h' => disciplined (lput M k None) h'
  | _ :: h' => disciplined M h'
  end.
Definition nothing : live := fun _ => None.

(* ---------- the simulation ---------- *)
Definition livel (l : list entry) : list entry := filter (fun e => match e_key e with Some _ => true | None => false end) l.

Record R (q : pqueue) (M : live) : Prop := {
  R_ids : NoDup (map e_id (q_pq q));
  R_next : forall e, In e (q_pq q) -> (e_id e < q_next q)%nat;
  R_n : q_n q = Z.of_nat (length (livel (q_pq q)));
  R_live : forall e k, In e (q_pq q) -> e_key e = Some k -> M k = Some (e_w e, e_pay e) /\ dget (q_entries q) k = Some (e_id e);
  R_map : forall k w p, M k = Some (w, p) -> exists e, In e (q_pq q) /\ e_key e = Some k /\ e_w e = w /\ e_pay e = p;
  R_dict : forall k i, dget (q_entries q) k = Some i -> exists e, In e (q_pq q) /\ e_key e = Some k /\ e_id e = i }.

Lemma livel_cons e l : livel (e :: l) = match e_key e with Some _ => e :: livel l | None => livel l end.
Proof. unfold livel. cbn. now destruct (e_key e). Qed.
Lemma in_livel e l : In e (livel l) <-> In e l /\ exists k, e_key e = Some k.
Proof.
  unfold livel. rewrite filter_In. split; intros [H K]; (split; [exact H|]).
  - destruct (e_key e) as [k|]; [eauto|discriminate].
  - destruct K as [k ->]. reflexivity.
Qed.
Lemma id_inj l e f : NoDup (map e_id l) -> In e l -> In f l -> e_id e = e_id f -> e = f.
Proof.
  induction l as [|x l IH]; cbn; [tauto|]. intros H He Hf E. inversion_clear H as [|? ? N ND].
  destruct He as [->|He], Hf as [->|Hf]; auto.
  - exfalso. apply N. rewrite E. now apply in_map.
  - exfalso. apply N. rewrite <- E. now apply in_map.
Qed.

Lemma R_new : R new_pq nothing.
Proof. constructor; cbn; try tauto; try discriminate; constructor. Qed.

Lemma R_push q M k p w : R q M -> M k = None -> R (q_push q k p w) (lput M k (Some (w, p))).
Proof.
  intros H Hk. destruct H as [H1 H2 H3 H4 H5 H6]. unfold q_push. constructor; cbn [q_pq q_n q_entries q_next].
  - cbn. constructor; [|exact H1]. rewrite in_map_iff. intros (e & E & He). specialize (H2 e He). lia.
  - intros e [<-|He]; cbn; [lia|]. specialize (H2 e He). lia.
  - rewrite livel_cons. cbn [e_key length]. lia.
  - intros e k' He Ek. unfold lput. rewrite dget_dset. destruct He as [<-|He].
    + cbn in *. injection Ek as <-. now rewrite !Nat.eqb_refl.
    + destruct (H4 e k' He Ek) as [A B]. rewrite (Nat.eqb_sym k k').
      destruct (Nat.eqb_spec k' k) as [->|]; [congruence|auto].
  - intros k' w' p'. unfold lput. destruct (Nat.eqb_spec k' k) as [->|].
    + intros [= <- <-]. eexists. split; [left; reflexivity|]. auto.
    + intros E. destruct (H5 _ _ _ E) as (e & He & P). exists e. split; [now right|exact P].
  - intros k' i. rewrite dget_dset. destruct (Nat.eqb_spec k k') as [->|].
    + intros [= <-]. eexists. split; [left; reflexivity|]. auto.
    + intros E. destruct (H6 _ _ E) as (e & He & P). exists e. split; [now right|exact P].
Qed.

Lemma R_dict_none q M k : R q M -> (dget (q_entries q) k = None <-> M k = None).
Proof.
  intros H. split; intros E.
  - destruct (M k) as [[w p]|] eqn:F; [|reflexivity]. destruct (R_map _ _ H _ _ _ F) as (e & He & Ek & _).
    destruct (R_live _ _ H _ _ He Ek). congruence.
  - destruct (dget (q_entries q) k) as [i|] eqn:F; [|reflexivity]. destruct (R_dict _ _ H _ _ F) as (e & He & Ek & _).
    destruct (R_live _ _ H _ _ He Ek). congruence.
Qed.

Lemma kill_live l i : NoDup (map e_id l) -> (exists e k, In e l /\ e_id e = i /\ e_key e = Some k) ->
  length (livel l) = S (length (livel (map (fun e => if Nat.eqb (e_id e) i then mkE (e_id e) (e_w e) None (e_pay e) else e) l))).
Proof.
  induction l as [|x l IH]; intros ND (e & k & He & Ei & Ek); [destruct He|].
  cbn [map] in *. inversion_clear ND as [|? ? N ND']. destruct He as [->|He].
  - rewrite Ei, Nat.eqb_refl. rewrite !livel_cons. rewrite Ek. cbn [e_key length]. do 3 f_equal. symmetry. rewrite <- (map_id l) at 2. apply map_ext_in.
    intros y Hy. destruct (Nat.eqb_spec (e_id y) i) as [E|]; [|reflexivity]. exfalso. apply N. rewrite Ei, <- E. now apply in_map.
  - assert (Hx : e_id x <> i). { intros E. apply N. rewrite E, <- Ei. now apply in_map. }
    destruct (Nat.eqb_spec (e_id x) i); [contradiction|]. rewrite !livel_cons.
    specialize (IH ND' (ex_intro _ e (ex_intro _ k (conj He (conj Ei Ek))))). destruct (e_key x); cbn [length]; rewrite IH; reflexivity.
Qed.

Lemma R_delete q M k q' : R q M -> q_delete q k = Ok q' -> M k <> None /\ R q' (lput M k None).
Proof.
  intros H E. unfold q_delete in E. destruct (dget (q_entries q) k) as [i|] eqn:F; [|discriminate]. injection E as <-.
  split. { intros G. apply (R_dict_none q M k H) in G. congruence. }
  destruct (R_dict _ _ H _ _ F) as (e0 & He0 & Ek0 & Ei0). destruct H as [H1 H2 H3 H4 H5 H6].
  set (f := fun e => if Nat.eqb (e_id e) i then mkE (e_id e) (e_w e) None (e_pay e) else e).
  assert (Fid : forall e, e_id (f e) = e_id e). { intros e. unfold f. destruct (Nat.eqb_spec (e_id e) i); reflexivity. }
  constructor; cbn [q_pq q_n q_entries q_next].
  - rewrite map_map. erewrite map_ext; [exact H1|]. exact Fid.
  - intros e He. apply in_map_iff in He. destruct He as (x & <- & Hx). fold (f x). rewrite Fid. now apply H2.
  - rewrite H3. pose proof (kill_live (q_pq q) i H1 (ex_intro _ e0 (ex_intro _ k (conj He0 (conj Ei0 Ek0))))) as KL. fold f in KL. lia.
  - intros e k' He Ek. apply in_map_iff in He. destruct He as (x & <- & Hx). fold (f x) in Ek |- *. unfold f in Ek |- *.
    destruct (Nat.eqb_spec (e_id x) i) as [E|N]; [discriminate Ek|]. destruct (H4 x k' Hx Ek) as [A B].
    unfold lput. rewrite dget_dpop, (Nat.eqb_sym k k'). destruct (Nat.eqb_spec k' k) as [->|]; [congruence|auto].
  - intros k' w p. unfold lput. destruct (Nat.eqb_spec k' k) as [->|Nk]; [discriminate|]. intros Em.
    destruct (H5 _ _ _ Em) as (e & He & Ek & Ew & Ep). exists e. split; [|auto]. apply in_map_iff. exists e. split; [|exact He].
    unfold f; destruct (Nat.eqb_spec (e_id e) i) as [E|]; [|reflexivity]. exfalso. apply Nk.
    assert (e = e0) by (apply (id_inj (q_pq q)); auto; congruence). congruence.
  - intros k' j. rewrite dget_dpop. destruct (Nat.eqb_spec k k') as [->|Nk]; [discriminate|]. intros Ej.
    destruct (H6 _ _ Ej) as (e & He & Ek & Ei). exists e. split; [|auto]. apply in_map_iff. exists e. split; [|exact He].
    unfold f; destruct (Nat.eqb_spec (e_id e) i) as [E|]; [|reflexivity]. exfalso. apply Nk.
    assert (e = e0) by (apply (id_inj (q_pq q)); auto; congruence). congruence.
Qed.

Lemma livel_app l1 l2 : livel (l1 ++ l2) = livel l1 ++ livel l2.
Proof. apply filter_app. Qed.

Lemma R_dead q M e l : R q M -> heappop (q_pq q) e l -> e_key e = None -> R (mkPQ (q_n q) l (q_entries q) (q_next q)) M.
Proof.
  intros [H1 H2 H3 H4 H5 H6] (l1 & l2 & E & -> & Hmin) Hd. rewrite E in *.
  assert (Sub : forall x, In x (l1 ++ l2) -> In x (l1 ++ e :: l2)) by (intros x; rewrite !in_app_iff; cbn; tauto).
  assert (Sup : forall x, In x (l1 ++ e :: l2) -> x <> e -> In x (l1 ++ l2)).
  { intros x. rewrite !in_app_iff. cbn. intros [?|[?|?]] ?; auto; congruence. }
  constructor; cbn [q_pq q_n q_entries q_next].
  - rewrite map_app in *. cbn in H1. now apply NoDup_remove_1 in H1.
  - intros x Hx. now apply H2, Sub.
  - rewrite H3, !livel_app. rewrite livel_cons, Hd. reflexivity.
  - intros x k Hx. now apply H4, Sub.
  - intros k w p Em. destruct (H5 _ _ _ Em) as (x & Hx & Ek & P). exists x. split; [|auto]. apply Sup; [exact Hx|congruence].
  - intros k i Ei. destruct (H6 _ _ Ei) as (x & Hx & Ek & P). exists x. split; [|auto]. apply Sup; [exact Hx|congruence].
Qed.

Lemma R_live_pop q M e l k : R q M -> heappop (q_pq q) e l -> e_key e = Some k ->
  M k = Some (e_w e, e_pay e) /\ (forall k' w' p', M k' = Some (w', p') -> e_w e <= w') /\
  R (mkPQ (q_n q - 1) l (dpop (q_entries q) k) (q_next q)) (lput M k None).
Proof.
  intros HR (l1 & l2 & E & -> & Hmin) Hk. pose proof HR as [H1 H2 H3 H4 H5 H6]. rewrite E in *.
  assert (He : In e (l1 ++ e :: l2)) by (apply in_or_app; right; now left).
  destruct (H4 e k He Hk) as [A B]. split; [exact A|]. split.
  { intros k' w' p' Em. destruct (H5 _ _ _ Em) as (x & Hx & _ & <- & _). now apply Hmin. }
  assert (Sub : forall x, In x (l1 ++ l2) -> In x (l1 ++ e :: l2)) by (intros x; rewrite !in_app_iff; cbn; tauto).
  assert (Sup : forall x, In x (l1 ++ e :: l2) -> x <> e -> In x (l1 ++ l2)).
  { intros x. rewrite !in_app_iff. cbn. intros [?|[?|?]] ?; auto; congruence. }
  assert (Hout : forall x, In x (l1 ++ l2) -> e_id x <> e_id e).
  { intros x Hx. rewrite map_app in H1. cbn in H1. apply NoDup_remove_2 in H1. intros Ex. apply H1. rewrite <- map_app, <- Ex. now apply in_map. }
  constructor; cbn [q_pq q_n q_entries q_next].
  - rewrite map_app in *. cbn in H1. now apply NoDup_remove_1 in H1.
  - intros x Hx. now apply H2, Sub.
  - rewrite H3, !livel_app. rewrite livel_cons, Hk. rewrite !app_length. cbn [length]. lia.
  - intros x k' Hx Ex. destruct (H4 x k' (Sub _ Hx) Ex) as [A' B']. unfold lput. rewrite dget_dpop, (Nat.eqb_sym k k').
    destruct (Nat.eqb_spec k' k) as [->|]; [|auto]. exfalso. apply (Hout x Hx). congruence.
  - intros k' w p. unfold lput. destruct (Nat.eqb_spec k' k) as [->|Nk]; [discriminate|]. intros Em.
    destruct (H5 _ _ _ Em) as (x & Hx & Ek & P). exists x. split; [|auto]. apply Sup; [exact Hx|congruence].
  - intros k' i. rewrite dget_dpop. destruct (Nat.eqb_spec k k') as [->|Nk]; [discriminate|]. intros Ei.
    destruct (H6 _ _ Ei) as (x & Hx & Ek & P). exists x. split; [|auto]. apply Sup; [exact Hx|congruence].
Qed.

Lemma R_empty q M : R q M -> (q_empty q = true <-> forall k, M k = None).
Proof.
  intros H. unfold q_empty. rewrite Z.eqb_eq, (R_n _ _ H). split.
  - intros E k. destruct (M k) as [[w p]|] eqn:F; [|reflexivity]. destruct (R_map _ _ H _ _ _ F) as (e & He & Ek & _).
    assert (K : In e (livel (q_pq q))) by (apply in_livel; eauto). destruct (livel (q_pq q)); [destruct K|cbn in E; lia].
  - intros N. destruct (livel (q_pq q)) as [|e l] eqn:F; [reflexivity|]. assert (K : In e (livel (q_pq q))) by (rewrite F; now left).
    apply in_livel in K. destruct K as (He & k & Ek). destruct (R_live _ _ H _ _ He Ek). rewrite N in *. discriminate.
Qed.

Lemma R_size q M : R q M -> size M (length (livel (q_pq q))).
Proof.
  intros H. exists (map (fun e => match e_key e with Some k => k | None => O end) (livel (q_pq q))). split; [|split].
  - assert (ND : NoDup (livel (q_pq q))).
    { apply NoDup_filter. pose proof (R_ids _ _ H) as K. now apply NoDup_map_inv in K. }
    assert (K : forall e, In e (livel (q_pq q)) -> In e (q_pq q) /\ exists k, e_key e = Some k) by (intros e; apply in_livel).
    induction ND as [|e l N ND IH]; [constructor|]. cbn. constructor; [|apply IH; intros; apply K; now right].
    rewrite in_map_iff. intros (f & Ef & Hf). apply N. destruct (K e (or_introl eq_refl)) as (He & k & Ek). destruct (K f (or_intror Hf)) as (Hf' & k' & Ek').
    rewrite Ek, Ek' in Ef. subst k'. destruct (R_live _ _ H _ _ He Ek) as [_ D1]. destruct (R_live _ _ H _ _ Hf' Ek') as [_ D2].
    assert (e = f) by (apply (id_inj (q_pq q)); [apply H|auto|auto|congruence]). now subst.
  - now rewrite map_length.
  - intros k. rewrite in_map_iff. split.
    + intros (e & E & He). apply in_livel in He. destruct He as (He & k' & Ek). rewrite Ek in E. subst k'. destruct (R_live _ _ H _ _ He Ek). congruence.
    + intros N. destruct (M k) as [[w p]|] eqn:F; [|congruence]. destruct (R_map _ _ H _ _ _ F) as (e & He & Ek & _). exists e. rewrite Ek. split; [reflexivity|].
      apply in_livel. eauto.
Qed.

Lemma R_get q M k : R q M -> q_get q k = M k.
Proof.
  intros H. unfold q_get. destruct (dget (q_entries q) k) as [i|] eqn:F.
  - destruct (R_dict _ _ H _ _ F) as (e & He & Ek & Ei). destruct (R_live _ _ H _ _ He Ek) as [A _].
    destruct (find (fun x => Nat.eqb (e_id x) i) (q_pq q)) as [f|] eqn:G.
    + apply find_some in G. destruct G as [Hf Ef]. apply Nat.eqb_eq in Ef.
      assert (f = e) by (apply (id_inj (q_pq q)); [apply H|auto|auto|congruence]). now subst.
    + apply find_none with (x := e) in G; [|exact He]. rewrite Ei, Nat.eqb_refl in G. discriminate.
  - symmetry. now apply (R_dict_none q M k H).
Qed.

Lemma R_pop q r q' : q_pop q r q' -> forall M, R q M ->
  match r with
  | Ok (w, k, p) => M k = Some (w, p) /\ (forall k' w' p', M k' = Some (w', p') -> w <= w') /\ R q' (lput M k None)
  | Raise => (forall k, M k = None) /\ R q' M
  end.
Proof.
  induction 1 as [q H|q H1 H2|q e l r q' H1 H2 H3 H4 IH|q e l k i H1 H2 H3 H4|q e l k H1 H2 H3 H4]; intros M HR.
  - split; [now apply (R_empty q)|exact HR].
  - exfalso. pose proof (R_n _ _ HR) as E. rewrite H2 in E. cbn in E. unfold q_empty in H1. apply Z.eqb_neq in H1. contradiction.
  - apply IH. eapply R_dead; eauto.
  - eapply R_live_pop; eauto.
  - exfalso. destruct H2 as (l1 & l2 & E & _ & _). assert (He : In e (q_pq q)) by (rewrite E; apply in_or_app; right; now left).
    destruct (R_live _ _ HR _ _ He H3). congruence.
Qed.

Lemma spec_run_ext M h M' : spec_run M h M' -> forall N, (forall k, M' k = N k) -> spec_run M h N.
Proof. induction 1; intros N E; [constructor; congruence|]. econstructor; eauto. Qed.

Lemma refine q h q' : q_run q h q' -> forall M, R q M -> disciplined M h -> exists M', R q' M' /\ spec_run M h M'.
Proof.
  induction 1 as [q|q o r q1 h q2 Hs Hr IH]; intros M HR HD.
  - exists M. split; [exact HR|]. now constructor.
  - inversion Hs; subst; cbn in HD.
    + destruct HD as [Hk HD]. destruct (IH _ (R_push _ _ _ _ _ HR Hk) HD) as (M' & A & B). exists M'. split; [exact A|]. econstructor; [now constructor|exact B].
    + destruct (R_delete _ _ _ _ HR H) as [Hk HR']. destruct (IH _ HR' HD) as (M' & A & B). exists M'. split; [exact A|]. econstructor; [now constructor|exact B].
    + assert (Hk : M k = None). { apply (R_dict_none _ _ k HR). unfold q_delete in H. now destruct (dget (q_entries q1) k). }
      destruct (IH _ HR HD) as (M' & A & B). exists M'. split; [exact A|]. econstructor; [now constructor|exact B].
    + apply R_pop with (M := M) in H; [|exact HR]. destruct H as (A1 & A2 & A3). destruct (IH _ A3 HD) as (M' & A & B). exists M'. split; [exact A|].
      econstructor; [now constructor|exact B].
    + apply R_pop with (M := M) in H; [|exact HR]. destruct H as (A1 & A2). destruct (IH _ A2 HD) as (M' & A & B). exists M'. split; [exact A|].
      econstructor; [now constructor|exact B].
    + destruct (IH _ HR HD) as (M' & A & B). exists M'. split; [exact A|]. econstructor; [|exact B]. rewrite (R_get _ _ k HR). constructor.
    + destruct (IH _ HR HD) as (M' & A & B). exists M'. split; [exact A|]. econstructor; [|exact B]. constructor. now apply R_empty.
    + destruct (IH _ HR HD) as (M' & A & B). exists M'. split; [exact A|]. econstructor; [|exact B]. rewrite (R_n _ _ HR). constructor. now apply R_size.
Qed.

Lemma heappop_exists l : l <> [] -> exists e l', heappop l e l'.
Proof.
  intros H. assert (K : exists e, In e l /\ forall x, In x l -> e_w e <= e_w x).
  { induction l as [|a l IH]; [congruence|]. destruct l as [|b l].
    - exists a. split; [now left|]. intros x [->|[]]. lia.
    - destruct IH as (e & He & Hm); [discriminate|]. destruct (Z_le_gt_dec (e_w a) (e_w e)).
      + exists a. split; [now left|]. intros x [->|Hx]; [lia|]. specialize (Hm x Hx). lia.
      + exists e. split; [now right|]. intros x [->|Hx]; [lia|]. now apply Hm. }
  destruct K as (e & He & Hm). apply in_split in He. destruct He as (l1 & l2 & E). exists e, (l1 ++ l2), l1, l2. auto.
Qed.

Lemma pop_total m : forall q, length (q_pq q) = m -> exists r q', q_pop q r q'.
Proof.
  induction m as [|m IH]; intros q Hm.
  - destruct (q_empty q) eqn:E; [do 2 eexists; now apply pop_empty|]. do 2 eexists. apply pop_index; [exact E|]. now destruct (q_pq q).
  - destruct (q_empty q) eqn:E; [do 2 eexists; now apply pop_empty|].
    destruct (heappop_exists (q_pq q)) as (e & l & Hl); [now destruct (q_pq q)|].
    destruct (e_key e) as [k|] eqn:Ek.
    + destruct (dget (q_entries q) k) eqn:Ed; do 2 eexists; [eapply pop_live|eapply pop_key]; eauto.
    + destruct (IH (mkPQ (q_n q) l (q_entries q) (q_next q))) as (r & q' & H).
      { destruct Hl as (l1 & l2 & E1 & -> & _). cbn. rewrite E1, app_length in Hm. rewrite app_length. cbn in Hm. lia. }
      exists r, q'. eapply pop_dead; eauto.
Qed.

(** C29.  Every run of the queue from empty, for every choice heapq makes among equal weights, in which no key is pushed
    while it is live, is a run of the specification: pop answers a live entry of least weight and removes exactly it, get
    and delete see exactly the live entries, empty() says whether none is left, len() counts them, and pop/delete raise
    exactly when there is nothing to pop/delete. *)
Theorem C29_queue_refines_map : forall h q, q_run new_pq h q -> disciplined nothing h ->
  exists M, spec_run nothing h M.
Proof. intros h q H D. destruct (refine _ _ _ H nothing R_new D) as (M & _ & S). eauto. Qed.
Print Assumptions C29_queue_refines_map.

(** No call gets stuck: every operation has an outcome in every state (pop terminates). *)
Theorem C29_every_call_returns : forall q o, exists r q', q_step q o r q'.
Proof.
  intros q [k p w|k| |k| |].
  - do 2 eexists. constructor.
  - destruct (q_delete q k) eqn:E; do 2 eexists; [eapply st_delete|eapply st_delete_raise]; eauto.
  - destruct (pop_total _ q eq_refl) as ([[[w k] p]|] & q' & H); do 2 eexists; [eapply st_pop|eapply st_pop_raise]; eauto.
  - do 2 eexists. constructor.
  - do 2 eexists. constructor.
  - do 2 eexists. constructor.
Qed.
Print Assumptions C29_every_call_returns.

(** A run with a deletion, a re-push with smaller weight and two pops. *)
Definition exQ : list (qop * qout) :=
  [(QPush 7 0 5, OUnit); (QPush 8 0 3, OUnit); (QDelete 7, OUnit); (QPush 7 1 2, OUnit); (QGet 7, OGet (Some (2, 1%nat)));
   (QPop, OPopped 2 7 1); (QPop, OPopped 3 8 0); (QEmpty, OBool true); (QPop, ORaise)].
Example C29_ex : disciplined nothing exQ /\ exists q, q_run new_pq exQ q.
Proof.
  split; [cbn; auto 10|]. eexists. unfold exQ.
  repeat first [eapply run_nil | eapply run_cons; [first [eapply st_push | eapply st_delete; reflexivity |
     match goal with |- q_step _ QPop (OPopped 2 7 1) _ => eapply st_pop; eapply (pop_live _ (mkE 2 2 (Some 7%nat) 1) _ 7 2); [reflexivity| |reflexivity|reflexivity];
        exists [], [mkE 1 3 (Some 8%nat) 0; mkE 0 5 None 0]; split; [reflexivity|]; split; [reflexivity|]; cbn; intros x Hx; decompose [or] Hx; subst; cbn; try lia; contradiction end |
     match goal with |- q_step _ QPop (OPopped 3 8 0) _ => eapply st_pop; eapply (pop_live _ (mkE 1 3 (Some 8%nat) 0) _ 8 1); [reflexivity| |reflexivity|reflexivity];
        exists [], [mkE 0 5 None 0]; split; [reflexivity|]; split; [reflexivity|]; cbn; intros x Hx; decompose [or] Hx; subst; cbn; try lia; contradiction end |
     match goal with |- q_step _ QPop ORaise _ => eapply st_pop_raise, pop_empty; reflexivity end |
     exact (st_get _ 7) | exact (st_empty _)]|]].
Qed.

(** C47 refuted: without that discipline - the same key pushed twice - the second pop raises KeyError although the queue
    is not empty. *)
Theorem C47_duplicate_key_refuted : forall k p1 p2 w1 w2 r q1, w1 < w2 ->
  q_pop (q_push (q_push new_pq k p1 w1) k p2 w2) r q1 -> r = Ok (w1, k, p1) /\ q_empty q1 = false /\
  forall r2 q2, q_pop q1 r2 q2 -> r2 = Raise.
Proof.
  intros k p1 p2 w1 w2 r q1 Hw H.
  assert (Hp : forall e l, heappop (q_pq (q_push (q_push new_pq k p1 w1) k p2 w2)) e l -> e = mkE 0 w1 (Some k) p1 /\ l = [mkE 1 w2 (Some k) p2]).
  { intros e l (l1 & l2 & E & -> & Hm). cbn in E, Hm. destruct l1 as [|x l1]; cbn in E.
    - injection E as <- <-. specialize (Hm (mkE 0 w1 (Some k) p1) (or_intror (or_introl eq_refl))). cbn in Hm. lia.
    - injection E as <- E. destruct l1 as [|y l1]; cbn in E; [|injection E as _ E; destruct l1; discriminate].
      injection E as <- <-. auto. }
  assert (Hd : dget (q_entries (q_push (q_push new_pq k p1 w1) k p2 w2)) k = Some 1%nat).
  { cbn [q_push q_entries]. now rewrite dget_dset, Nat.eqb_refl. }
  inversion H; subst.
  - cbn in H0. discriminate.
  - discriminate.
  - apply Hp in H1. destruct H1 as [-> _]. discriminate.
  - apply Hp in H1. destruct H1 as [-> ->]. cbn in H2. injection H2 as <-. split; [reflexivity|]. split; [reflexivity|].
    intros r2 q2 H2. inversion H2; subst; auto.
    all: match goal with HH : heappop _ _ _ |- _ => destruct HH as (l1 & l2 & E & -> & _) end; cbn in E;
      destruct l1 as [|? l1]; [|destruct l1; discriminate]; injection E as <- <-; cbn in *; try discriminate.
    exfalso. match goal with HH : Some _ = Some _ |- _ => injection HH as <- end.
    rewrite ?Nat.eqb_refl in *. cbn in *. rewrite ?Nat.eqb_refl in *. cbn in *. discriminate.
  - apply Hp in H1. destruct H1 as [-> ->]. cbn in H2. injection H2 as <-. congruence.
Qed.
Print Assumptions C47_duplicate_key_refuted.

