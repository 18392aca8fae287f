(** C250: renaming a node of a graph. *)
From Verif Require Import Base EdgeModel GraphModel CheckLib RenameModel.
Local Open Scope Z_scope.

Section Rename.
Variable h : Z -> Z.
Definition entries (nm : nat -> Z) (k : nat) (l : list nat) : list entry := map (fun p => mkEntry (h (nm (snd p))) (snd p) (fst p)) (combine (seq k (length l)) l).
Lemma find_app_none {A} (f : A -> bool) l m : find f l = None -> find f (l ++ m) = find f m.
Proof. induction l as [|x l IH]; cbn; [reflexivity|]. destruct (f x); [discriminate|assumption]. Qed.
Lemma hset_fresh nm d a v : (forall e, In e d -> matches h nm a e = false) -> hset h nm d a v = d ++ [mkEntry (h (nm a)) a v].
Proof. induction d as [|e d IH]; intros H; [reflexivity|]. cbn [hset]. rewrite (H e) by now left. cbn [app]. f_equal. apply IH. intros x Hx. apply H. now right. Qed.
Lemma matches_iff nm a e : matches h nm a e = true <-> stored e = h (nm a) /\ (key_obj e = a \/ nm (key_obj e) = nm a).
Proof. unfold matches, node_eq. rewrite andb_true_iff, orb_true_iff, !Z.eqb_eq, Nat.eqb_eq. tauto. Qed.
Lemma build_entries nm l : NoDup (map nm l) -> build h nm l = entries nm 0 l.
Proof.
  intros ND. unfold build. change (entries nm 0 l) with ([] ++ entries nm 0 l).
  assert (G : forall l k d, NoDup (map nm l) -> (forall e a, In e d -> In a l -> nm (key_obj e) <> nm a) -> fold_left (fun d p => hset h nm d (snd p) (fst p)) (combine (seq k (length l)) l) d = d ++ entries nm k l).
  { clear l ND. induction l as [|a l IH]; intros k d ND Hd; [cbn; now rewrite app_nil_r|]. cbn [length seq combine fold_left fst snd]. inversion ND as [|? ? Na Nl]; subst. rewrite hset_fresh.
    - rewrite IH; [unfold entries; cbn [length seq combine map fst snd]; now rewrite <- app_assoc|exact Nl|].
      intros e x He Hx. apply in_app_iff in He. destruct He as [He|[<-|[]]]; [apply Hd; [exact He|now right]|]. cbn [key_obj]. intros E. apply Na. rewrite E. now apply in_map.
    - intros e He. apply not_true_is_false. rewrite matches_iff. intros [_ [E|E]]; apply (Hd e a He (or_introl eq_refl)); congruence. }
  apply G; [exact ND|]. intros e a [].
Qed.
Lemma in_entries nm l : forall k e, In e (entries nm k l) <-> exists i x, nth_error l i = Some x /\ e = mkEntry (h (nm x)) x (k + i).
Proof.
  induction l as [|a l IH]; intros k e; unfold entries in *; cbn [length seq combine map In]; [split; [intros []|intros ([|i] & x & Q & _); discriminate]|]. rewrite IH. cbn [fst snd]. split.
  - intros [<-|(i & x & Hi & ->)]; [exists 0%nat, a; rewrite Nat.add_0_r; auto|exists (S i), x; split; [exact Hi|f_equal; lia]].
  - intros ([|i] & x & Hi & ->); [left; injection Hi as ->; f_equal; lia|right; exists i, x; split; [exact Hi|f_equal; lia]].
Qed.
Lemma hget_some nm d a v : hget h nm d a = Some v -> exists e, In e d /\ matches h nm a e = true /\ value e = v.
Proof. unfold hget. destruct (find (matches h nm a) d) as [e|] eqn:E; [|discriminate]. intros [= <-]. apply find_some in E. exists e. tauto. Qed.
Lemma hget_unique nm d a e : In e d -> matches h nm a e = true -> (forall e', In e' d -> matches h nm a e' = true -> value e' = value e) -> hget h nm d a = Some (value e).
Proof.
  intros He HM U. unfold hget. destruct (find (matches h nm a) d) as [e'|] eqn:E; [cbn; f_equal; apply find_some in E; now apply U|]. exfalso. pose proof (find_none _ _ E e He). congruence.
Qed.
Lemma hget_none nm d a : (forall e, In e d -> matches h nm a e = false) -> hget h nm d a = None.
Proof. intros H. unfold hget. destruct (find (matches h nm a) d) as [e|] eqn:E; [|reflexivity]. apply find_some in E. rewrite H in E by tauto. destruct E. discriminate. Qed.
Lemma nodup_nth (nm : nat -> Z) (l : list nat) i j x y : NoDup (map nm l) -> nth_error l i = Some x -> nth_error l j = Some y -> nm x = nm y -> i = j.
Proof.
  intros ND Hi Hj E. rewrite NoDup_nth_error in ND. apply ND; [rewrite map_length; apply nth_error_Some; congruence|]. rewrite !nth_error_map, Hi, Hj. cbn. now rewrite E.
Qed.
Definition differs (nm : nat -> Z) (l : list nat) (s : Z) : Prop := forall x, In x l -> h s <> h (nm x).

(** A graph over nodes with different names finds a node, or any other node object of the same name, at its place, and no other. *)
Theorem C250_lookup_partial : forall nm l, NoDup (map nm l) -> forall a i, hget h nm (build h nm l) a = Some i <-> exists x, nth_error l i = Some x /\ nm x = nm a.
Proof.
  intros nm l ND a i. rewrite build_entries by exact ND. split.
  - intros H. apply hget_some in H. destruct H as (e & He & HM & <-). apply in_entries in He. destruct He as (k & x & Hk & ->). apply matches_iff in HM. cbn in *. exists x. split; [exact Hk|]. destruct HM as [_ [->|E]]; auto.
  - intros (x & Hi & E). assert (IE : In (mkEntry (h (nm x)) x i) (entries nm 0 l)) by (apply in_entries; exists i, x; auto).
    apply (hget_unique nm _ a _ IE); [apply matches_iff; cbn; rewrite E; auto|]. intros e' He' HM. apply in_entries in He'. destruct He' as (k & y & Hk & ->). apply matches_iff in HM. cbn in *.
    apply (nodup_nth nm l k i y x ND Hk Hi). destruct HM as [_ [->|E']]; congruence.
Qed.
(** Once a node has a new name (with a hash of its own), the graph does not know it any more: every query about it raises, and so does every query about a node object with the old name, although get_node gives the node under its new name. *)
Theorem C250_lost_refuted : forall nm l g a s, NoDup (map nm l) -> In a l -> differs nm l s -> let nm' := set_name nm a s in let d := build h nm l in
  get_node nm' l s = Some a /\ (forall b, hget_edge h nm' d g a b = Raise /\ hget_edge h nm' d g b a = Raise) /\
  forall p b, ~ In p l -> nm p = nm a -> hget_edge h nm' d g p b = Raise.
Proof.
  intros nm l g a s ND Ha D. cbv zeta. assert (Sa : set_name nm a s a = s) by (unfold set_name; now rewrite Nat.eqb_refl).
  assert (So : forall x, x <> a -> set_name nm a s x = nm x) by (intros x Hx; unfold set_name; rewrite (proj2 (Nat.eqb_neq x a) Hx); reflexivity).
  assert (HN : hget h (set_name nm a s) (build h nm l) a = None).
  { rewrite build_entries by exact ND. apply hget_none. intros e He. apply in_entries in He. destruct He as (i & x & Hi & ->). apply not_true_is_false. rewrite matches_iff, Sa. cbn. intros [E _]. apply (D x); [eapply nth_error_In; exact Hi|congruence]. }
  split; [|split].
  - unfold get_node. destruct (find (fun a0 => set_name nm a s a0 =? s) l) as [b|] eqn:F.
    + apply find_some in F. destruct F as [Hb E]. apply Z.eqb_eq in E. destruct (Nat.eq_dec b a) as [->|N]; [reflexivity|]. rewrite So in E by exact N. exfalso. apply (D b Hb). congruence.
    + exfalso. pose proof (find_none _ _ F a Ha) as Q. cbn in Q. rewrite Sa, Z.eqb_refl in Q. discriminate.
  - intros b. unfold hget_edge. rewrite HN. split; [reflexivity|]. destruct (hget _ _ _ b); reflexivity.
  - intros p b Hp E. unfold hget_edge. rewrite hget_none; [reflexivity|]. rewrite build_entries by exact ND. intros e He. apply in_entries in He. destruct He as (i & x & Hi & ->). apply not_true_is_false. rewrite matches_iff. cbn.
    assert (Hx : In x l) by (eapply nth_error_In; exact Hi). assert (Np : p <> a) by congruence. rewrite (So p Np), E. intros [_ [->|Q]]; [contradiction|].
    destruct (Nat.eq_dec x a) as [->|N]; [rewrite Sa in Q; apply (D a Ha); congruence|]. rewrite So in Q by exact N. apply N. apply In_nth_error in Ha, Hx. destruct Ha as (ia & Ha), Hx as (ix & Hx). pose proof (nodup_nth nm l ix ia x a ND Hx Ha Q). congruence.
Qed.
(** A node given the name of another one is taken for the other: every query about it is answered with the edges of the other. *)
Theorem C250_mistaken_refuted : forall nm l g a b, NoDup (map nm l) -> In a l -> In b l -> h (nm a) <> h (nm b) -> let nm' := set_name nm a (nm b) in let d := build h nm l in
  forall c, In c l -> c <> a -> hget_edge h nm' d g a c = hget_edge h nm d g b c /\ hget_edge h nm' d g c a = hget_edge h nm d g c b.
Proof.
  intros nm l g a b ND Ha Hb NE. cbv zeta. set (nm' := set_name nm a (nm b)). assert (Sa : nm' a = nm b) by (unfold nm', set_name; now rewrite Nat.eqb_refl).
  assert (So : forall x, x <> a -> nm' x = nm x) by (intros x Hx; unfold nm', set_name; rewrite (proj2 (Nat.eqb_neq x a) Hx); reflexivity). assert (Nab : a <> b) by congruence.
  assert (K : forall c q, In q l -> nm' c = nm q -> q <> a -> hget h nm' (build h nm l) c = hget h nm (build h nm l) q).
  { intros c q Hq E Nq. apply In_nth_error in Hq. destruct Hq as (i & Hi). rewrite (proj2 (C250_lookup_partial nm l ND q i)) by (exists q; auto). rewrite build_entries by exact ND.
    assert (IE : In (mkEntry (h (nm q)) q i) (entries nm 0 l)) by (apply in_entries; exists i, q; auto). apply (hget_unique nm' _ c _ IE).
    - apply matches_iff. cbn. rewrite E, (So q Nq). auto.
    - intros e' He' HM. apply in_entries in He'. destruct He' as (k & y & Hk & ->). apply matches_iff in HM. cbn in *. destruct HM as [HS HM]. rewrite E in HS, HM.
      destruct (Nat.eq_dec y a) as [->|Ny].
      + exfalso. destruct HM as [Q|Q]; [subst c; rewrite Sa in E; rewrite E in NE; congruence|]. rewrite Sa in Q. congruence.
      + rewrite (So y Ny) in HM. apply (nodup_nth nm l k i y q ND Hk Hi). destruct HM as [Q|Q]; [subst c; rewrite (So y Ny) in E; exact E|exact Q]. }
  intros c Hc Nc. unfold hget_edge. rewrite (K a b Hb Sa) by congruence. rewrite (K c c Hc (So c Nc) Nc). split; reflexivity.
Qed.
End Rename.
(** Non-vacuity: 0 --> 1, 2, with names 10, 11, 12 hashed to themselves. *)
Example C250_example : let nm := fun x => Z.of_nat x + 10 in let g := graph_of 3 [dir 0 1] in let h := fun z => z in let d := build h nm [0; 1; 2]%nat in
  NoDup (map nm [0; 1; 2]%nat) /\ differs h nm [0; 1; 2]%nat 20 /\ hget_edge h nm d g 0 1 = Ok (Some (TAIL, ARROW)) /\ hget_edge h (set_name nm 0 20) d g 0 1 = Raise /\
  hget_edge h (set_name nm 2 10) d g 2 1 = Ok (Some (TAIL, ARROW)).
Proof.
  cbv zeta. split; [repeat constructor; cbn; lia|]. split; [intros x [<-|[<-|[<-|[]]]]; cbn; lia|]. repeat split; vm_compute; reflexivity.
Qed.
