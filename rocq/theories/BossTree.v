(** Grow-shrink trees: a trace does not depend on what the tree has cached. *)
From Verif Require Import Base UtilsModel UtilsProofs CpdagModel ExactSpec BossModel.
From Coq Require Import Permutation.
Local Open Scope Z_scope.

(** *** Lists *)
Lemma lremove_not x l : ~ In x l -> lremove x l = l.
Proof. induction l as [|a l IH]; intros N; [reflexivity|]. cbn. destruct (Nat.eqb_spec a x) as [->|H]; [destruct N; now left|]. f_equal. apply IH. intros H'. apply N. now right. Qed.
Lemma lremove_perm x l : In x l -> Permutation (x :: lremove x l) l.
Proof.
  induction l as [|a l IH]; intros H; [destruct H|]. cbn. destruct (Nat.eqb_spec a x) as [->|N]; [reflexivity|].
  destruct H as [H|H]; [congruence|]. rewrite perm_swap. apply perm_skip, IH, H.
Qed.
Lemma lremove_Perm x l l' : Permutation l l' -> Permutation (lremove x l) (lremove x l').
Proof.
  intros HP. destruct (in_dec Nat.eq_dec x l) as [H|N].
  - apply (Permutation_cons_inv (a := x)). rewrite (lremove_perm x l H), (lremove_perm x l'); [exact HP|]. now rewrite <- HP.
  - rewrite !lremove_not; [exact HP| |exact N]. now rewrite <- HP.
Qed.
Lemma lremove_NoDup x l : NoDup l -> NoDup (lremove x l).
Proof.
  intros H. destruct (in_dec Nat.eq_dec x l) as [Hx|N]; [|now rewrite lremove_not].
  apply (Permutation_NoDup (Permutation_sym (lremove_perm x l Hx))) in H. now inversion H.
Qed.
Lemma lremove_In x l y : NoDup l -> In y (lremove x l) <-> In y l /\ y <> x.
Proof.
  intros HN. destruct (in_dec Nat.eq_dec x l) as [Hx|N].
  - pose proof (lremove_perm x l Hx) as HP. pose proof (Permutation_NoDup (Permutation_sym HP) HN) as K. inversion K as [|? ? K1 K2]; subst. split.
    + intros H. split; [apply (Permutation_in _ HP); now right|]. intros ->. contradiction.
    + intros [H1 H2]. apply (Permutation_in _ (Permutation_sym HP)) in H1. destruct H1; [congruence|assumption].
  - rewrite lremove_not by exact N. split; [|tauto]. intros H. split; [exact H|]. intros ->. contradiction.
Qed.
Lemma lremove_incl x l : incl (lremove x l) l.
Proof. induction l as [|a l IH]; intros y; cbn; [auto|]. destruct (Nat.eqb a x); [now right|]. intros [H|H]; [now left|right; now apply IH]. Qed.
Lemma lremove_length x l : (length (lremove x l) <= length l)%nat.
Proof. induction l as [|a l IH]; cbn; [lia|]. destruct (Nat.eqb a x); cbn; lia. Qed.
Lemma lremove_lt x l : In x l -> (length (lremove x l) < length l)%nat.
Proof. intros H. apply lremove_perm, Permutation_length in H. cbn in H. lia. Qed.
Lemma lremove_filter x l : NoDup l -> lremove x l = filter (fun w => negb (Nat.eqb x w)) l.
Proof.
  induction 1 as [|a l N H IH]; [reflexivity|]. cbn. rewrite (Nat.eqb_sym x a). destruct (Nat.eqb_spec a x) as [->|E]; cbn.
  - rewrite <- IH. now rewrite lremove_not.
  - now rewrite IH.
Qed.

Section Tree.
Variable sc : nat -> list nat -> Z.
Hypothesis Hsc : set_score sc.

Lemma n_insert_perm x l : Permutation (n_insert x l) (x :: l).
Proof. induction l as [|y l IH]; cbn; [reflexivity|]. destruct (_ <? _); [|reflexivity]. rewrite IH. apply perm_swap. Qed.
Lemma n_sort_perm l : Permutation (n_sort l) l.
Proof. induction l as [|y l IH]; cbn; [reflexivity|]. rewrite n_insert_perm. now apply perm_skip. Qed.
Lemma grow_names v g avail parents : exists l, Permutation (map n_add (grow sc v g avail parents)) (filter l avail).
Proof.
  exists (fun a => g <? sc v (parents ++ [a])). unfold grow. rewrite n_sort_perm. induction avail as [|a r IH]; [reflexivity|]. cbn.
  destruct (g <? _); cbn; [now apply perm_skip|exact IH].
Qed.
Lemma grow_in v g avail parents a : In a (map n_add (grow sc v g avail parents)) <-> In a avail /\ g < sc v (parents ++ [a]).
Proof.
  unfold grow. rewrite (Permutation_map n_add (n_sort_perm _)), in_map_iff. split.
  - intros (n & <- & H). apply filter_In in H. destruct H as [H1 H2]. apply in_map_iff in H1. destruct H1 as (b & <- & H1). cbn in *. split; [exact H1|now apply Z.ltb_lt].
  - intros [H1 H2]. exists (new_node a (sc v (parents ++ [a]))). split; [reflexivity|]. apply filter_In. split; [|now apply Z.ltb_lt]. apply in_map_iff. now exists a.
Qed.
Lemma grow_nodup v g avail parents : NoDup avail -> NoDup (map n_add (grow sc v g avail parents)).
Proof. intros H. destruct (grow_names v g avail parents) as [f HP]. eapply Permutation_NoDup; [apply Permutation_sym, HP|]. now apply NoDup_filter. Qed.
Lemma grow_node v g avail parents n : In n (grow sc v g avail parents) -> n = new_node (n_add n) (sc v (parents ++ [n_add n])).
Proof.
  unfold grow. intros H. apply (Permutation_in _ (n_sort_perm _)) in H. apply filter_In in H. destruct H as [H _]. apply in_map_iff in H. now destruct H as (a & <- & _).
Qed.

(** *** Shrinking *)
Lemma shrink_pass v parents l ps s best : incl l parents -> Permutation ps parents ->
  let '(ps', s', best') := fold_left (shrink_one sc v) l (ps, s, best) in
  Permutation ps' parents /\ s <= s' /\ (best' = best /\ s' = s \/ exists b, In b l /\ best' = Some b /\ s < s' /\ s' = sc v (lremove b parents)) /\
  forall r, In r l -> sc v (lremove r parents) <= s'.
Proof.
  revert ps s best. induction l as [|r l IH]; intros ps s best HL HP.
  - cbn. split; [exact HP|]. split; [lia|]. split; [now left|]. intros r [].
  - cbn [fold_left]. assert (Hr : In r parents) by (apply HL; now left).
    assert (HP1 : Permutation (lremove r ps ++ [r]) parents).
    { rewrite Permutation_app_comm. cbn. rewrite lremove_perm; [exact HP|]. now rewrite HP. }
    assert (E : sc v (lremove r ps) = sc v (lremove r parents)) by (apply Hsc, lremove_Perm, HP).
    unfold shrink_one at 2. rewrite E. destruct (Z.ltb_spec s (sc v (lremove r parents))) as [L|L].
    + specialize (IH (lremove r ps ++ [r]) (sc v (lremove r parents)) (Some r) (fun x H => HL x (or_intror H)) HP1).
      destruct (fold_left _ l _) as [[ps' s'] best']. destruct IH as (A & B & C & D). split; [exact A|]. split; [lia|]. split.
      * right. destruct C as [[-> ->]|(b & H1 & H2 & H3 & H4)]; [exists r; repeat split; auto; now left|exists b; repeat split; auto; [now right|lia]].
      * intros q [<-|Hq]; [exact B|auto].
    + specialize (IH (lremove r ps ++ [r]) s best (fun x H => HL x (or_intror H)) HP1).
      destruct (fold_left _ l _) as [[ps' s'] best']. destruct IH as (A & B & C & D). split; [exact A|]. split; [lia|]. split.
      * destruct C as [C|(b & H1 & H2 & H3 & H4)]; [now left|right; exists b; repeat split; auto; now right].
      * intros q [<-|Hq]; [lia|auto].
Qed.
Lemma shrink_spec v fuel : forall parents s rm, (length parents < fuel)%nat -> s = sc v parents -> NoDup parents ->
  let '(ps, s', rm') := shrink sc fuel v parents s rm in
  s' = sc v ps /\ s <= s' /\ NoDup ps /\ incl ps parents /\ (forall x, In x ps -> sc v (lremove x ps) <= s') /\
  exists r, rm' = rm ++ r /\ Permutation ps (fold_left (fun ps x => lremove x ps) r parents).
Proof.
  induction fuel as [|f IH]; intros parents s rm Hf Hs HN; [lia|]. cbn [shrink].
  pose proof (shrink_pass v parents parents parents s None (incl_refl _) (Permutation_refl _)) as Q.
  destruct (fold_left (shrink_one sc v) parents (parents, s, None)) as [[ps s'] [b|]]; destruct Q as (A & B & C & D).
  - destruct C as [[C _]|(b' & H1 & H2 & H3 & H4)]; [discriminate|]. injection H2 as <-.
    assert (HP : Permutation (lremove b ps) (lremove b parents)) by now apply lremove_Perm.
    assert (Hb : In b ps) by now rewrite A.
    specialize (IH (lremove b ps) s' (rm ++ [b])). pose proof (lremove_lt b ps Hb) as L. pose proof (Permutation_length A) as LA.
    specialize (IH ltac:(lia)). rewrite <- (Hsc v _ _ HP) in H4. specialize (IH H4).
    assert (HN1 : NoDup (lremove b ps)) by (apply lremove_NoDup; now rewrite A).
    specialize (IH HN1). destruct (shrink sc f v (lremove b ps) s' (rm ++ [b])) as [[ps2 s2] rm2]. destruct IH as (I1 & I2 & I3 & I4 & I5 & r & I6 & I7).
    split; [exact I1|]. split; [lia|]. split; [exact I3|]. split; [intros x Hx; rewrite <- A; apply (lremove_incl b), I4, Hx|]. split; [exact I5|].
    exists (b :: r). split; [rewrite I6, <- app_assoc; reflexivity|]. cbn [fold_left]. rewrite I7.
    assert (FP : forall r l l', Permutation l l' -> Permutation (fold_left (fun ps x => lremove x ps) r l) (fold_left (fun ps x => lremove x ps) r l')).
    { clear. induction r as [|x r IH]; intros l l' H; [exact H|]. cbn. apply IH, lremove_Perm, H. }
    apply FP, HP.
  - destruct C as [[_ ->]|(b' & H1 & H2 & _)]; [|discriminate]. split; [rewrite Hs; apply Hsc; now rewrite A|]. split; [lia|]. split; [now rewrite A|].
    split; [intros x Hx; now rewrite <- A|]. split; [|exists []; split; [now rewrite app_nil_r|exact A]].
    intros x Hx. rewrite (Hsc v _ (lremove x parents)) by now apply lremove_Perm. apply D. now rewrite <- A.
Qed.

(** *** A trace without a cache *)
Fixpoint pfind (prefix cs avail : list nat) : option (nat * list nat) :=
  match cs with
  | [] => None
  | c :: r => if memb c prefix then Some (c, lremove c avail) else pfind prefix r (lremove c avail)
  end.
Fixpoint ptrace (fuel v : nat) (prefix avail parents : list nat) : Z * list nat :=
  match fuel with
  | O => (0, parents)
  | S f =>
      match pfind prefix (map n_add (grow sc v (sc v parents) avail parents)) avail with
      | Some (c, avail') => ptrace f v prefix avail' (parents ++ [c])
      | None => let '(ps, s, _) := shrink sc (S (length parents)) v parents (sc v parents) [] in (s, ps)
      end
  end.

Lemma pfind_some prefix cs : forall avail c av, NoDup cs -> NoDup avail -> incl cs avail -> pfind prefix cs avail = Some (c, av) ->
  In c cs /\ In c prefix /\ NoDup av /\ (length av < length avail)%nat /\ incl av avail /\ ~ In c av /\
  (forall x, In x avail -> ~ In x av -> In x cs) /\ (forall x, In x avail -> In x prefix -> x <> c -> In x av).
Proof.
  induction cs as [|a cs IH]; intros avail c av Hc Ha HI E; cbn in E; [discriminate|]. inversion Hc as [|? ? N1 N2]; subst.
  assert (Haa : In a avail) by (apply HI; now left). destruct (memb a prefix) eqn:Em.
  - injection E as <- <-. apply memb_In in Em. split; [now left|]. split; [exact Em|]. split; [now apply lremove_NoDup|]. split; [now apply lremove_lt|].
    split; [apply lremove_incl|]. split; [rewrite lremove_In by exact Ha; tauto|]. split.
    + intros x Hx N. rewrite lremove_In in N by exact Ha. destruct (Nat.eq_dec x a) as [->|Nx]; [now left|]. destruct N. auto.
    + intros x Hx _ N. rewrite lremove_In by exact Ha. auto.
  - apply IH in E; auto; [|now apply lremove_NoDup|].
    + destruct E as (E1 & E2 & E3 & E4 & E5 & E6 & E7 & E8). split; [now right|]. split; [exact E2|]. split; [exact E3|].
      split; [pose proof (lremove_length a avail); lia|]. split; [intros x Hx; apply (lremove_incl a), E5, Hx|]. split; [exact E6|]. split.
      * intros x Hx N. destruct (Nat.eq_dec x a) as [->|Nx]; [now left|]. right. apply E7; [|exact N]. rewrite lremove_In by exact Ha. auto.
      * intros x Hx Hp N. apply E8; auto. rewrite lremove_In by exact Ha. split; [exact Hx|]. intros ->. apply memb_not_In in Em. contradiction.
    + intros x Hx. rewrite lremove_In by exact Ha. split; [apply HI; now right|]. intros ->. contradiction.
Qed.
Lemma pfind_none prefix cs : forall avail, pfind prefix cs avail = None -> forall c, In c cs -> ~ In c prefix.
Proof.
  induction cs as [|a cs IH]; intros avail E c Hc; [destruct Hc|]. cbn in E. destruct (memb a prefix) eqn:Em; [discriminate|]. apply memb_not_In in Em.
  destruct Hc as [<-|Hc]; [exact Em|eauto].
Qed.
Lemma pfind_ext prefix prefix' cs : forall avail, incl cs avail -> NoDup avail -> NoDup cs -> (forall x, In x avail -> In x prefix <-> In x prefix') -> pfind prefix cs avail = pfind prefix' cs avail.
Proof.
  induction cs as [|a cs IH]; intros avail HI HA HC H; [reflexivity|]. cbn. inversion HC as [|? ? N1 N2]; subst.
  assert (Haa : In a avail) by (apply HI; now left).
  assert (E : memb a prefix = memb a prefix').
  { destruct (memb a prefix) eqn:E1; destruct (memb a prefix') eqn:E2; auto.
    - apply memb_In in E1. apply memb_not_In in E2. apply H in E1; [contradiction|exact Haa].
    - apply memb_In in E2. apply memb_not_In in E1. apply H in E2; [contradiction|exact Haa]. }
  rewrite E. destruct (memb a prefix'); [reflexivity|]. apply IH; auto; [|now apply lremove_NoDup|].
  - intros x Hx. rewrite lremove_In by exact HA. split; [apply HI; now right|]. intros ->. contradiction.
  - intros x Hx. apply H. now apply (lremove_incl a).
Qed.
Lemma grow_incl v g avail parents : incl (map n_add (grow sc v g avail parents)) avail.
Proof. intros x Hx. now apply grow_in in Hx. Qed.

(** What a trace returns. *)
Lemma ptrace_spec fuel : forall v prefix avail parents, NoDup avail -> NoDup parents -> (forall x, In x avail -> ~ In x parents) -> (length avail < fuel)%nat ->
  let '(s, ps) := ptrace fuel v prefix avail parents in
  s = sc v ps /\ sc v parents <= s /\ NoDup ps /\ (forall x, In x ps -> In x parents \/ In x avail /\ In x prefix) /\
  forall x, In x ps -> sc v (lremove x ps) <= s.
Proof.
  induction fuel as [|f IH]; intros v prefix avail parents HA HP HD Hf; [lia|]. cbn [ptrace].
  destruct (pfind _ _ _) as [[c av]|] eqn:E.
  - apply pfind_some in E; [|now apply grow_nodup|exact HA|apply grow_incl]. destruct E as (E1 & E2 & E3 & E4 & E5 & E6 & E7 & E8).
    apply grow_in in E1. destruct E1 as [E1 E9]. specialize (IH v prefix av (parents ++ [c]) E3).
    assert (HP' : NoDup (parents ++ [c])). { eapply Permutation_NoDup; [apply Permutation_app_comm|]. cbn. constructor; [now apply HD|exact HP]. }
    assert (HD' : forall x, In x av -> ~ In x (parents ++ [c])).
    { intros x Hx Hin. apply in_app_iff in Hin. destruct Hin as [Hin|[<-|[]]]; [apply (HD x); auto|contradiction]. }
    specialize (IH HP' HD' ltac:(lia)). destruct (ptrace f v prefix av (parents ++ [c])) as [s ps]. destruct IH as (I1 & I2 & I3 & I4 & I5).
    split; [exact I1|]. split; [lia|]. split; [exact I3|]. split; [|exact I5]. intros x Hx. destruct (I4 x Hx) as [H|[H1 H2]]; [|right; auto].
    apply in_app_iff in H. destruct H as [H|[<-|[]]]; [now left|right; auto].
  - pose proof (shrink_spec v (S (length parents)) parents (sc v parents) [] ltac:(lia) eq_refl HP) as Q.
    destruct (shrink _ _ _ _ _ _) as [[ps s] rm]. destruct Q as (Q1 & Q2 & Q3 & Q4 & Q5 & _). do 3 (split; [assumption|]). split; [|exact Q5]. intros x Hx. left. now apply Q4.
Qed.
Lemma ptrace_ext fuel : forall v prefix prefix' avail parents, NoDup avail -> (forall x, In x avail -> In x prefix <-> In x prefix') ->
  ptrace fuel v prefix avail parents = ptrace fuel v prefix' avail parents.
Proof.
  induction fuel as [|f IH]; intros v prefix prefix' avail parents HA H; [reflexivity|]. cbn [ptrace].
  rewrite (pfind_ext prefix prefix') by (auto using grow_incl, grow_nodup). destruct (pfind _ _ _) as [[c av]|] eqn:E; [|reflexivity].
  apply pfind_some in E; [|now apply grow_nodup|exact HA|apply grow_incl]. destruct E as (_ & _ & E3 & _ & E5 & _). apply IH; auto.
Qed.

(** *** The cache *)
Fixpoint oks (P : list nat -> gnode -> Prop) (avail : list nat) (l : list gnode) : Prop :=
  match l with [] => True | b :: r => P (lremove (n_add b) avail) b /\ oks P (lremove (n_add b) avail) r end.
Fixpoint ok (fuel v : nat) (avail parents : list nat) (n : gnode) : Prop :=
  match fuel with
  | O => True
  | S f =>
      let '(GN a g s brs rm) := n in
      g = sc v parents /\
      match brs with
      | None => rm = None
      | Some l => map n_add l = map n_add (grow sc v g avail parents) /\ oks (fun av b => ok f v av (parents ++ [n_add b]) b) avail l
      end /\
      match rm with None => s = g | Some r => exists ps, shrink sc (S (length parents)) v parents g [] = (ps, s, r) end
  end.
Lemma new_node_ok fuel v avail parents a : ok fuel v avail parents (new_node a (sc v parents)).
Proof. destruct fuel; cbn; auto. Qed.
Lemma oks_all (P : list nat -> gnode -> Prop) l : (forall av b, In b l -> P av b) -> forall avail, oks P avail l.
Proof. induction l as [|b l IH]; intros H avail; cbn; [exact I|]. split; [apply H; now left|]. apply IH. intros av b' Hb. apply H. now right. Qed.
Lemma trace_add fuel v prefix avail parents n : n_add (fst (fst (trace sc fuel v prefix avail parents n))) = n_add n.
Proof.
  destruct fuel as [|f]; [reflexivity|]. destruct n as [a g s brs rm]. cbn [trace]. destruct (find_branch _ _ _) as [[[[pre b] post] av]|].
  - destruct (trace _ _ _ _ _ _ _) as [[? ?] ?]. reflexivity.
  - destruct rm as [r|]; [reflexivity|]. destruct (shrink _ _ _ _ _ _) as [[? ?] ?]. reflexivity.
Qed.
Lemma find_branch_some prefix (P : list nat -> gnode -> Prop) l : forall avail pre b post av, find_branch prefix l avail = Some (pre, b, post, av) ->
  l = pre ++ b :: post /\ pfind prefix (map n_add l) avail = Some (n_add b, av) /\
  (oks P avail l -> P av b /\ forall b', n_add b' = n_add b -> P av b' -> oks P avail (pre ++ b' :: post)).
Proof.
  induction l as [|x l IH]; intros avail pre b post av E; cbn in E; [discriminate|]. cbn [map pfind]. destruct (memb (n_add x) prefix).
  - injection E as <- <- <- <-. split; [reflexivity|]. split; [reflexivity|]. cbn. intros [H1 H2]. split; [exact H1|]. intros b' -> Hb. auto.
  - destruct (find_branch prefix l (lremove (n_add x) avail)) as [[[[pre' b0] post0] av0]|] eqn:E'; [|discriminate]. injection E as <- <- <- <-.
    destruct (IH _ _ _ _ _ E') as (-> & I2 & I3). split; [reflexivity|]. split; [exact I2|]. cbn. intros [H1 H2]. destruct (I3 H2) as [I4 I5]. split; [exact I4|]. intros b' Eb Hb. auto.
Qed.
Lemma find_branch_none prefix l : forall avail, find_branch prefix l avail = None -> pfind prefix (map n_add l) avail = None.
Proof.
  induction l as [|x l IH]; intros avail E; [reflexivity|]. cbn in *. destruct (memb (n_add x) prefix); [discriminate|]. apply IH.
  destruct (find_branch prefix l (lremove (n_add x) avail)) as [[[[? ?] ?] ?]|]; [discriminate|reflexivity].
Qed.
Lemma trace_ok fuel : forall v prefix avail parents n, ok fuel v avail parents n -> NoDup avail -> NoDup parents -> (forall x, In x avail -> ~ In x parents) ->
  (length avail < fuel)%nat ->
  let '(n', s, ps) := trace sc fuel v prefix avail parents n in
  ok fuel v avail parents n' /\ s = fst (ptrace fuel v prefix avail parents) /\ Permutation ps (snd (ptrace fuel v prefix avail parents)).
Proof.
  induction fuel as [|f IH]; intros v prefix avail parents [a g s brs rm] HO HA HP HD Hf; [lia|]. cbn [trace ptrace]. cbn [ok] in HO. destruct HO as (-> & HB & HR).
  set (l := match brs with None => grow sc v (sc v parents) avail parents | Some l => l end).
  assert (HL : map n_add l = map n_add (grow sc v (sc v parents) avail parents) /\ oks (fun av b => ok f v av (parents ++ [n_add b]) b) avail l).
  { destruct brs as [l'|]; [exact HB|]. split; [reflexivity|]. apply oks_all. intros av b Hb. apply grow_node in Hb. rewrite Hb at 2. apply new_node_ok. }
  destruct HL as [HL1 HL2].
  destruct (find_branch prefix l avail) as [[[[pre b] post] av]|] eqn:E.
  - destruct (find_branch_some prefix (fun av b => ok f v av (parents ++ [n_add b]) b) l avail pre b post av E) as (E1 & E2 & E3). rewrite HL1 in E2. rewrite E2.
    destruct (E3 HL2) as [E4 E5].
    apply pfind_some in E2; [|now apply grow_nodup|exact HA|apply grow_incl]. destruct E2 as (F1 & F2 & F3 & F4 & F5 & F6 & F7 & F8). apply grow_in in F1. destruct F1 as [F1 _].
    pose proof (trace_add f v prefix av (parents ++ [n_add b]) b) as TA.
    specialize (IH v prefix av (parents ++ [n_add b]) b E4 F3).
    assert (HP' : NoDup (parents ++ [n_add b])). { eapply Permutation_NoDup; [apply Permutation_app_comm|]. cbn. constructor; [now apply HD|exact HP]. }
    assert (HD' : forall x, In x av -> ~ In x (parents ++ [n_add b])).
    { intros x Hx Hin. apply in_app_iff in Hin. destruct Hin as [Hin|[<-|[]]]; [apply (HD x); auto|contradiction]. }
    specialize (IH HP' HD' ltac:(lia)). destruct (trace sc f v prefix av (parents ++ [n_add b]) b) as [[b' t] ps]. cbn [fst] in TA. destruct IH as (I1 & I2 & I3).
    split; [|split; [exact I2|exact I3]]. cbn [ok]. split; [reflexivity|]. split; [|exact HR]. split.
    + rewrite <- HL1, E1, !map_app. cbn. now rewrite TA.
    + apply E5; [exact TA|]. now rewrite TA.
  - apply find_branch_none in E. rewrite HL1 in E. rewrite E.
    pose proof (shrink_spec v (S (length parents)) parents (sc v parents) [] ltac:(lia) eq_refl HP) as Q.
    destruct rm as [r|].
    + destruct HR as [ps0 HR]. rewrite HR in *. destruct Q as (_ & _ & _ & _ & _ & r' & Q6 & Q7). cbn in Q6. subst r'.
      split; [|split; [reflexivity|now apply Permutation_sym]]. cbn [ok]. split; [reflexivity|]. split; [auto|]. now exists ps0.
    + subst s. destruct (shrink _ _ _ _ _ _) as [[ps s'] rm'] eqn:ES. split; [|split; [reflexivity|reflexivity]]. cbn [ok]. split; [reflexivity|]. split; [auto|]. now exists ps.
Qed.

(** *** The trees of all variables *)
Variable p : nat.
Definition others (v : nat) : list nat := filter (fun i => negb (Nat.eqb i v)) (seq 0 p).
Definition gok (G : gsts) : Prop := forall v, ok (S p) v (others v) [] (G v).
Definition tr (v : nat) (prefix : list nat) : Z * list nat := ptrace (S p) v prefix (others v) [].
Definition val (v : nat) (prefix : list nat) : Z := fst (tr v prefix).
Lemma others_nodup v : NoDup (others v).
Proof. apply NoDup_filter, seq_NoDup. Qed.
Lemma others_length v : (length (others v) < S p)%nat.
Proof.
  unfold others. assert (H : forall (f : nat -> bool) l, (length (filter f l) <= length l)%nat) by (induction l as [|x l IH]; cbn; [lia|destruct (f x); cbn; lia]).
  specialize (H (fun i => negb (Nat.eqb i v)) (seq 0 p)). rewrite seq_length in H. lia.
Qed.
Lemma new_gok : gok (new_gsts sc).
Proof. intros v. apply new_node_ok. Qed.
Lemma gst_trace_ok G v prefix : gok G ->
  let '(G', s, ps) := gst_trace sc p G v prefix in gok G' /\ s = val v prefix /\ Permutation ps (snd (tr v prefix)).
Proof.
  intros H. unfold gst_trace. fold (others v).
  pose proof (trace_ok (S p) v prefix (others v) [] (G v) (H v) (others_nodup v) (NoDup_nil _) (fun x _ F => F) (others_length v)) as Q.
  destruct (trace _ _ _ _ _ _ _) as [[n s] ps]. destruct Q as (Q1 & Q2 & Q3). split; [|auto]. intros w. unfold fset. destruct (Nat.eqb_spec w v) as [->|N]; auto.
Qed.
Lemma tr_spec v prefix : let '(s, ps) := tr v prefix in
  s = sc v ps /\ sc v [] <= s /\ NoDup ps /\ (forall x, In x ps -> (x < p)%nat /\ x <> v /\ In x prefix) /\ forall x, In x ps -> sc v (lremove x ps) <= s.
Proof.
  pose proof (ptrace_spec (S p) v prefix (others v) [] (others_nodup v) (NoDup_nil _) (fun x _ F => F) (others_length v)) as Q. fold (tr v prefix) in Q.
  destruct (tr v prefix) as [s ps]. destruct Q as (Q1 & Q2 & Q3 & Q4 & Q5). do 3 (split; [assumption|]). split; [|exact Q5].
  intros x Hx. destruct (Q4 x Hx) as [[]|[H1 H2]]. apply filter_In in H1. destruct H1 as [H1 H3]. apply in_seq0 in H1. apply negb_true_iff, Nat.eqb_neq in H3. auto.
Qed.
Lemma tr_ext v prefix prefix' : (forall x, In x prefix <-> In x prefix') -> tr v prefix = tr v prefix'.
Proof. intros H. apply ptrace_ext; [apply others_nodup|auto]. Qed.
Lemma val_ext v prefix prefix' : (forall x, In x prefix <-> In x prefix') -> val v prefix = val v prefix'.
Proof. intros H. unfold val. now rewrite (tr_ext v prefix prefix'). Qed.
End Tree.
