(** Proof of the text round trip. *)
From Verif Require Import Base EdgeModel EdgeProofs GraphModel GraphSpec GraphProofs NamedModel NamedProofs TextModel.
From Coq Require Import Ascii String.
Import ListNotations.
Local Open Scope Z_scope.
Local Open Scope list_scope.

(** ** Characters *)
Definition solid (s : str) : Prop := Forall (fun c => ws c = false) s.
Definition oneline (s : str) : Prop := Forall (fun c => code c <> 10%nat /\ code c <> 13%nat) s.
Lemma str_eqb_spec a b : reflect (a = b) (str_eqb a b).
Proof. unfold str_eqb. destruct (list_eq_dec ascii_dec a b); constructor; assumption. Qed.
Lemma str_eqb_refl a : str_eqb a a = true.
Proof. destruct (str_eqb_spec a a); congruence. Qed.
Lemma solid_oneline s : solid s -> oneline s.
Proof. unfold solid, oneline. apply Forall_impl. intros c H. unfold ws in H. split; intros E; rewrite E in H; discriminate H. Qed.
Lemma readlines_line l r : forall cur, oneline l -> readlines_aux cur (l ++ nl :: r) = (rev cur ++ l) :: readlines_aux [] r.
Proof.
  induction l as [|c l IH]; intros cur H; cbn [app readlines_aux].
  - change (Nat.eqb (code nl) 10) with true. cbn iota. now rewrite app_nil_r.
  - inversion H as [|? ? [H1 H2] H3]; subst. apply Nat.eqb_neq in H1, H2. rewrite H1, H2. rewrite IH by exact H3. cbn [rev]. now rewrite <- app_assoc.
Qed.
Lemma lstrip_solid c s : ws c = false -> lstrip (c :: s) = c :: s.
Proof. intros H. cbn. now rewrite H. Qed.
Lemma strip_ends a m b : solid a -> solid b -> a <> [] -> b <> [] -> strip (a ++ m ++ b) = a ++ m ++ b.
Proof.
  intros Ha Hb Na Nb. unfold strip. destruct a as [|c a]; [now elim Na|]. inversion Ha; subst. cbn [app]. rewrite lstrip_solid by assumption.
  change (c :: a ++ m ++ b) with ((c :: a) ++ m ++ b). rewrite !rev_app_distr. assert (Hb' : solid (rev b)) by (apply Forall_rev; exact Hb).
  destruct (rev b) as [|d r] eqn:E. { apply (f_equal (@rev _)) in E. rewrite rev_involutive in E. now elim Nb. }
  inversion Hb'; subst. cbn [app]. rewrite lstrip_solid by assumption. change (d :: (r ++ rev m) ++ rev (c :: a)) with (((d :: r) ++ rev m) ++ rev (c :: a)).
  rewrite <- E, <- rev_app_distr, <- rev_app_distr, rev_involutive. reflexivity.
Qed.
Lemma strip_solid s : solid s -> s <> [] -> strip s = s.
Proof.
  intros H N. destruct s as [|c s]; [now elim N|]. unfold strip. inversion H; subst. rewrite lstrip_solid by assumption. assert (Hb' : solid (rev (c :: s))) by (apply Forall_rev; exact H).
  destruct (rev (c :: s)) as [|d r] eqn:E. { apply (f_equal (@rev _)) in E. rewrite rev_involutive in E. now elim N. }
  inversion Hb'; subst. rewrite lstrip_solid by assumption. rewrite <- E. apply rev_involutive.
Qed.
Lemma words_sep w c r : forall cur, solid w -> ws c = true -> rev cur ++ w <> [] -> words_aux cur (w ++ c :: r) = (rev cur ++ w) :: words_aux [] r.
Proof.
  induction w as [|d w IH]; intros cur Hw Hc N; cbn [app words_aux].
  - rewrite Hc. rewrite app_nil_r in *. destruct cur; [now elim N|]. reflexivity.
  - inversion Hw as [|? ? H1 H2]; subst. rewrite H1. rewrite IH; [cbn [rev]; now rewrite <- app_assoc|exact H2|exact Hc|]. cbn [rev]. rewrite <- app_assoc. exact N.
Qed.
Lemma words_end w : forall cur, solid w -> rev cur ++ w <> [] -> words_aux cur w = [rev cur ++ w].
Proof.
  induction w as [|d w IH]; intros cur Hw N; cbn [words_aux].
  - rewrite app_nil_r in *. destruct cur; [now elim N|]. reflexivity.
  - inversion Hw as [|? ? H1 H2]; subst. rewrite H1. rewrite IH; [cbn [rev]; now rewrite <- app_assoc|exact H2|]. cbn [rev]. rewrite <- app_assoc. exact N.
Qed.
Lemma split_semi_sep w r : forall cur, ~ In semi w -> split_semi_aux cur (w ++ semi :: r) = (rev cur ++ w) :: split_semi_aux [] r.
Proof.
  induction w as [|d w IH]; intros cur Hw; cbn [app split_semi_aux].
  - destruct (ascii_dec semi semi); [|congruence]. now rewrite app_nil_r.
  - destruct (ascii_dec d semi) as [->|N]; [elim Hw; now left|]. rewrite IH by (intros H; apply Hw; now right). cbn [rev]. now rewrite <- app_assoc.
Qed.
Lemma split_semi_end w : forall cur, ~ In semi w -> split_semi_aux cur w = [rev cur ++ w].
Proof.
  induction w as [|d w IH]; intros cur Hw; cbn [split_semi_aux]; [now rewrite app_nil_r|].
  destruct (ascii_dec d semi) as [->|N]; [elim Hw; now left|]. rewrite IH by (intros H; apply Hw; now right). cbn [rev]. now rewrite <- app_assoc.
Qed.
Lemma digits_solid d : solid (digits d).
Proof. induction d; cbn [digits]; constructor; auto. Qed.

(** ** Names *)
Definition good_name (v : str) : Prop := v <> [] /\ solid v /\ ~ In semi v /\ v <> lit "Nodes:".
Lemma names_solid names : Forall good_name names -> solid (names_str names).
Proof.
  induction names as [|a l IH]; intros H; [constructor|]. inversion H as [|? ? (H1 & H2 & _) H3]; subst. cbn [names_str]. destruct l as [|b l]; [exact H2|]. apply Forall_app. split; [exact H2|]. constructor; [reflexivity|]. now apply IH.
Qed.
Lemma names_nonempty names : Forall good_name names -> names <> [] -> names_str names <> [].
Proof.
  intros H N. destruct names as [|a l]; [now elim N|]. inversion H as [|? ? (H1 & H2 & _) H3]; subst. cbn [names_str]. destruct l; [exact H1|]. destruct a; [now elim H1|discriminate].
Qed.
Lemma split_names names : Forall good_name names -> names <> [] -> split_semi (names_str names) = names.
Proof.
  unfold split_semi. induction names as [|a l IH]; intros H N; [now elim N|]. inversion H as [|? ? (H1 & H2 & H4 & _) H3]; subst. cbn [names_str]. destruct l as [|b l].
  - now rewrite split_semi_end.
  - rewrite split_semi_sep by exact H4. cbn [rev app]. f_equal. apply IH; [exact H3|discriminate].
Qed.
Lemma add_nodes l : forall T, NoDup (t_names T ++ l) -> List.length (t_names T) = gn (t_graph T) -> (forall i j, gm (t_graph T) i j = 0) ->
  let T' := fold_left tadd_node l T in t_names T' = t_names T ++ l /\ gn (t_graph T') = (gn (t_graph T) + List.length l)%nat /\ (forall i j, gm (t_graph T') i j = 0).
Proof.
  induction l as [|v l IH]; intros T HN HL HZ; cbn [fold_left].
  - rewrite app_nil_r, Nat.add_0_r. auto.
  - assert (Nv : existsb (str_eqb v) (t_names T) = false).
    { apply not_true_is_false. intros E. apply existsb_exists in E. destruct E as (x & Hx & Ex). destruct (str_eqb_spec v x) as [<-|]; [|discriminate]. apply NoDup_remove_2 in HN. apply HN. apply in_or_app. now left. }
    set (T1 := mkT (t_names T ++ [v]) (mkG (S (gn (t_graph T))) (pad (gn (t_graph T)) (gm (t_graph T))) (adjust_dpath (S (gn (t_graph T))) (pad (gn (t_graph T)) (gd (t_graph T))) (gn (t_graph T)) (gn (t_graph T))))).
    assert (E1 : tadd_node T v = T1) by (unfold tadd_node; rewrite Nv; reflexivity). rewrite E1. specialize (IH T1).
    replace (t_names T1) with (t_names T ++ [v]) in IH by reflexivity. replace (gn (t_graph T1)) with (S (gn (t_graph T))) in IH by reflexivity. rewrite <- app_assoc in IH. cbn [app] in IH.
    destruct IH as (I1 & I2 & I3).
    + exact HN.
    + rewrite app_length. cbn. lia.
    + intros i j. unfold T1; cbn [t_graph gm]. unfold pad. destruct (_ && _)%bool; [apply HZ|reflexivity].
    + cbn zeta. split; [exact I1|]. split; [rewrite I2; cbn [List.length]; lia|exact I3].
Qed.
Lemma index_of_nth l : NoDup l -> forall i, (i < List.length l)%nat -> index_of (nth i l []) l = Some i.
Proof.
  induction l as [|a l IH]; intros HN i Hi; [cbn in Hi; lia|]. inversion HN as [|? ? Na HN']; subst. destruct i as [|i]; cbn [nth index_of].
  - now rewrite str_eqb_refl.
  - cbn [List.length] in Hi. destruct (str_eqb_spec a (nth i l [])) as [->|N]; [elim Na; apply nth_In; lia|]. rewrite IH by (assumption || lia). reflexivity.
Qed.

(** ** Edges *)
Definition reread (i j : nat) (p1 p2 : endpoint) : res edge := res_bind (mod_endpoint (Edge i j CIRCLE CIRCLE) i p1) (fun e => mod_endpoint e j p2).
(** The marks that are printed and read back faithfully, in the orientation the code prints. *)
Definition printable (e : edge) : Prop := In (e_end1 e, e_end2 e) [(TAIL, TAIL); (TAIL, ARROW); (TAIL, CIRCLE); (ARROW, ARROW); (CIRCLE, ARROW); (CIRCLE, CIRCLE); (CIRCLE, TAIL)].
Definition edge_line (names : list str) (k : nat) (e : edge) : str := str_of_nat (S k) ++ lit ". " ++ edge_str names e.
Lemma edge_line_shape names k e : edge_line names k e =
  (str_of_nat (S k) ++ lit ".") ++ " "%char :: name_of names (e_node1 e) ++ " "%char :: [end1_str (e_end1 e); "-"%char; end2_str (e_end2 e)] ++ " "%char :: name_of names (e_node2 e).
Proof. unfold edge_line, edge_str. cbn [lit list_ascii_of_string]. rewrite <- app_assoc. reflexivity. Qed.
Section Edges.
Variable names : list str.
Hypothesis HN : NoDup names.
Hypothesis HG : Forall good_name names.
Let n := List.length names.
Lemma name_good i : (i < n)%nat -> good_name (name_of names i).
Proof. intros H. rewrite Forall_forall in HG. apply HG, nth_In. exact H. Qed.
Lemma mark_solid e : solid [end1_str (e_end1 e); "-"%char; end2_str (e_end2 e)].
Proof. destruct e as [? ? [] [] ? ?]; repeat constructor. Qed.
Lemma edge_words k e : (e_node1 e < n)%nat -> (e_node2 e < n)%nat ->
  strip (edge_line names k e) = edge_line names k e /\
  words (edge_line names k e) = [str_of_nat (S k) ++ lit "."; name_of names (e_node1 e); [end1_str (e_end1 e); "-"%char; end2_str (e_end2 e)]; name_of names (e_node2 e)].
Proof.
  intros H1 H2. destruct (name_good _ H1) as (A1 & A2 & A3 & A4). destruct (name_good _ H2) as (B1 & B2 & B3 & B4).
  assert (S0 : solid (str_of_nat (S k) ++ lit ".")) by (apply Forall_app; split; [apply digits_solid|repeat constructor]).
  assert (N0 : str_of_nat (S k) ++ lit "." <> []) by (intros E; apply app_eq_nil in E; destruct E as [_ E]; discriminate E).
  rewrite edge_line_shape. split.
  - set (m := [end1_str (e_end1 e); "-"%char; end2_str (e_end2 e)]).
    replace ((str_of_nat (S k) ++ lit ".") ++ " "%char :: name_of names (e_node1 e) ++ " "%char :: m ++ " "%char :: name_of names (e_node2 e))
      with ((str_of_nat (S k) ++ lit ".") ++ (" "%char :: name_of names (e_node1 e) ++ " "%char :: m ++ [" "%char]) ++ name_of names (e_node2 e)).
    + now apply strip_ends.
    + cbn [app]. rewrite <- !app_assoc. cbn [app]. rewrite <- !app_assoc. reflexivity.
  - assert (MS := mark_solid e). assert (MN : [end1_str (e_end1 e); "-"%char; end2_str (e_end2 e)] <> []) by discriminate.
    remember [end1_str (e_end1 e); "-"%char; end2_str (e_end2 e)] as m. unfold words. rewrite words_sep by (assumption || reflexivity). cbn [rev app]. f_equal. rewrite words_sep by (assumption || reflexivity). cbn [rev app]. f_equal.
    rewrite words_sep by (assumption || reflexivity). cbn [rev app]. f_equal.
    now rewrite words_end.
Qed.
Lemma edge_line_oneline k e : (e_node1 e < n)%nat -> (e_node2 e < n)%nat -> oneline (edge_line names k e).
Proof.
  intros H1 H2. destruct (name_good _ H1) as (A1 & A2 & _). destruct (name_good _ H2) as (B1 & B2 & _). rewrite edge_line_shape.
  assert (SP : code " "%char <> 10%nat /\ code " "%char <> 13%nat) by (split; discriminate).
  apply Forall_app. split; [apply solid_oneline, Forall_app; split; [apply digits_solid|repeat constructor]|]. constructor; [exact SP|].
  apply Forall_app. split; [now apply solid_oneline|]. constructor; [exact SP|]. apply Forall_app. split; [apply solid_oneline, mark_solid|]. constructor; [exact SP|]. now apply solid_oneline.
Qed.
Lemma read_printable k e g : (e_node1 e < n)%nat -> (e_node2 e < n)%nat -> printable e ->
  read_line (mkT names g, false) (edge_line names k e) =
  res_bind (reread (e_node1 e) (e_node2 e) (e_end1 e) (e_end2 e)) (fun e' => Ok (mkT names (add_edge g e'), false)).
Proof.
  intros H1 H2 HP. destruct (edge_words k e H1 H2) as [E1 E2]. destruct (name_good _ H1) as (A1 & A2 & A3 & A4). unfold read_line. rewrite E1, E2. cbn [nth_error].
  destruct (str_eqb_spec (name_of names (e_node1 e)) (lit "Nodes:")) as [E|_]; [now elim A4|]. rewrite andb_false_r.
  unfold last_char at 1. rewrite rev_app_distr. cbn [lit list_ascii_of_string rev app res_bind]. destruct (ascii_dec "." ".") as [_|N]; [|now elim N].
  unfold read_edge, word. cbn [nth_error res_bind first_char]. unfold last_char. cbn [rev app res_bind]. unfold lookup. cbn [t_names t_graph]. unfold name_of. rewrite !index_of_nth by assumption. cbn [res_bind].
  unfold reread. destruct HP as [E|[E|[E|[E|[E|[E|[E|[]]]]]]]]; injection E as <- <-; cbn [end1_str end2_str ep_eqb ev Z.eqb]; cbn;
    (match goal with |- context [mod_endpoint ?x ?y ?z] => destruct (mod_endpoint x y z) as [e1|]; [|reflexivity] end); cbn [res_bind];
    (match goal with |- context [mod_endpoint ?x ?y ?z] => destruct (mod_endpoint x y z) as [e2|]; reflexivity end).
Qed.

(** Reading the printed edges of a list, one after the other. *)
Definition read_add (acc : res ggraph) (e : edge) : res ggraph :=
  res_bind acc (fun g => res_bind (reread (e_node1 e) (e_node2 e) (e_end1 e) (e_end2 e)) (fun e' => Ok (add_edge g e'))).
Lemma read_add_raise es : fold_left read_add es Raise = Raise.
Proof. induction es; [reflexivity|assumption]. Qed.
Lemma read_lines_raise (f : tgraph * bool -> str -> res (tgraph * bool)) ls : fold_left (fun acc l => res_bind acc (fun s => f s l)) ls Raise = Raise.
Proof. induction ls; [reflexivity|assumption]. Qed.
Lemma edges_lines es : forall k, Forall (fun e => e_node1 e < n /\ e_node2 e < n)%nat es ->
  exists ls, readlines_aux [] (edges_str names k es) = ls /\
  (Forall printable es -> forall g, fold_left (fun acc l => res_bind acc (fun s => read_line s l)) ls (Ok (mkT names g, false)) =
     res_bind (fold_left read_add es (Ok g)) (fun g' => Ok (mkT names g', false))).
Proof.
  induction es as [|e es IH]; intros k HB; [exists []; split; [reflexivity|intros _ g; reflexivity]|]. inversion HB as [|? ? [B1 B2] HB']; subst. destruct (IH (S k) HB') as (ls & E & Hls).
  exists (edge_line names k e :: ls). split.
  - cbn [edges_str]. replace (str_of_nat (S k) ++ lit ". " ++ edge_str names e ++ nl :: edges_str names (S k) es) with (edge_line names k e ++ nl :: edges_str names (S k) es) by (unfold edge_line; now rewrite <- !app_assoc).
    rewrite readlines_line by now apply edge_line_oneline. cbn [rev app]. now rewrite E.
  - intros HP g. inversion HP; subst. cbn [fold_left res_bind]. rewrite read_printable by assumption. unfold read_add at 2. cbn [res_bind].
    destruct (reread _ _ _ _) as [e'|]; cbn [res_bind]; [apply Hls; assumption|]. rewrite read_add_raise, read_lines_raise. reflexivity.
Qed.
End Edges.

(** ** Rebuilding the matrix *)
Lemma reread_forms i j : i <> j ->
  (exists a b, reread i j TAIL TAIL = Ok (mkE i j TAIL TAIL a b)) /\ (exists a b, reread i j TAIL ARROW = Ok (mkE i j TAIL ARROW a b)) /\ (exists a b, reread i j TAIL CIRCLE = Ok (mkE i j TAIL CIRCLE a b)) /\
  (exists a b, reread i j ARROW ARROW = Ok (mkE j i ARROW ARROW a b)) /\ (exists a b, reread i j CIRCLE ARROW = Ok (mkE i j CIRCLE ARROW a b)) /\ (exists a b, reread i j CIRCLE CIRCLE = Ok (mkE i j CIRCLE CIRCLE a b)) /\
  (exists a b, reread i j CIRCLE TAIL = Ok (mkE i j CIRCLE TAIL a b)).
Proof.
  intros N. unfold reread, mod_endpoint. assert (E1 : Nat.eqb i j = false) by now apply Nat.eqb_neq. assert (E2 : Nat.eqb j i = false) by (apply Nat.eqb_neq; auto).
  repeat split; cbn; rewrite Nat.eqb_refl; cbn; rewrite ?Nat.eqb_refl, ?E1, ?E2; cbn; rewrite ?Nat.eqb_refl; cbn; eexists _, _; reflexivity.
Qed.
(** Everything of [g] on the pair (i, j) is now in h', and h' agrees with h elsewhere; a pair i o-- j is dropped. *)
Definition dropped (x y : Z) : bool := (x =? 2) && (y =? -1).
Definition put (g h h' : ggraph) (i j : nat) : Prop :=
  gn h' = gn h /\ (if dropped (gm g i j) (gm g j i) then gm h' i j = 0 /\ gm h' j i = 0 else gm h' i j = gm g i j /\ gm h' j i = gm g j i) /\
  forall a b, ~ (a = i /\ b = j) -> ~ (a = j /\ b = i) -> gm h' a b = gm h a b.
Lemma pair_read g h i j : i <> j -> legal_pair (gm g i j) (gm g j i) -> gm h i j = 0 -> gm h j i = 0 ->
  Forall (fun e => printable e /\ ((e_node1 e = i /\ e_node2 e = j) \/ (e_node1 e = j /\ e_node2 e = i))) (pair_edges g i j) /\
  exists h', fold_left read_add (pair_edges g i j) (Ok h) = Ok h' /\ put g h h' i j.
Proof.
  intros N L Z1 Z2. destruct (reread_forms i j N) as ((a1 & b1 & F1) & (a2 & b2 & F2) & (a3 & b3 & F3) & (a4 & b4 & F4) & (a5 & b5 & F5) & (a6 & b6 & F6) & (a7 & b7 & F7)).
  destruct (reread_forms j i (not_eq_sym N)) as ((c1 & d1 & G1) & (c2 & d2 & G2) & (c3 & d3 & G3) & (c4 & d4 & G4) & (c5 & d5 & G5) & (c6 & d6 & G6) & (c7 & d7 & G7)).
  assert (IJ : forall m x y, upd2 m i j x y i j = y /\ upd2 m i j x y j i = x /\ upd2 m j i x y i j = x /\ upd2 m j i x y j i = y)
    by (intros; rewrite !upd2_ij; rewrite !upd2_ji by congruence; auto).
  assert (OT : forall m x y a b, ~ (a = i /\ b = j) -> ~ (a = j /\ b = i) -> upd2 m i j x y a b = m a b /\ upd2 m j i x y a b = m a b)
    by (intros; rewrite !upd2_other by tauto; auto).
  unfold put. unfold pair_edges, get_edge. revert L. generalize (gm g i j) (gm g j i). intros x y L. pair_cases L; subst; cbn.
  all: split; [repeat (apply Forall_cons; [split; [unfold printable; cbn; tauto|cbn; tauto]|]); apply Forall_nil|].
  all: try (exists h; split; [reflexivity|]; auto; fail).
  all: unfold read_add; cbn [e_node1 e_node2 e_end1 e_end2 res_bind]; rewrite ?F1, ?F2, ?F3, ?F4, ?F5, ?F6, ?F7, ?G1, ?G2, ?G3, ?G4, ?G5, ?G6, ?G7; cbn [res_bind];
    unfold add_edge, add_edge_full; cbn [e_node1 e_node2 e_end1 e_end2]; rewrite Z1, Z2; cbn.
  all: try (eexists; split; [reflexivity|]; cbn [set_gm gn gm]; split; [reflexivity|]; split;
    [rewrite ?upd2_ij; rewrite ?upd2_ji by congruence; auto|intros a b Ha Hb; apply OT; assumption]; fail).
  all: repeat (rewrite upd2_ij || (rewrite upd2_ji by congruence)); cbn [Z.eqb Pos.eqb negb andb orb fst].
  all: try (exists h; split; [reflexivity|]; auto; fail).
  all: rewrite upd_other by (left; congruence); repeat (rewrite upd2_ij || (rewrite upd2_ji by congruence)); cbn [Z.eqb Pos.eqb negb andb orb fst].
  all: eexists; split; [reflexivity|]; cbn [set_gm gn gm]; split; [reflexivity|]; split; [split; rewrite ?upd_same; try reflexivity; rewrite upd_other by (left; congruence); rewrite ?upd_same; reflexivity|].
  all: intros a b Ha Hb; rewrite upd_other, upd_other by lia; apply OT; assumption.
Qed.

(** The part of the graph that is rebuilt after the pairs in [ps]. *)
Definition rebuilt (g h : ggraph) (ps : list (nat * nat)) : Prop :=
  forall i j, (i < j)%nat -> (j < gn g)%nat -> (In (i, j) ps -> if dropped (gm g i j) (gm g j i) then gm h i j = 0 /\ gm h j i = 0 else gm h i j = gm g i j /\ gm h j i = gm g j i) /\
    (~ In (i, j) ps -> gm h i j = 0 /\ gm h j i = 0).
Lemma pairs_read g ps : wf g -> NoDup ps -> (forall i j, In (i, j) ps -> (i < j)%nat /\ (j < gn g)%nat) -> forall qs h, (forall p, In p qs -> ~ In p ps) -> rebuilt g h qs -> (forall i, gm h i i = 0) ->
  let es := flat_map (fun p => pair_edges g (fst p) (snd p)) ps in
  Forall (fun e => printable e /\ (e_node1 e < gn g)%nat /\ (e_node2 e < gn g)%nat) es /\
  exists h', fold_left read_add es (Ok h) = Ok h' /\ gn h' = gn h /\ rebuilt g h' (qs ++ ps) /\ (forall i, gm h' i i = 0).
Proof.
  intros HW. induction ps as [|[i j] ps IH]; intros HN HB qs h HQ HR HD; cbn [flat_map].
  - split; [constructor|]. exists h. rewrite app_nil_r. auto.
  - destruct (HB i j (or_introl eq_refl)) as [Hij Hj]. inversion HN as [|? ? Ni HN']; subst.
    destruct (HR i j Hij Hj) as [_ R0]. destruct R0 as [R1 R2]. { intros H. apply (HQ _ H). now left. }
    assert (L : legal_pair (gm g i j) (gm g j i)) by (apply HW; lia).
    destruct (pair_read g h i j ltac:(lia) L R1 R2) as (P1 & h1 & P2 & P3 & P4 & P5). cbn [fst snd].
    destruct (IH HN' ltac:(intros a b H; apply HB; now right) (qs ++ [(i, j)]) h1) as (Q1 & h2 & Q2 & Q3 & Q4 & Q5).
    + intros p Hp Hp'. apply in_app_or in Hp. destruct Hp as [Hp|[<-|[]]]; [apply (HQ p Hp); now right|contradiction].
    + intros a b Hab Hb. destruct (Nat.eq_dec a i) as [Ea|Na]; [destruct (Nat.eq_dec b j) as [Eb|Nb]|].
      * subst. split; [intros _; exact P4|]. intros H. elim H. apply in_or_app. right. now left.
      * rewrite !P5 by lia. destruct (HR a b Hab Hb) as [A1 A2]. split; intros H; [apply A1|apply A2]; rewrite in_app_iff in *; [destruct H as [H|[H|[]]]; [exact H|congruence]|tauto].
      * rewrite !P5 by lia. destruct (HR a b Hab Hb) as [A1 A2]. split; intros H; [apply A1|apply A2]; rewrite in_app_iff in *; [destruct H as [H|[H|[]]]; [exact H|congruence]|tauto].
    + intros a. rewrite P5 by lia. apply HD.
    + split.
      * apply Forall_app. split; [|exact Q1]. eapply Forall_impl; [|exact P1]. cbn. intros e [He [[-> ->]|[-> ->]]]; split; auto; lia.
      * exists h2. rewrite fold_left_app, P2. split; [exact Q2|]. split; [congruence|]. rewrite <- app_assoc in Q4. split; [exact Q4|exact Q5].
Qed.
Definition all_pairs (n : nat) : list (nat * nat) := flat_map (fun i => map (fun j => (i, j)) (seq (S i) (n - S i))) (seq 0 n).
Lemma in_all_pairs n i j : In (i, j) (all_pairs n) <-> (i < j)%nat /\ (j < n)%nat.
Proof.
  unfold all_pairs. rewrite in_flat_map. split.
  - intros (a & Ha & H). apply in_map_iff in H. destruct H as (b & E & Hb). injection E as <- <-. apply in_seq in Hb. apply in_seq in Ha. lia.
  - intros H. exists i. split; [apply in_seq; lia|]. apply in_map_iff. exists j. split; [reflexivity|]. apply in_seq. lia.
Qed.
Lemma all_pairs_NoDup n : NoDup (all_pairs n).
Proof.
  unfold all_pairs. assert (G : forall l, NoDup l -> NoDup (flat_map (fun i => map (fun j => (i, j)) (seq (S i) (n - S i))) l)).
  { induction l as [|a l IH]; intros H; [constructor|]. inversion H; subst. cbn [flat_map].
    assert (NA : forall (l1 l2 : list (nat * nat)), NoDup l1 -> NoDup l2 -> (forall x, In x l1 -> ~ In x l2) -> NoDup (l1 ++ l2)).
    { induction l1 as [|x l1 IH1]; intros l2 H1 H2' H3'; [exact H2'|]. inversion H1; subst. cbn. constructor; [rewrite in_app_iff; intros [C|C]; [contradiction|apply (H3' x); [now left|exact C]]|]. apply IH1; auto. intros y Hy. apply H3'. now right. }
    apply NA; [|now apply IH|].
    - apply FinFun.Injective_map_NoDup; [intros x y E; congruence|apply seq_NoDup].
    - intros [x y] H1 H2'. apply in_map_iff in H1. destruct H1 as (? & E & _). injection E as <- <-. apply in_flat_map in H2'. destruct H2' as (c & Hc & H2'). apply in_map_iff in H2'. destruct H2' as (? & E & _). injection E as <- <-. contradiction. }
  apply G, seq_NoDup.
Qed.
Lemma graph_edges_pairs g : get_graph_edges g = flat_map (fun p => pair_edges g (fst p) (snd p)) (all_pairs (gn g)).
Proof.
  unfold get_graph_edges, all_pairs. induction (seq 0 (gn g)) as [|a l IH]; [reflexivity|]. cbn [flat_map]. rewrite flat_map_app, IH. f_equal.
  induction (seq (S a) (gn g - S a)) as [|b m IHm]; [reflexivity|]. cbn [flat_map map]. now rewrite IHm.
Qed.

(** What comes back, for every graph with at least one node and good names: all of it but the pairs i o-- j with i listed before j. *)
Theorem read_write T : Forall good_name (t_names T) -> NoDup (t_names T) -> t_names T <> [] -> List.length (t_names T) = gn (t_graph T) -> wf (t_graph T) ->
  exists T', txt2generalgraph (graph_string T) = Ok T' /\ t_names T' = t_names T /\ gn (t_graph T') = gn (t_graph T) /\ (forall i, gm (t_graph T') i i = 0) /\
    forall i j, (i < j)%nat -> (j < gn (t_graph T))%nat -> if dropped (gm (t_graph T) i j) (gm (t_graph T) j i) then gm (t_graph T') i j = 0 /\ gm (t_graph T') j i = 0
      else gm (t_graph T') i j = gm (t_graph T) i j /\ gm (t_graph T') j i = gm (t_graph T) j i.
Proof.
  intros HG HN NE HL HW. destruct T as [names g]. cbn [t_names t_graph] in *. unfold txt2generalgraph, graph_string, readlines. cbn [t_names t_graph].
  assert (O1 : oneline (lit "Graph Nodes:")) by (unfold oneline; cbn; repeat constructor; discriminate). assert (O2 : oneline (lit "Graph Edges:")) by (unfold oneline; cbn; repeat constructor; discriminate).
  assert (NS := names_solid names HG). assert (NN := names_nonempty names HG NE).
  rewrite readlines_line by exact O1. rewrite readlines_line by now apply solid_oneline. pose proof (readlines_line [] (lit "Graph Edges:" ++ nl :: edges_str names 0 (get_graph_edges g)) [] (Forall_nil _)) as RL. cbn [app rev] in RL. rewrite RL. clear RL.
  rewrite readlines_line by exact O2. cbn [rev app].
  destruct (add_nodes names (mkT [] (empty_graph 0))) as (A1 & A2 & A3); [exact HN|reflexivity|reflexivity|]. cbn [t_names t_graph app] in A1, A2.
  set (T0 := fold_left tadd_node names (mkT [] (empty_graph 0))) in *.
  assert (E2 : read_line (mkT [] (empty_graph 0), true) (names_str names) = Ok (T0, false)).
  { unfold read_line. rewrite strip_solid by assumption. unfold words. rewrite words_end by assumption. cbn [rev app nth_error]. rewrite split_names by assumption. destruct (names_str names); [now elim NN|]. reflexivity. }
  assert (HP : forall i j, In (i, j) (all_pairs (gn g)) -> (i < j)%nat /\ (j < gn g)%nat) by (intros i j; apply in_all_pairs).
  destruct (pairs_read g (all_pairs (gn g)) HW (all_pairs_NoDup _) HP [] (t_graph T0)) as (P1 & h' & P2 & P3 & P4 & P5).
  - intros p [].
  - intros i j _ _. split; [intros []|]. intros _. split; apply A3.
  - intros i. apply A3.
  - rewrite <- graph_edges_pairs in P1, P2. cbn zeta in P1, P2. assert (P1' : Forall printable (get_graph_edges g)) by (eapply Forall_impl; [|exact P1]; cbn; tauto).
    destruct (edges_lines names HN HG (get_graph_edges g) 0) as (ls & E & Hls). { eapply Forall_impl; [|exact P1]. cbn. rewrite HL. tauto. }
    rewrite E. cbn [fold_left]. change (res_bind (Ok (mkT [] (empty_graph 0), false)) (fun s => read_line s (lit "Graph Nodes:"))) with (Ok (mkT [] (empty_graph 0), true)).
    cbn [res_bind]. rewrite E2. cbn [res_bind]. change (read_line (T0, false) []) with (Ok (T0, false)). cbn [res_bind]. change (read_line (T0, false) (lit "Graph Edges:")) with (Ok (T0, false)).
    assert (ET : T0 = mkT names (t_graph T0)) by (rewrite <- A1 at 1; destruct T0; reflexivity). rewrite ET. rewrite Hls by exact P1'. rewrite P2. cbn [res_bind fst].
    exists (mkT names h'). cbn [t_names t_graph]. split; [reflexivity|]. split; [reflexivity|]. split; [rewrite P3, A2; cbn; lia|]. split; [exact P5|].
    intros i j Hi Hj. apply (P4 i j Hi Hj). now apply in_all_pairs.
Qed.
