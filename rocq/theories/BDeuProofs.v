(** The BDeu score is a difference of a set function at the family and at the parents, so it is score equivalent. *)
From Verif Require Import Base EdgeModel GraphModel GraphSpec GraphProofs UtilsModel UtilsProofs DsepSpec MeekSpec MeekProofs CpdagSpec CpdagProps
  ExactSpec GESSpec GESTheory GESMain GESProps ScoreEqProofs BDeuModel FinderProps.
From Coq Require Import Permutation.
Local Open Scope Z_scope.

Definition zsum (l : list Z) : Z := fold_right Z.add 0 l.
Lemma zsum_app l m : zsum (l ++ m) = zsum l + zsum m.
Proof. unfold zsum. induction l as [|a l IH]; cbn [app fold_right]; lia. Qed.
Lemma fold_left_zsum {A} (f : A -> Z) l : forall a, fold_left (fun s x => s + f x) l a = a + zsum (map f l).
Proof. induction l as [|x l IH]; intros a; cbn [fold_left map]; [cbn; lia|]. rewrite IH. unfold zsum. cbn [fold_right]. lia. Qed.
Lemma zsum_perm l m : Permutation l m -> zsum l = zsum m.
Proof. apply sum_perm. Qed.
Lemma zsum_map_add {A} (f g : A -> Z) l : zsum (map (fun x => f x + g x) l) = zsum (map f l) + zsum (map g l).
Proof. apply sum_add. Qed.

(* ---------- sums over the classes of a list ---------- *)
Section Classes.
Context {R X Y : Type} (dX : forall a b : X, {a = b} + {a <> b}) (dY : forall a b : Y, {a = b} + {a <> b}).
Fixpoint reps (f : R -> X) (l : list R) : list R :=
  match l with [] => [] | r :: l' => if in_dec dX (f r) (map f l') then reps f l' else r :: reps f l' end.
Lemma reps_nodup f l : nodup dX (map f l) = map f (reps f l).
Proof. induction l as [|r l IH]; [reflexivity|]. cbn [map nodup reps]. destruct (in_dec dX (f r) (map f l)); cbn [map]; now rewrite IH. Qed.
End Classes.
Definition cls {R X} (dX : forall a b : X, {a = b} + {a <> b}) (f : R -> X) (l : list R) (x : X) : nat :=
  length (filter (fun r => if dX (f r) x then true else false) l).

Lemma reps_in {R X} (dX : forall a b : X, {a = b} + {a <> b}) (f : R -> X) l r : In r (reps dX f l) -> In r l.
Proof.
  induction l as [|a l IH]; [intros []|]. cbn [reps]. destruct (in_dec dX (f a) (map f l)); intros H; [right; auto|].
  destruct H as [<-|H]; [now left|right; auto].
Qed.
Lemma reps_same {R X Y} (dX : forall a b : X, {a = b} + {a <> b}) (dY : forall a b : Y, {a = b} + {a <> b}) (f : R -> X) (g : R -> Y) l :
  (forall r r', In r l -> In r' l -> (f r = f r' <-> g r = g r')) -> reps dX f l = reps dY g l.
Proof.
  induction l as [|a l IH]; intros H; [reflexivity|]. cbn [reps]. rewrite IH by (intros; apply H; now right).
  destruct (in_dec dX (f a) (map f l)) as [i|i], (in_dec dY (g a) (map g l)) as [j|j]; auto; exfalso.
  - apply j. apply in_map_iff in i. destruct i as (b & E & Hb). apply in_map_iff. exists b. split; [|exact Hb].
    apply (H b a); [now right|now left|exact E].
  - apply i. apply in_map_iff in j. destruct j as (b & E & Hb). apply in_map_iff. exists b. split; [|exact Hb].
    apply (H b a); [now right|now left|exact E].
Qed.
(** A sum over the classes depends only on the partition. *)
Lemma class_sum_same {R X Y} (dX : forall a b : X, {a = b} + {a <> b}) (dY : forall a b : Y, {a = b} + {a <> b}) (f : R -> X) (g : R -> Y) (F : nat -> Z) l :
  (forall r r', In r l -> In r' l -> (f r = f r' <-> g r = g r')) ->
  zsum (map (fun x => F (cls dX f l x)) (nodup dX (map f l))) = zsum (map (fun y => F (cls dY g l y)) (nodup dY (map g l))).
Proof.
  intros H. rewrite !reps_nodup, !map_map. rewrite (reps_same dX dY f g l H). f_equal. apply map_ext_in. intros r Hr.
  apply reps_in in Hr. f_equal. unfold cls. f_equal. apply filter_ext_in. intros r' Hr'. specialize (H r' r Hr' Hr).
  destruct (dX (f r') (f r)), (dY (g r') (g r)); auto; tauto.
Qed.
(** Grouping by one key and then by another is grouping by the pair. *)
Lemma class_sum_nested {R X Y} (dX : forall a b : X, {a = b} + {a <> b}) (dY : forall a b : Y, {a = b} + {a <> b})
    (dXY : forall a b : X * Y, {a = b} + {a <> b}) (f : R -> X) (g : R -> Y) (F : nat -> Z) l :
  zsum (map (fun x => let h := filter (fun r => if dX (f r) x then true else false) l in
                      zsum (map (fun y => F (cls dY g h y)) (nodup dY (map g h)))) (nodup dX (map f l))) =
  zsum (map (fun xy => F (cls dXY (fun r => (f r, g r)) l xy)) (nodup dXY (map (fun r => (f r, g r)) l))).
Proof.
  set (part := fun x => filter (fun r => if dX (f r) x then true else false) l).
  transitivity (zsum (map (fun xy => F (cls dXY (fun r => (f r, g r)) l xy)) (flat_map (fun x => map (pair x) (nodup dY (map g (part x)))) (nodup dX (map f l))))).
  - induction (nodup dX (map f l)) as [|x xs IH]; [reflexivity|]. cbn [map flat_map]. rewrite map_app, zsum_app.
    transitivity (zsum (map (fun y => F (cls dY g (part x) y)) (nodup dY (map g (part x)))) + zsum (map (fun x => zsum (map (fun y => F (cls dY g (part x) y)) (nodup dY (map g (part x))))) xs)); [reflexivity|].
    f_equal; [|exact IH]. rewrite map_map. f_equal. apply map_ext. intros y. f_equal. unfold cls, part. clear.
    induction l as [|r l IH]; [reflexivity|]. cbn [filter]. destruct (dX (f r) x) as [e|e]; cbn [filter].
    + destruct (dY (g r) y) as [e'|e'], (dXY (f r, g r) (x, y)) as [e''|e'']; cbn [length]; try congruence.
    + destruct (dXY (f r, g r) (x, y)) as [e''|e'']; [congruence|exact IH].
  - apply zsum_perm. apply Permutation_map. apply NoDup_Permutation; [| apply NoDup_nodup|].
    + assert (Q : forall xs, NoDup xs -> NoDup (flat_map (fun x => map (pair x) (nodup dY (map g (part x)))) xs)).
      { induction xs as [|x xs IH]; intros Hx; [constructor|]. apply NoDup_cons_iff in Hx. destruct Hx as [H1 H2]. cbn [flat_map].
        apply NoDup_join; [|now apply IH|].
        - apply NoDup_map_on; [apply NoDup_nodup|]. intros a b _ _ E. congruence.
        - intros [a b] H3 H4. apply in_map_iff in H3. destruct H3 as (y & E & _). apply in_flat_map in H4. destruct H4 as (x' & Hx' & H4).
          apply in_map_iff in H4. destruct H4 as (y' & E' & _). assert (x = x') by congruence. subst x'. contradiction. }
      apply Q, NoDup_nodup.
    + intros [a b]. rewrite nodup_In, in_flat_map, in_map_iff. split.
      * intros (x & Hx & H). apply in_map_iff in H. destruct H as (y & E & Hy). rewrite nodup_In, in_map_iff in Hy. destruct Hy as (r & E2 & Hr).
        unfold part in Hr. apply filter_In in Hr. destruct Hr as [Hr E3]. destruct (dX (f r) x) as [e|e]; [|discriminate]. exists r. split; [congruence|exact Hr].
      * intros (r & E & Hr). exists a. rewrite nodup_In, in_map_iff. split; [exists r; split; [congruence|exact Hr]|].
        apply in_map_iff. exists b. split; [reflexivity|]. rewrite nodup_In, in_map_iff. exists r. split; [congruence|].
        unfold part. apply filter_In. split; [exact Hr|]. destruct (dX (f r) a) as [e|e]; [reflexivity|]. congruence.
Qed.

(* ---------- the set function ---------- *)
Section BDeu.
Variables (lg : nat -> nat -> Z) (la lb : Z) (r : nat -> nat) (rows : list (list nat)).

Definition hset (P : list nat) : Z :=
  match P with [] => lg (length rows) 1 - lg 0%nat 1
  | _ => zsum (map (fun c => lg (cls cfg_dec (config P) rows c) (q_of r P) - lg 0%nat (q_of r P)) (nodup cfg_dec (map (config P) rows))) end.

Lemma q_perm P P' : Permutation P P' -> q_of r P = q_of r P'.
Proof.
  unfold q_of. intros H. generalize 1%nat. induction H; intros a; cbn [fold_left]; auto.
  - f_equal. nia.
  - now rewrite IHPermutation1.
Qed.
Lemma q_cons i P : q_of r (i :: P) = (r i * q_of r P)%nat.
Proof.
  assert (K : forall l a, fold_left (fun q p => (q * r p)%nat) l a = (a * fold_left (fun q p => (q * r p)%nat) l 1)%nat).
  { induction l as [|x l IH]; intros a; cbn [fold_left]; [lia|]. rewrite IH, (IH (1 * r x)%nat). nia. }
  unfold q_of. cbn [fold_left]. rewrite K. lia.
Qed.
Lemma config_perm P P' row row' : Permutation P P' -> config P row = config P row' -> config P' row = config P' row'.
Proof.
  intros H E. unfold config in *. apply map_ext_in. intros c Hc. apply (Permutation_in _ (Permutation_sym H)) in Hc.
  clear H P'. induction P as [|p P IH]; [destruct Hc|]. cbn [map] in E. injection E as E1 E2. destruct Hc as [<-|Hc]; auto.
Qed.
Lemma hset_perm P P' : Permutation P P' -> hset P = hset P'.
Proof.
  intros H. destruct P as [|p P]; [apply Permutation_nil in H; now subst|]. destruct P' as [|p' P']; [apply Permutation_sym, Permutation_nil in H; discriminate|].
  unfold hset. rewrite (q_perm _ _ H).
  apply (class_sum_same cfg_dec cfg_dec (config (p :: P)) (config (p' :: P')) (fun m => lg m (q_of r (p' :: P')) - lg 0%nat (q_of r (p' :: P')))).
  intros x y _ _. split; apply config_perm; [exact H|now apply Permutation_sym].
Qed.

Lemma count_config1 i g k : length (filter (fun row => Nat.eqb (nth i row 0%nat) k) g) = cls Nat.eq_dec (fun row : list nat => nth i row 0%nat) g k.
Proof. unfold cls. f_equal. apply filter_ext. intros row. destruct (Nat.eqb_spec (nth i row 0%nat) k), (Nat.eq_dec (nth i row 0%nat) k); auto; contradiction. Qed.
Definition pdec : forall a b : list nat * nat, {a = b} + {a <> b}.
Proof. decide equality; [apply Nat.eq_dec|apply cfg_dec]. Defined.

Lemma bdeu_set_function i P :
  local_score_BDeu lg la lb r rows i P =
  - (Z.of_nat (length P) * la + (Z.of_nat (length rows) - 1 - Z.of_nat (length P)) * lb) - (hset (i :: P) - hset P).
Proof.
  unfold local_score_BDeu. cbv zeta. rewrite fold_left_zsum.
  assert (E : zsum (map (fun ij => bdeu_group lg (r i) (q_of r P) i (group rows P ij)) (group_keys rows P)) = hset (i :: P) - hset P); [|lia].
  set (Fi := fun m => lg m (r i * q_of r P)%nat - lg 0%nat (r i * q_of r P)%nat).
  assert (G : forall g, bdeu_group lg (r i) (q_of r P) i g = - (lg (length g) (q_of r P) - lg 0%nat (q_of r P)) +
     zsum (map (fun k => Fi (cls Nat.eq_dec (fun row => nth i row 0%nat) g k)) (nodup Nat.eq_dec (map (fun row => nth i row 0%nat) g)))).
  { intros g. unfold bdeu_group. cbv zeta. rewrite fold_left_zsum. unfold Fi.
    rewrite (map_ext (fun k => lg (length (filter (fun row => Nat.eqb (nth i row 0%nat) k) g)) (r i * q_of r P)%nat - lg 0%nat (r i * q_of r P)%nat)
      (fun k => lg (cls Nat.eq_dec (fun row => nth i row 0%nat) g k) (r i * q_of r P)%nat - lg 0%nat (r i * q_of r P)%nat)) by (intros k; now rewrite count_config1).
    lia. }
  assert (GE : forall ij, group rows P ij = filter (fun row => if cfg_dec (config P row) ij then true else false) rows) by reflexivity.
  destruct P as [|p P].
  - cbn [group_keys map]. unfold zsum at 1. cbn [fold_right]. rewrite G.
    assert (E0 : group rows [] [] = rows).
    { rewrite GE. clear. induction rows as [|x l IH]; [reflexivity|]. cbn [filter]. change (config [] x) with (@nil nat).
      destruct (cfg_dec [] []) as [_|N]; [now rewrite IH|congruence]. }
    rewrite E0. unfold hset at 2. change (q_of r []) with 1%nat in *.
    assert (E1 : hset [i] = zsum (map (fun k => Fi (cls Nat.eq_dec (fun row => nth i row 0%nat) rows k)) (nodup Nat.eq_dec (map (fun row => nth i row 0%nat) rows)))).
    { unfold hset. rewrite q_cons. change (q_of r []) with 1%nat.
      apply (class_sum_same cfg_dec Nat.eq_dec (config [i]) (fun row => nth i row 0%nat) Fi). intros x y _ _. unfold config. cbn [map].
      split; [intros Q; now injection Q|congruence]. }
    rewrite E1. lia.
  - cbn [group_keys]. rewrite (map_ext _ _ (fun ij => G (group rows (p :: P) ij))). rewrite zsum_map_add.
    replace (zsum (map (fun ij => - (lg (length (group rows (p :: P) ij)) (q_of r (p :: P)) - lg 0%nat (q_of r (p :: P)))) (nodup cfg_dec (map (config (p :: P)) rows)))) with (- hset (p :: P)).
    2: { unfold hset. induction (nodup cfg_dec (map (config (p :: P)) rows)) as [|x l IH]; [reflexivity|]. cbn [map]. unfold zsum in *. cbn [fold_right].
         rewrite <- IH. unfold cls. rewrite GE. lia. }
    enough (hset (i :: p :: P) = zsum (map (fun ij => zsum (map (fun k => Fi (cls Nat.eq_dec (fun row => nth i row 0%nat) (group rows (p :: P) ij) k))
       (nodup Nat.eq_dec (map (fun row => nth i row 0%nat) (group rows (p :: P) ij))))) (nodup cfg_dec (map (config (p :: P)) rows)))) by lia.
    change (hset (i :: p :: P)) with (zsum (map (fun c => lg (cls cfg_dec (config (i :: p :: P)) rows c) (q_of r (i :: p :: P)) - lg 0%nat (q_of r (i :: p :: P))) (nodup cfg_dec (map (config (i :: p :: P)) rows)))).
    rewrite q_cons.
    pose proof (class_sum_nested cfg_dec Nat.eq_dec pdec (config (p :: P)) (fun row : list nat => nth i row 0%nat) Fi rows) as N.
    transitivity (zsum (map (fun xy => Fi (cls pdec (fun row => (config (p :: P) row, nth i row 0%nat)) rows xy)) (nodup pdec (map (fun row => (config (p :: P) row, nth i row 0%nat)) rows)))); [|rewrite <- N; reflexivity].
    apply (class_sum_same cfg_dec pdec (config (i :: p :: P)) (fun row => (config (p :: P) row, nth i row 0%nat)) Fi).
    intros x y _ _. change (config (i :: p :: P) x) with (nth i x 0%nat :: config (p :: P) x). change (config (i :: p :: P) y) with (nth i y 0%nat :: config (p :: P) y).
    split; intros Q; inversion Q; congruence.
Qed.
End BDeu.
