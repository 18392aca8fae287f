(** The registry of tests and their options. *)
From Verif Require Import Base CITModel.
From Coq Require Import String.
Local Open Scope string_scope.

Definition builtins := ["fisherz"; "mv_fisherz"; "mc_fisherz"; "kci"; "rcit"; "fastkci"; "chisq"; "gsq"; "d_separation"].
(** ** C226: the registry *)
(** The class last registered under the name is used, even if the name is that of a built-in test. *)
Fixpoint last_registered (calls : list (string * (nat * bool))) (name : string) : option nat :=
  match calls with
  | [] => None
  | (n, (c, ok)) :: r => match last_registered r name with Some d => Some d | None => if ok && String.eqb n name then Some c else None end
  end.
Definition register_all (calls : list (string * (nat * bool))) : registry := fold_left (fun reg c => fst (register reg (fst c) (snd c))) calls [].
Lemma lookup_cons {A} k n (v : A) l : lookup k ((n, v) :: l) = if String.eqb n k then Some v else lookup k l.
Proof. unfold lookup. cbn [find fst]. destruct (String.eqb n k); reflexivity. Qed.
Lemma register_lookup calls name : forall reg, lookup name (fold_left (fun reg c => fst (register reg (fst c) (snd c))) calls reg) = match last_registered calls name with Some d => Some d | None => lookup name reg end.
Proof.
  induction calls as [|[n [c ok]] calls IH]; intros reg; [reflexivity|]. cbn [fold_left fst snd last_registered]. rewrite IH. destruct (last_registered calls name) as [d|]; [reflexivity|]. unfold register. cbn [fst snd]. destruct ok; cbn [fst andb].
  - rewrite lookup_cons. destruct (String.eqb n name); reflexivity.
  - reflexivity.
Qed.
Theorem C226_registered : forall V calls (D : table) name (kw : kwargs V) c, last_registered calls name = Some c -> cit (register_all calls) D name kw = CustomTest c.
Proof. intros V calls D name kw c H. unfold cit, register_all. rewrite register_lookup, H. reflexivity. Qed.
(** A name that was never registered with success is a built-in test or a ValueError. *)
Theorem C226_unregistered : forall V calls (D : table) name (kw : kwargs V), last_registered calls name = None ->
  (In name builtins -> cit (register_all calls) D name kw = cit [] D name kw /\ cit [] D name kw <> ValueError) /\ (~ In name builtins -> cit (register_all calls) D name kw = ValueError).
Proof.
  intros V calls D name kw H. unfold cit, register_all. rewrite register_lookup, H. cbn [lookup find]. change (lookup name []) with (@None nat). split.
  - intros I. split; [reflexivity|]. cbn [In builtins] in I. unfold built_in, kernel_init.
    repeat match goal with H : _ \/ _ |- _ => destruct H as [<- | H] | H : False |- _ => destruct H end; cbn [String.eqb Ascii.eqb Bool.eqb memstr existsb orb];
      repeat match goal with |- context [if valid ?a ?b ?c then _ else _] => destruct (valid a b c) | |- context [match construct ?a ?b with _ => _ end] => destruct (construct a b) end; discriminate.
  - intros N. assert (F : forall s, In s builtins -> String.eqb name s = false) by (intros s Hs; apply String.eqb_neq; intros ->; contradiction).
    unfold built_in, memstr. cbn [existsb]. rewrite !F by (cbn; tauto). reflexivity.
Qed.
Example C226_example : cit (V := nat) (register_all [("fisherz", (3, true)); ("fisherz", (4, false)); ("mine", (5, true))]) [] "fisherz" [] = CustomTest 3 /\
  last_registered [("fisherz", (3, true)); ("fisherz", (4, false)); ("mine", (5, true))] "kci" = None.
Proof. split; reflexivity. Qed.

(** ** C227: options *)
Lemma lookup_restrict V names k (kw : kwargs V) : memstr k names = true -> lookup k (restrict names kw) = lookup k kw.
Proof.
  intros H. induction kw as [|[n v] kw IH]; [reflexivity|]. unfold restrict. cbn [filter fst]. destruct (memstr n names) eqn:E.
  - rewrite !lookup_cons. fold (restrict names kw). now rewrite IH.
  - fold (restrict names kw). rewrite lookup_cons, IH. destruct (String.eqb n k) eqn:Q; [|reflexivity]. apply String.eqb_eq in Q. subst. congruence.
Qed.
Lemma construct_spec V names sig (kw : kwargs V) f : construct sig (restrict names kw) = Some f -> forall k, memstr k names = true -> f k = lookup k kw.
Proof. unfold construct. destruct (forallb _ _); [|discriminate]. intros E k H. injection E as <-. now apply lookup_restrict. Qed.
(** Every option of a kernel test that is forwarded reaches the constructor of the test, with the value given. *)
Theorem C227_kci_options : forall V (D : table) (kw : kwargs V) u c, cit [] D "kci" kw = Kernel "kci" u c ->
  (forall k, In k ["kernelX"; "kernelY"; "approx"; "est_width"; "polyd"; "kwidthx"; "kwidthy"] -> u k = lookup k kw /\ c k = lookup k kw) /\ (forall k, In k ["kernelZ"; "use_gp"; "kwidthz"] -> c k = lookup k kw).
Proof.
  intros V D kw u c E. unfold cit in E. cbn in E. unfold kernel_init in E. destruct (valid false false D); [|discriminate]. destruct (construct kci_u_sig (restrict kci_ui_names kw)) as [u'|] eqn:EU; [|discriminate]. destruct (construct kci_c_sig (restrict kci_ci_names kw)) as [c'|] eqn:EC; [|discriminate].
  injection E as <- <-. split.
  - intros k Hk. split; [apply (construct_spec _ _ _ _ _ EU)|apply (construct_spec _ _ _ _ _ EC)]; cbn [In] in Hk; repeat match goal with H : _ \/ _ |- _ => destruct H as [<- | H] | H : False |- _ => destruct H end; reflexivity.
  - intros k Hk. apply (construct_spec _ _ _ _ _ EC). cbn [In] in Hk. repeat match goal with H : _ \/ _ |- _ => destruct H as [<- | H] | H : False |- _ => destruct H end; reflexivity.
Qed.
Theorem C227_rcit_options : forall V (D : table) (kw : kwargs V), valid false false D = true -> exists u c, cit [] D "rcit" kw = Kernel "rcit" u c /\
  u "approx" = lookup "approx" kw /\ forall k, In k ["approx"; "num_f"; "num_f2"; "rcit"] -> c k = lookup k kw.
Proof.
  intros V D kw HD. unfold cit. cbn [built_in String.eqb Ascii.eqb Bool.eqb]. change (lookup "rcit" []) with (@None nat). unfold built_in, kernel_init. cbn [String.eqb Ascii.eqb Bool.eqb]. rewrite HD.
  assert (S : forall names, construct names (restrict names kw) = Some (fun k => lookup k (restrict names kw))).
  { intros names. unfold construct. replace (forallb _ _) with true; [reflexivity|]. symmetry. apply forallb_forall. intros p Hp. now apply filter_In in Hp. }
  change rit_sig with rit_names. change rcit_sig with rcit_names. rewrite !S. eexists. eexists. split; [reflexivity|]. split; [now apply lookup_restrict|]. intros k Hk. apply lookup_restrict. cbn [In] in Hk.
  repeat match goal with H : _ \/ _ |- _ => destruct H as [<- | H] | H : False |- _ => destruct H end; reflexivity.
Qed.
Theorem C227_fastkci_options : forall V (D : table) (kw : kwargs V) u c, cit [] D "fastkci" kw = Kernel "fastkci" u c ->
  (forall k, In k ["K"; "J"; "alpha"] -> u k = lookup k kw /\ c k = lookup k kw) /\ c "use_gp" = lookup "use_gp" kw.
Proof.
  intros V D kw u c E. unfold cit in E. cbn in E. unfold kernel_init in E. destruct (valid false false D); [|discriminate]. destruct (construct fast_u_sig (restrict fast_ui_names kw)) as [u'|] eqn:EU; [|discriminate]. destruct (construct fast_c_sig (restrict fast_ci_names kw)) as [c'|] eqn:EC; [|discriminate].
  injection E as <- <-. split.
  - intros k Hk. split; [apply (construct_spec _ _ _ _ _ EU)|apply (construct_spec _ _ _ _ _ EC)]; cbn [In] in Hk; repeat match goal with H : _ \/ _ |- _ => destruct H as [<- | H] | H : False |- _ => destruct H end; reflexivity.
  - now apply (construct_spec _ _ _ _ _ EC).
Qed.
(** The number of simulations of KCI cannot be set: the option null_ss raises (the conditional test calls it nullss), and nullss is ignored. *)
Lemma lookup_in {A} k (l : list (string * A)) v : lookup k l = Some v -> exists p, In p l /\ fst p = k.
Proof. unfold lookup. destruct (find _ l) as [p|] eqn:F; [|discriminate]. intros _. apply find_some in F. destruct F as [H1 H2]. apply String.eqb_eq in H2. eauto. Qed.
Theorem C227_null_ss_refuted : forall V (D : table) (kw : kwargs V) v, valid false false D = true -> lookup "null_ss" kw = Some v -> cit [] D "kci" kw = TypeError.
Proof.
  intros V D kw v HD H. apply lookup_in in H. destruct H as (p & Hp & E). unfold cit. change (lookup "kci" []) with (@None nat). unfold built_in, kernel_init. cbn [String.eqb Ascii.eqb Bool.eqb]. rewrite HD.
  destruct (construct kci_u_sig (restrict kci_ui_names kw)); [|reflexivity]. unfold construct. replace (forallb _ (restrict kci_ci_names kw)) with false; [reflexivity|]. symmetry. apply Bool.not_true_iff_false. intros F. rewrite forallb_forall in F.
  assert (I : In p (restrict kci_ci_names kw)) by (apply filter_In; split; [exact Hp|]; rewrite E; reflexivity). specialize (F p I). cbn beta in F. rewrite E in F. discriminate.
Qed.
(** Options that are not forwarded are ignored without an error: adding them changes nothing. *)
Theorem C227_ignored_refuted : forall V (D : table) (kw : kwargs V) method k v, In method ["kci"; "fastkci"; "rcit"] -> ~ In k (kci_ci_names ++ fast_ci_names ++ rcit_names) -> cit [] D method ((k, v) :: kw) = cit [] D method kw.
Proof.
  intros V D kw method k v HM HK. assert (R : forall names, (forall x, In x names -> In x (kci_ci_names ++ fast_ci_names ++ rcit_names)) -> restrict names ((k, v) :: kw) = restrict names kw).
  { intros names HN. unfold restrict. cbn [filter fst]. replace (memstr k names) with false; [reflexivity|]. symmetry. apply Bool.not_true_iff_false. intros E. apply existsb_exists in E. destruct E as (x & Hx & Q). apply String.eqb_eq in Q. subst. apply HK, HN, Hx. }
  unfold cit. change (lookup method []) with (@None nat). unfold built_in, kernel_init.
  destruct HM as [<- | [<- | [<- | []]]]; cbn [String.eqb Ascii.eqb Bool.eqb]; rewrite !R; try reflexivity; intros x Hx; rewrite !in_app_iff; cbn in Hx |- *; tauto.
Qed.
Theorem C227_nullss_ignored_refuted : forall V (D : table) (kw : kwargs V) v, cit [] D "kci" (("nullss", v) :: kw) = cit [] D "kci" kw.
Proof. intros. apply C227_ignored_refuted; [left; reflexivity|]. intros H. cbn in H. repeat match goal with H : _ \/ _ |- _ => destruct H as [H | H]; [discriminate|] end. exact H. Qed.
Example C227_example : exists u c, cit (V := nat) [] [[Finite 0]] "kci" [("kernelX", 1); ("kwidthz", 2); ("typo", 3)] = Kernel "kci" u c /\ c "kwidthz" = Some 2 /\ u "kernelX" = Some 1.
Proof. eexists. eexists. split; [reflexivity|]. split; reflexivity. Qed.

(** ** C228: missing and infinite values *)
Definition contains (P : cell -> Prop) (D : table) : Prop := exists col x, In col D /\ In x col /\ P x.
Definition infinite (x : cell) : Prop := x = PosInf \/ x = NegInf.
Lemma has_spec f P D : (forall x, f x = true <-> P x) -> existsb (existsb f) D = true <-> contains P D.
Proof.
  intros HF. unfold contains. rewrite existsb_exists. split.
  - intros (col & Hc & H). apply existsb_exists in H. destruct H as (x & Hx & E). exists col, x. split; [exact Hc|]. split; [exact Hx|]. now apply HF.
  - intros (col & x & Hc & Hx & E). exists col. split; [exact Hc|]. apply existsb_exists. exists x. split; [exact Hx|]. now apply HF.
Qed.
Lemma nan_spec D : existsb (existsb is_nan) D = true <-> contains (eq NaN) D.
Proof. apply has_spec. intros x. destruct x; cbn; split; congruence. Qed.
Lemma inf_spec D : existsb (existsb is_inf) D = true <-> contains infinite D.
Proof. apply has_spec. intros x. unfold infinite. destruct x; cbn; split; try tauto; try discriminate; intros [H|H]; discriminate. Qed.
(** The tests that cannot treat missing or infinite values refuse them. *)
Theorem C228_refused : forall V (D : table) (kw : kwargs V) method, In method ["fisherz"; "kci"; "fastkci"; "rcit"] -> contains (eq NaN) D \/ contains infinite D -> cit [] D method kw = AssertionError.
Proof.
  intros V D kw method HM H. assert (E : valid false false D = false). { unfold valid. cbn [orb]. destruct H as [H|H]; [apply nan_spec in H|apply inf_spec in H]; rewrite H; cbn; [reflexivity|apply Bool.andb_false_r]. }
  unfold cit. change (lookup method []) with (@None nat). unfold built_in, kernel_init. rewrite E. destruct HM as [<- | [<- | [<- | [<- | []]]]]; reflexivity.
Qed.
(** Complete finite data is accepted by Fisher's test. *)
Theorem C228_accepted : forall V (D : table) (kw : kwargs V), ~ contains (eq NaN) D -> ~ contains infinite D -> cit [] D "fisherz" kw = Simple "fisherz".
Proof.
  intros V D kw H1 H2. unfold cit. change (lookup "fisherz" []) with (@None nat). unfold built_in. cbn [String.eqb Ascii.eqb Bool.eqb]. unfold valid. cbn [orb].
  rewrite <- nan_spec in H1. rewrite <- inf_spec in H2. apply Bool.not_true_iff_false in H1. apply Bool.not_true_iff_false in H2. now rewrite H1, H2.
Qed.
(** The tests for missing values accept them, and refuse infinite values. *)
Theorem C228_missing : forall V (D : table) (kw : kwargs V) method, In method ["mv_fisherz"; "mc_fisherz"] -> (contains infinite D -> cit [] D method kw = AssertionError) /\ (~ contains infinite D -> cit [] D method kw = Simple method).
Proof.
  intros V D kw method HM. unfold cit. change (lookup method []) with (@None nat). unfold built_in, valid. cbn [orb andb]. rewrite <- inf_spec. split; intros H.
  - rewrite H. destruct HM as [<- | [<- | []]]; reflexivity.
  - apply Bool.not_true_iff_false in H. rewrite H. destruct HM as [<- | [<- | []]]; reflexivity.
Qed.
(** The codes of a column: equal exactly where the cells are equal, in the order of the cells, from 0 to the number of distinct cells minus one. *)
Lemma below_irrefl x : below x x = false.
Proof. destruct x; cbn; try reflexivity. apply Z.ltb_irrefl. Qed.
Lemma below_trans x y z : below y x = true -> below z y = true -> below z x = true.
Proof. destruct x, y, z; cbn; try congruence. rewrite !Z.ltb_lt. lia. Qed.
Lemma below_total x y : x <> y -> below y x = true \/ below x y = true.
Proof. destruct x as [x| | |], y as [y| | |]; cbn; try tauto; try congruence. intros H. rewrite !Z.ltb_lt. assert (x <> y) by congruence. lia. Qed.
Lemma code_less col x y : In x col -> below y x = true -> code col x < code col y.
Proof.
  intros Hx H. unfold code. assert (N : NoDup (x :: nodup cell_dec (filter (below x) col))). { constructor; [|apply NoDup_nodup]. rewrite nodup_In, filter_In. intros [_ E]. rewrite below_irrefl in E. discriminate. }
  apply (NoDup_incl_length N). intros z [<- | Hz]; apply nodup_In, filter_In; [now split|]. apply nodup_In, filter_In in Hz. destruct Hz as [H1 H2]. split; [exact H1|]. now apply (below_trans z x y).
Qed.
Lemma code_bound col x : In x col -> code col x < List.length (nodup cell_dec col).
Proof.
  intros Hx. unfold code. assert (N : NoDup (x :: nodup cell_dec (filter (below x) col))). { constructor; [|apply NoDup_nodup]. rewrite nodup_In, filter_In. intros [_ E]. rewrite below_irrefl in E. discriminate. }
  apply (NoDup_incl_length N). intros z [<- | Hz]; apply nodup_In; [exact Hx|]. apply nodup_In, filter_In in Hz. tauto.
Qed.
Theorem C228_codes : forall col i j x y c d, nth_error col i = Some x -> nth_error col j = Some y -> nth_error (codes col) i = Some c -> nth_error (codes col) j = Some d ->
  (c = d <-> x = y) /\ (c < d <-> below y x = true) /\ c < List.length (nodup cell_dec col).
Proof.
  intros col i j x y c d Hi Hj Hc Hd. unfold codes in *. rewrite nth_error_map, Hi in Hc. rewrite nth_error_map, Hj in Hd. injection Hc as <-. injection Hd as <-. apply nth_error_In in Hi, Hj.
  assert (L : forall a b, In a col -> In b col -> below b a = true -> code col a < code col b) by (intros a b Ha _; now apply code_less).
  split; [split|split; [split|]].
  - intros E. destruct (cell_dec x y) as [H|H]; [exact H|]. exfalso. destruct (below_total x y H) as [B|B]; apply L in B; try assumption; lia.
  - now intros ->.
  - intros E. destruct (cell_dec x y) as [-> | H]; [lia|]. destruct (below_total x y H) as [B|B]; [exact B|]. apply L in B; try assumption. lia.
  - now apply L.
  - now apply code_bound.
Qed.
(** So the tests for discrete data accept missing and infinite values without notice; all missing values are one more category. *)
Theorem C228_discrete_refuted : forall V (D : table) (kw : kwargs V) method, In method ["chisq"; "gsq"] ->
  cit [] D method kw = Discrete method (map codes D) /\
  forall col i j c d, In col D -> nth_error col i = Some NaN -> nth_error (codes col) i = Some c -> nth_error (codes col) j = Some d -> (c = d <-> nth_error col j = Some NaN).
Proof.
  intros V D kw method HM. split; [destruct HM as [<- | [<- | []]]; reflexivity|]. intros col i j c d _ Hi Hc Hd. assert (HJ := Hd). unfold codes in HJ. rewrite nth_error_map in HJ. destruct (nth_error col j) as [y|] eqn:Hj; [|discriminate].
  destruct (C228_codes col i j NaN y c d Hi Hj Hc Hd) as [E _]. rewrite E. split; congruence.
Qed.
Example C228_example : cit (V := nat) [] [[Finite 3; NaN; Finite 1; NaN; NegInf]] "chisq" [] = Discrete "chisq" [[2; 3; 1; 3; 0]] /\ cit (V := nat) [] [[Finite 3; NaN]] "fisherz" [] = AssertionError.
Proof. split; reflexivity. Qed.
