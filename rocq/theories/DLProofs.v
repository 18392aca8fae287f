(** DirectLiNGAM's measures: rescaled variables, and the search as an instance of LingamModel.order_loop. *)
From Verif Require Import Base UtilsModel BICModel BICProofs EffectModel EffectProofs LingamModel DLModel ChisqProps.
From Coq Require Import Reals Psatz.
Local Open Scope R_scope.

Lemma mean_ext n x y : (forall s, (s < n)%nat -> x s = y s) -> mean n x = mean n y.
Proof. intros E. unfold mean. f_equal. apply rsum_ext. intros s Hs. apply E. apply in_seq in Hs. lia. Qed.
Lemma var_ext n x y : (forall s, (s < n)%nat -> x s = y s) -> var n x = var n y.
Proof. intros E. unfold var. apply mean_ext. intros s Hs. rewrite (E s Hs), (mean_ext n x y E). reflexivity. Qed.
Lemma cov1_ext n x y x' y' : (forall s, (s < n)%nat -> x s = x' s) -> (forall s, (s < n)%nat -> y s = y' s) -> cov1 n x y = cov1 n x' y'.
Proof. intros E F. unfold cov1. f_equal. rewrite (mean_ext n x x' E), (mean_ext n y y' F). apply rsum_ext. intros s Hs. apply in_seq in Hs. rewrite (E s), (F s) by lia. reflexivity. Qed.
Lemma rsum_one n : rsum (fun _ => 1) (seq 0 n) = INR n.
Proof. induction n as [|n IH]; [reflexivity|]. rewrite seq_S, rsum_app, IH, S_INR. unfold rsum. cbn. ring. Qed.
Lemma mean_affine n a b x : (1 <= n)%nat -> mean n (fun s => a * x s + b) = a * mean n x + b.
Proof.
  intros Hn. unfold mean. assert (INR n <> 0) by (apply not_0_INR; lia).
  rewrite (rsum_ext _ (fun s => a * x s + b * 1)) by (intros; ring). rewrite rsum_plus, !rsum_mult, rsum_one. field. assumption.
Qed.
Lemma mean_mult n a x : mean n (fun s => a * x s) = a * mean n x.
Proof. unfold mean. rewrite rsum_mult. unfold Rdiv. ring. Qed.
Lemma var_affine n a b x : (1 <= n)%nat -> var n (fun s => a * x s + b) = a ^ 2 * var n x.
Proof. intros Hn. unfold var. rewrite <- mean_mult. apply mean_ext. intros s _. rewrite mean_affine by exact Hn. ring. Qed.
Lemma cov1_affine n a b c d x y : (1 <= n)%nat -> cov1 n (fun s => a * x s + b) (fun s => c * y s + d) = a * c * cov1 n x y.
Proof.
  intros Hn. unfold cov1. rewrite !mean_affine by exact Hn.
  rewrite (rsum_ext _ (fun s => (a * c) * ((x s - mean n x) * (y s - mean n y)))) by (intros; ring).
  rewrite rsum_mult. unfold Rdiv. ring.
Qed.
Lemma var_nonneg n x : 0 <= var n x.
Proof.
  unfold var, mean at 1. destruct n as [|n]; [unfold rsum, Rdiv; cbn; lra|].
  apply Rmult_le_pos; [apply rsum_nonneg; intros; apply pow2_ge_0|apply Rlt_le, Rinv_0_lt_compat, lt_0_INR; lia].
Qed.
Lemma var_zero n x : var n x = 0 -> forall s, (s < n)%nat -> x s = mean n x.
Proof.
  intros H s Hs. unfold var in H. unfold mean at 1 in H. assert (Hn : INR n <> 0) by (apply not_0_INR; lia).
  assert (H0 : rsum (fun s => (x s - mean n x) ^ 2) (seq 0 n) = 0) by (apply (Rmult_eq_reg_r (/ INR n)); [rewrite Rmult_0_l; exact H|apply Rinv_neq_0_compat; exact Hn]).
  destruct (rsum_nonneg (fun s => (x s - mean n x) ^ 2) (seq 0 n)) as [_ [Q _]]; [intros; apply pow2_ge_0|].
  specialize (Q H0 s (proj2 (in_seq n 0 s) ltac:(lia))). cbv beta in Q. nra.
Qed.
Lemma var_pos n x : var n x <> 0 -> 0 < sqrt (var n x).
Proof. intros H. apply sqrt_lt_R0. pose proof (var_nonneg n x). lra. Qed.

(** Columns that differ by an affine map, and columns that differ at most by the sign. *)
Definition affine (n : nat) (x y : column) : Prop :=
  match x, y with None, None => True | Some x, Some y => exists a b, a <> 0 /\ forall s, (s < n)%nat -> y s = a * x s + b | _, _ => False end.
Definition signed (n : nat) (x y : column) : Prop :=
  match x, y with None, None => True | Some x, Some y => exists a, (a = 1 \/ a = -1) /\ forall s, (s < n)%nat -> y s = a * x s | _, _ => False end.
Lemma sgn_nz a : a = 1 \/ a = -1 -> a <> 0. Proof. lra. Qed.
Lemma sgn_sq a : a = 1 \/ a = -1 -> a * a = 1. Proof. intros [-> | ->]; ring. Qed.
Lemma residual_affine n x x' y y' : (1 <= n)%nat -> affine n x x' -> affine n y y' -> affine n (residual n x y) (residual n x' y').
Proof.
  intros Hn Ax Ay. unfold residual. destruct x as [x|], x' as [x'|]; try contradiction; [|exact I]. destruct y as [y|], y' as [y'|]; try contradiction; [|exact I].
  cbn [affine] in Ax, Ay. destruct Ax as (a & b & Ha & Ex), Ay as (c & d & Hc & Ey).
  assert (EV : var n y' = c ^ 2 * var n y) by (rewrite <- (var_affine n c d y Hn); now apply var_ext).
  assert (EC : cov1 n x' y' = a * c * cov1 n x y) by (rewrite <- (cov1_affine n a b c d x y Hn); now apply cov1_ext).
  assert (Hc2 : c ^ 2 <> 0) by (apply pow_nonzero; exact Hc).
  destruct (Req_EM_T (var n y) 0) as [V|V], (Req_EM_T (var n y') 0) as [V'|V']; cbn [affine]; auto.
  - apply V'. rewrite EV, V. ring.
  - apply V. rewrite EV in V'. destruct (Rmult_integral _ _ V'); tauto.
  - exists a, (b - a / c * (cov1 n x y / var n y) * d). split; [exact Ha|]. intros s Hs. rewrite (Ex s Hs), (Ey s Hs), EV, EC. field. split; assumption.
Qed.
Lemma residual_signed n x x' y y' : (1 <= n)%nat -> signed n x x' -> signed n y y' -> signed n (residual n x y) (residual n x' y').
Proof.
  intros Hn Ax Ay. unfold residual. destruct x as [x|], x' as [x'|]; try contradiction; [|exact I]. destruct y as [y|], y' as [y'|]; try contradiction; [|exact I].
  cbn [signed] in Ax, Ay. destruct Ax as (a & Ha & Ex), Ay as (c & Hc & Ey).
  assert (Ex' : forall s, (s < n)%nat -> x' s = a * x s + 0) by (intros; rewrite Ex by assumption; ring).
  assert (Ey' : forall s, (s < n)%nat -> y' s = c * y s + 0) by (intros; rewrite Ey by assumption; ring).
  assert (EV : var n y' = var n y) by (rewrite (var_ext n y' _ Ey'), var_affine by exact Hn; destruct Hc as [-> | ->]; ring).
  assert (EC : cov1 n x' y' = a * c * cov1 n x y) by (rewrite <- (cov1_affine n a 0 c 0 x y Hn); now apply cov1_ext).
  rewrite EV. destruct (Req_EM_T (var n y) 0) as [V|V]; [exact I|]. cbn [signed].
  exists a. split; [exact Ha|]. intros s Hs. rewrite (Ex s Hs), (Ey s Hs), EC. replace (c * y s) with (/ c * y s) by (destruct Hc as [-> | ->]; field). field. split; [exact V|now apply sgn_nz].
Qed.
Lemma sqrt_sq_var a v : sqrt (a ^ 2 * v) = Rabs a * sqrt v \/ v < 0.
Proof. destruct (Rle_dec 0 v) as [H|H]; [left|lra]. rewrite sqrt_mult by (try apply pow2_ge_0; exact H). f_equal. rewrite <- Rsqr_pow2. apply sqrt_Rsqr_abs. Qed.
Lemma abs_sign a : a <> 0 -> a / Rabs a = 1 \/ a / Rabs a = -1.
Proof. intros H. destruct (Rle_dec 0 a); [rewrite Rabs_right by lra; left|rewrite Rabs_left by lra; right]; field; exact H. Qed.
Lemma std_affine n a b x y : (1 <= n)%nat -> (forall s, (s < n)%nat -> y s = a * x s + b) -> mean n y = a * mean n x + b /\ var n y = a ^ 2 * var n x /\ sqrt (var n y) = Rabs a * sqrt (var n x).
Proof.
  intros Hn E. assert (EV : var n y = a ^ 2 * var n x) by (rewrite <- (var_affine n a b x Hn); now apply var_ext).
  split; [|split; [exact EV|]]; [rewrite <- (mean_affine n a b x Hn); now apply mean_ext|]. rewrite EV. destruct (sqrt_sq_var a (var n x)) as [Q|Q]; [exact Q|]. pose proof (var_nonneg n x). lra.
Qed.
Lemma standardize_affine n x y : (1 <= n)%nat -> affine n x y -> signed n (standardize n x) (standardize n y).
Proof.
  intros Hn Ax. destruct x as [x|], y as [y|]; try contradiction; [|exact I]. cbn [affine] in Ax. destruct Ax as (a & b & Ha & E).
  destruct (std_affine n a b x y Hn E) as (EM & EV & ES). assert (Ha2 : a ^ 2 <> 0) by (apply pow_nonzero; exact Ha). cbn [standardize].
  destruct (Req_EM_T (var n x) 0) as [V|V], (Req_EM_T (var n y) 0) as [V'|V']; cbn [signed]; auto.
  - apply V'. rewrite EV, V. ring.
  - apply V. rewrite EV in V'. destruct (Rmult_integral _ _ V'); tauto.
  - exists (a / Rabs a). split; [now apply abs_sign|]. intros s Hs. rewrite (E s Hs), EM, ES. field. split; [apply Rgt_not_eq, var_pos, V|now apply Rabs_no_R0].
Qed.
Lemma over_std_signed n x y : (1 <= n)%nat -> signed n x y -> signed n (over_std n x) (over_std n y).
Proof.
  intros Hn Ax. destruct x as [x|], y as [y|]; try contradiction; [|exact I]. cbn [signed] in Ax. destruct Ax as (a & Ha & E).
  destruct (std_affine n a 0 x y Hn) as (_ & EV & ES); [intros; rewrite E by assumption; ring|]. cbn [over_std].
  assert (EV' : var n y = var n x) by (rewrite EV; destruct Ha as [-> | ->]; ring). rewrite EV'.
  destruct (Req_EM_T (var n x) 0) as [V|V]; [exact I|]. cbn [signed]. exists a. split; [exact Ha|]. intros s Hs. rewrite (E s Hs). unfold Rdiv. ring.
Qed.
Lemma scale_affine n x y : (1 <= n)%nat -> affine n x y -> signed n (scale n x) (scale n y).
Proof.
  intros Hn Ax. destruct x as [x|], y as [y|]; try contradiction; [|exact I]. cbn [affine] in Ax. destruct Ax as (a & b & Ha & E).
  destruct (std_affine n a b x y Hn E) as (EM & EV & ES). assert (Ha2 : a ^ 2 <> 0) by (apply pow_nonzero; exact Ha). cbn [scale signed].
  destruct (Req_EM_T (var n x) 0) as [V|V], (Req_EM_T (var n y) 0) as [V'|V'].
  - exists 1. split; [now left|]. intros s Hs. rewrite (E s Hs), EM, (var_zero n x V s Hs). field.
  - exfalso. apply V'. rewrite EV, V. ring.
  - exfalso. apply V. rewrite EV in V'. destruct (Rmult_integral _ _ V'); tauto.
  - exists (a / Rabs a). split; [now apply abs_sign|]. intros s Hs. rewrite (E s Hs), EM, ES. field. split; [apply Rgt_not_eq, var_pos, V|now apply Rabs_no_R0].
Qed.
Lemma cosh_opp x : cosh (- x) = cosh x.
Proof. unfold cosh. rewrite Ropp_involutive, Rplus_comm. reflexivity. Qed.
Lemma entropy_signed n x y : signed n x y -> entropy n x = entropy n y.
Proof.
  intros Ax. destruct x as [x|], y as [y|]; try contradiction; [|reflexivity]. cbn [signed] in Ax. destruct Ax as (a & Ha & E). cbn [entropy option_map]. f_equal. unfold entropy_of.
  rewrite (mean_ext n (fun s => ln (cosh (y s))) (fun s => ln (cosh (x s)))).
  2:{ intros s Hs. rewrite (E s Hs). destruct Ha as [-> | ->]; [now rewrite Rmult_1_l|]. replace (-1 * x s) with (- x s) by ring. now rewrite cosh_opp. }
  rewrite (mean_ext n (fun s => y s * exp (- y s ^ 2 / 2)) (fun s => a * (x s * exp (- x s ^ 2 / 2)))).
  2:{ intros s Hs. rewrite (E s Hs). replace (- (a * x s) ^ 2 / 2) with (- x s ^ 2 / 2) by (destruct Ha as [-> | ->]; field). ring. }
  rewrite mean_mult. destruct Ha as [-> | ->]; ring.
Qed.
Lemma diff_signed n xi xj r q xi' xj' r' q' : signed n xi xi' -> signed n xj xj' -> signed n (over_std n r) (over_std n r') -> signed n (over_std n q) (over_std n q') ->
  diff_mutual_info n xi xj r q = diff_mutual_info n xi' xj' r' q'.
Proof. intros A B C D. unfold diff_mutual_info. now rewrite (entropy_signed _ _ _ A), (entropy_signed _ _ _ B), (entropy_signed _ _ _ C), (entropy_signed _ _ _ D). Qed.
Lemma pw_term_affine n X X' Uc Vj i j : (1 <= n)%nat -> (forall k, affine n (X k) (X' k)) -> pw_term n X Uc Vj i j = pw_term n X' Uc Vj i j.
Proof.
  intros Hn A. pose proof (standardize_affine n _ _ Hn (A i)) as Si. pose proof (standardize_affine n _ _ Hn (A j)) as Sj. unfold pw_term. cbv zeta. f_equal.
  apply diff_signed; [exact Si|exact Sj| |]; (apply over_std_signed; [exact Hn|]).
  - destruct (memb i Vj && memb j Uc); [exact Si|now apply residual_signed].
  - destruct (memb j Vj && memb i Uc); [exact Sj|now apply residual_signed].
Qed.
Lemma pw_score_affine n X X' U Uc Vj i : (1 <= n)%nat -> (forall k, affine n (X k) (X' k)) -> pw_score n X U Uc Vj i = pw_score n X' U Uc Vj i.
Proof. intros Hn A. unfold pw_score. f_equal. f_equal. apply map_ext. intros j. now apply pw_term_affine. Qed.
(** What sums of the logarithms of singular values need: only the entries of the matrix matter. *)
Definition of_entries (lsv : nat -> rmat -> R) : Prop := forall n A B, (forall i j, (i < n)%nat -> (j < n)%nat -> A i j = B i j) -> lsv n A = lsv n B.
Lemma rbf_signed n sg x y : (exists a, (a = 1 \/ a = -1) /\ forall s, (s < n)%nat -> y s = a * x s) -> forall s t, (s < n)%nat -> (t < n)%nat -> rbf sg y s t = rbf sg x s t.
Proof. intros (a & Ha & E) s t Hs Ht. unfold rbf. rewrite (E s Hs), (E t Ht). f_equal. f_equal. destruct Ha as [-> | ->]; ring. Qed.
Definition eqm (n : nat) (A B : rmat) : Prop := forall s t, (s < n)%nat -> (t < n)%nat -> A s t = B s t.
Lemma mm_eqm n A A' B B' : eqm n A A' -> eqm n B B' -> eqm n (mm n A B) (mm n A' B').
Proof. intros EA EB s t Hs Ht. unfold mm. apply rsum_ext. intros k Hk. apply in_seq in Hk. rewrite (EA s k), (EB k t) by lia. reflexivity. Qed.
Lemma ridged_eqm n kp A B : eqm n A B -> eqm n (ridged n kp A) (ridged n kp B).
Proof. intros E s t Hs Ht. unfold ridged. rewrite (E s t Hs Ht). reflexivity. Qed.
Lemma block_eqm n A B C D A' B' C' D' : eqm n A A' -> eqm n B B' -> eqm n C C' -> eqm n D D' -> eqm (2 * n) (block n A B C D) (block n A' B' C' D').
Proof.
  intros EA EB EC ED s t Hs Ht. unfold block. destruct (Nat.ltb_spec s n), (Nat.ltb_spec t n); [apply EA|apply EB|apply EC|apply ED]; lia.
Qed.
Lemma mi_signed lsv n kp sg x y x' y' : of_entries lsv -> signed n (Some x) (Some x') -> signed n (Some y) (Some y') -> mutual_information lsv n kp sg x y = mutual_information lsv n kp sg x' y'.
Proof.
  intros L A B. assert (E1 : eqm n (rbf sg x) (rbf sg x')) by (intros s t Hs Ht; symmetry; now apply (rbf_signed n sg x x')).
  assert (E2 : eqm n (rbf sg y) (rbf sg y')) by (intros s t Hs Ht; symmetry; now apply (rbf_signed n sg y y')).
  unfold mutual_information. cbv zeta. f_equal. f_equal; apply L; apply block_eqm; try (intros ? ? _ _; reflexivity); repeat (apply mm_eqm); try apply ridged_eqm; assumption.
Qed.
Lemma kernel_term_signed lsv n X X' Uc Vj j i : (1 <= n)%nat -> of_entries lsv -> (forall k, signed n (X k) (X' k)) -> kernel_term lsv n X Uc Vj j i = kernel_term lsv n X' Uc Vj j i.
Proof.
  intros Hn L A. unfold kernel_term. destruct (if Nat.ltb 1000 n then _ else _) as [kp sg]. cbv zeta. set (r := if _ && _ then X i else _). set (r' := if _ && _ then X' i else _).
  assert (Sr : signed n r r') by (unfold r, r'; destruct (_ && _); [apply A|now apply residual_signed]). specialize (A j). destruct (X j), (X' j); try contradiction; [|reflexivity].
  destruct r, r'; try contradiction; [|reflexivity]. f_equal. now apply mi_signed.
Qed.
Lemma kernel_score_signed lsv n X X' U Uc Vj i : (1 <= n)%nat -> of_entries lsv -> (forall k, signed n (X k) (X' k)) -> kernel_score lsv n X U Uc Vj i = kernel_score lsv n X' U Uc Vj i.
Proof. intros Hn L A. unfold kernel_score. f_equal. f_equal. apply map_ext. intros j. now apply kernel_term_signed. Qed.

Lemma search_order_ext ms d X X' U : (forall Uc Vj i, ms X U Uc Vj i = ms X' U Uc Vj i) -> search_order ms d X U = search_order ms d X' U.
Proof. intros E. unfold search_order. destruct (search_candidate d U) as [[|i [|j Uc]] Vj]; try reflexivity. do 3 f_equal. apply map_ext. intros k. apply E. Qed.
Lemma fit_loop_rel n ms (rel : column -> column -> Prop) : (forall x y x' y', rel x x' -> rel y y' -> rel (residual n x y) (residual n x' y')) ->
  (forall X X' U Uc Vj i, (forall k, rel (X k) (X' k)) -> ms X U Uc Vj i = ms X' U Uc Vj i) ->
  forall steps d X X' K U, (forall k, rel (X k) (X' k)) -> fit_loop steps n ms d X K U = fit_loop steps n ms d X' K U.
Proof.
  intros HR HM. induction steps as [|s IH]; intros d X X' K U A; [reflexivity|]. cbn [fit_loop].
  rewrite (search_order_ext ms d X X' U) by (intros; now apply HM). destruct (search_order ms d X' U); [|reflexivity].
  apply IH. intros k. unfold regress_out. destruct (_ && _); auto.
Qed.
(** Ranks: an integer score that orders the candidates as the real one does. *)
Definition rltb (a b : R) : bool := if Rlt_dec a b then true else false.
Definition below (y : R) (o : option R) : bool := match o with Some x => rltb x y | None => false end.
Definition rank (pool : list (option R)) (o : option R) : option Z := option_map (fun y => Z.of_nat (length (filter (below y) pool))) o.
Lemma filter_le {A} (f g : A -> bool) l : (forall x, f x = true -> g x = true) -> (length (filter f l) <= length (filter g l))%nat.
Proof. intros H. induction l as [|x l IH]; [auto|]. cbn [filter]. destruct (f x) eqn:E; [rewrite (H x E); cbn [length]; lia|]. destruct (g x); cbn [length]; lia. Qed.
Lemma filter_lt {A} (f g : A -> bool) l y : (forall x, f x = true -> g x = true) -> In y l -> f y = false -> g y = true -> (length (filter f l) < length (filter g l))%nat.
Proof.
  intros H Hy F G. induction l as [|x l IH]; [destruct Hy|]. cbn [filter]. destruct Hy as [<-|Hy].
  - rewrite F, G. cbn [length]. pose proof (filter_le f g l H). lia.
  - specialize (IH Hy). destruct (f x) eqn:E; [rewrite (H x E); cbn [length]; lia|]. destruct (g x); cbn [length]; lia.
Qed.
Lemma rank_beats pool x y : In x pool -> In y pool -> beats (rank pool x) (rank pool y) = rbeats x y.
Proof.
  intros Hx Hy. destruct x as [x|], y as [y|]; try reflexivity. cbn [rank option_map beats rbeats].
  assert (M : forall u v, u <= v -> forall o, below u o = true -> below v o = true).
  { intros u v L [z|]; cbn [below]; [|discriminate]. unfold rltb. destruct (Rlt_dec z u), (Rlt_dec z v); try discriminate; auto; lra. }
  destruct (Rlt_dec y x) as [L|L].
  - apply Z.ltb_lt. enough (length (filter (below y) pool) < length (filter (below x) pool))%nat by lia.
    apply (filter_lt _ _ pool (Some y)); [apply M; lra|exact Hy| |]; cbn [below]; unfold rltb; destruct (Rlt_dec _ _); auto; lra.
  - apply Z.ltb_ge. enough (length (filter (below x) pool) <= length (filter (below y) pool))%nat by lia. apply filter_le, M. lra.
Qed.
Lemma rank_argmax pool l : (forall x, In x l -> In x pool) -> np_argmax (map (rank pool) l) = rargmax l.
Proof.
  destruct l as [|x l]; [reflexivity|]. intros H. cbn [map np_argmax rargmax].
  assert (G : forall l b bi i, (forall x, In x l -> In x pool) -> In b pool -> argmax_from (rank pool b) bi i (map (rank pool) l) = rargmax_from b bi i l).
  { clear. induction l as [|x l IH]; intros b bi i H Hb; [reflexivity|]. cbn [map argmax_from rargmax_from]. rewrite rank_beats; [|apply H; now left|exact Hb].
    assert (T : forall y, In y l -> In y pool) by (intros y Hy; apply H; now right). destruct (rbeats x b); apply IH; try exact T; [apply H; now left|exact Hb]. }
  apply G; [intros; apply H; now right|apply H; now left].
Qed.
(** The data and the remaining variables after the choices K. *)
Definition after (n p : nat) (X : nat -> column) (K : list nat) : (nat -> column) * list nat :=
  fold_left (fun st m => (regress_out n (fst st) (snd st) m, others (snd st) m)) K (X, seq 0 p).
Definition rank_scorer (n p : nat) (ms : measure) (X : nat -> column) : scorer :=
  fun K U Uc Vj i => let m := ms (fst (after n p X K)) U Uc Vj in rank (map m Uc) (m i).
Lemma fit_loop_scorer n p ms X0 : forall steps d X K U, after n p X0 K = (X, U) -> fit_loop steps n ms d X K U = order_loop steps (rank_scorer n p ms X0) d K U.
Proof.
  induction steps as [|s IH]; intros d X K U E; [reflexivity|]. cbn [fit_loop order_loop].
  assert (ES : search_order ms d X U = search_causal_order (rank_scorer n p ms X0) d K U).
  { unfold search_order, search_causal_order. destruct (search_candidate d U) as [Uc Vj]. destruct Uc as [|i [|j Uc]]; [reflexivity..|]. set (L := i :: j :: Uc). do 2 f_equal.
    unfold rank_scorer. rewrite E. cbv zeta. cbn [fst]. set (m := ms X U L Vj). rewrite <- (map_map m (rank (map m L))). symmetry. apply rank_argmax. auto. }
  rewrite ES. destruct (search_causal_order _ d K U) as [m|]; [|reflexivity]. apply IH. unfold after. rewrite fold_left_app. cbn [fold_left]. fold (after n p X0 K). rewrite E. reflexivity.
Qed.
