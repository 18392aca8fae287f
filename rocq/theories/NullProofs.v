From Verif Require Import Base UtilsModel BICModel BICProofs EffectModel EffectProofs VARModel VARProofs ChisqProps CALMProofs KCIModel KCIProofs KCIProps HSICModel HSICMedian NullModel.
From Coq Require Import Permutation Reals Lra Sorting.
Local Open Scope R_scope.

(** ** Maximum and kept values *)
Lemma fold_max_ge l a : a <= fold_left Rmax l a /\ forall x, In x l -> x <= fold_left Rmax l a.
Proof.
  revert a. induction l as [|y l IH]; intros a; [split; [apply Rle_refl|intros x []]|]. cbn [fold_left]. destruct (IH (Rmax a y)) as [H1 H2]. split.
  - eapply Rle_trans; [apply Rmax_l|exact H1].
  - intros x [-> | Hx]; [eapply Rle_trans; [apply Rmax_r|exact H1]|now apply H2].
Qed.
Lemma lmax_ge l m : lmax l = Some m -> forall x, In x l -> x <= m.
Proof.
  destruct l as [|a l]; [discriminate|]. intros E x Hx. cbn [lmax] in E. apply (f_equal (fun o => match o with Some v => v | None => 0 end)) in E. cbn in E. rewrite <- E.
  destruct Hx as [-> | Hx]; [exact (proj1 (fold_max_ge l x))|exact (proj2 (fold_max_ge l a) x Hx)].
Qed.
Lemma above_In m x : above m x = true <-> m < x. Proof. unfold above. destruct (Rlt_dec m x); split; intros; lra || congruence. Qed.
(** A value above 1e-5 of the maximum is positive. *)
Lemma kept_pos l m thresh x : lmax l = Some m -> 0 <= thresh < 1 -> In x l -> above (m * thresh) x = true -> 0 < x.
Proof. intros Hm Ht Hx Ha. apply above_In in Ha. pose proof (lmax_ge l m Hm x Hx). destruct (Rle_or_lt m 0) as [N|P]; nra. Qed.
Lemma lmax_some l : l <> [] -> exists m, lmax l = Some m. Proof. destruct l; [congruence|]. eexists. reflexivity. Qed.
Lemma fold_max_const c l : (forall x, In x l -> x = c) -> fold_left Rmax l c = c.
Proof. induction l as [|a l IH]; intros H; [reflexivity|]. cbn [fold_left]. rewrite (H a) by (left; reflexivity). replace (Rmax c c) with c by (unfold Rmax; destruct (Rle_dec c c); reflexivity). apply IH. intros x Hx. apply H. now right. Qed.
Lemma lmax_const l c : l <> [] -> (forall x, In x l -> x = c) -> lmax l = Some c.
Proof. destruct l as [|a l]; [congruence|]. intros _ H. cbn [lmax]. f_equal. rewrite (H a) by (left; reflexivity). apply fold_max_const. intros x Hx. apply H. now right. Qed.
Lemma rsum_filter0 {A} (f : A -> R) (p : A -> bool) l : (forall x, In x l -> p x = false -> f x = 0) -> rsum f (filter p l) = rsum f l.
Proof.
  induction l as [|a l IH]; intros H; [reflexivity|]. cbn [filter]. rewrite (rsum_cons f a l). destruct (p a) eqn:E; [rewrite rsum_cons|rewrite (H a (or_introl eq_refl) E), Rplus_0_l]; rewrite IH by (intros x Hx; apply H; now right); reflexivity.
Qed.
Lemma rsum_nth {A} (f : A -> R) d l : rsum (fun i => f (nth i l d)) (seq 0 (length l)) = rsum f l.
Proof.
  induction l as [|a l IH]; [reflexivity|]. cbn [length seq]. rewrite !rsum_cons. cbn [nth]. f_equal. rewrite <- IH, <- seq_shift, rsum_map. reflexivity.
Qed.

(** ** The product of the eigenvectors *)
Definition outer (l : list (R * rvec)) : rmat := fun s t => rsum (fun p => fst p * (snd p s * snd p t)) l.
Lemma gram_products va vb s t : gram (products va vb) s t = gram va s t * gram vb s t.
Proof.
  unfold gram, products. rewrite rsum_flat. rewrite (rsum_ext _ (fun a => (a s * a t) * rsum (fun b => b s * b t) vb)).
  - rewrite (rsum_ext _ (fun a => rsum (fun b => b s * b t) vb * (a s * a t))) by (intros; ring). rewrite rsum_mult. ring.
  - intros a _. rewrite rsum_map, <- rsum_mult. apply rsum_ext. intros. ring.
Qed.
Lemma gram_scaled l s t : (forall p, In p l -> 0 <= fst p) -> gram (scaled l) s t = outer l s t.
Proof.
  intros H. unfold gram, scaled, outer. rewrite rsum_map. apply rsum_ext. intros p Hp. replace (snd p s * sqrt (fst p) * (snd p t * sqrt (fst p))) with (sqrt (fst p) * sqrt (fst p) * (snd p s * snd p t)) by ring.
  rewrite sqrt_sqrt by now apply H. reflexivity.
Qed.
Lemma trace_gram n uu : mtrace n (gram uu) = mtrace (length uu) (inner n uu).
Proof. unfold mtrace, gram, inner. transitivity (rsum (fun u : rvec => rsum (fun s => u s * u s) (seq 0 n)) uu); [apply rsum_swap|]. symmetry. apply (rsum_nth (fun u : rvec => rsum (fun s => u s * u s) (seq 0 n)) (fun _ => 0) uu). Qed.
Lemma trace_square d M : mtrace d (mmul d M M) = rsum (fun i => rsum (fun j => M i j * M j i) (seq 0 d)) (seq 0 d). Proof. reflexivity. Qed.
Lemma quad uu n : rsum (fun s => rsum (fun t => gram uu s t * gram uu t s) (seq 0 n)) (seq 0 n) =
  rsum (fun u => rsum (fun v => rsum (fun s => u s * v s) (seq 0 n) * rsum (fun s => v s * u s) (seq 0 n)) uu) uu.
Proof.
  transitivity (rsum (fun s => rsum (fun t => rsum (fun u => rsum (fun v => u s * v s * (v t * u t)) uu) uu) (seq 0 n)) (seq 0 n)).
  - apply rsum_ext. intros s _. apply rsum_ext. intros t _. unfold gram. rewrite <- rsum_mult. rewrite (rsum_ext _ (fun v => rsum (fun u => u s * v s * (v t * u t)) uu)).
    + apply rsum_swap.
    + intros v _. rewrite (Rmult_comm _ (v t * v s)), <- rsum_mult. apply rsum_ext. intros. ring.
  - rewrite (rsum_ext _ (fun s => rsum (fun u => rsum (fun t => rsum (fun v => u s * v s * (v t * u t)) uu) (seq 0 n)) uu)) by (intros; apply rsum_swap). rewrite rsum_swap. apply rsum_ext. intros u _.
    rewrite (rsum_ext _ (fun s => rsum (fun v => rsum (fun t => u s * v s * (v t * u t)) (seq 0 n)) uu)) by (intros; apply rsum_swap). rewrite rsum_swap. apply rsum_ext. intros v _.
    rewrite (Rmult_comm (rsum _ _)), <- rsum_mult. apply rsum_ext. intros s _. rewrite (Rmult_comm (rsum _ _)), <- rsum_mult. apply rsum_ext. intros. ring.
Qed.
Lemma square_inner n uu : mtrace n (mmul n (gram uu) (gram uu)) = mtrace (length uu) (mmul (length uu) (inner n uu) (inner n uu)).
Proof.
  rewrite !trace_square, quad. symmetry.
  transitivity (rsum (fun u : rvec => rsum (fun v : rvec => rsum (fun s => u s * v s) (seq 0 n) * rsum (fun s => v s * u s) (seq 0 n)) uu) uu); [|reflexivity].
  rewrite <- (rsum_nth (fun u : rvec => rsum (fun v : rvec => rsum (fun s => u s * v s) (seq 0 n) * rsum (fun s => v s * u s) (seq 0 n)) uu) (fun _ => 0) uu). apply rsum_ext. intros p _.
  exact (rsum_nth (fun v : rvec => rsum (fun s => nth p uu (fun _ => 0) s * v s) (seq 0 n) * rsum (fun s => v s * nth p uu (fun _ => 0) s) (seq 0 n)) (fun _ => 0) uu).
Qed.
