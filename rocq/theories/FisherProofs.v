From Verif Require Import Base UtilsModel BICModel BICProofs EffectModel EffectProofs VARModel VARProofs ChisqProps CALMProofs KCIProofs CacheModel FisherSpec FisherModel.
From Coq Require Import Permutation Reals Lra.
Local Open Scope R_scope.

(** np.linalg.inv in exact arithmetic. *)
Definition minv_ok (k : nat) (minv : nat -> rmat -> option rmat) : Prop := forall A,
  match minv k A with
  | Some B => (forall i j, (i < k)%nat -> (j < k)%nat -> mmul k A B i j = eye i j) /\ (forall i j, (i < k)%nat -> (j < k)%nat -> mmul k B A i j = eye i j)
  | None => exists t : nat -> R, (exists i, (i < k)%nat /\ t i <> 0) /\ forall i, (i < k)%nat -> rsum (fun j => A i j * t j) (seq 0 k) = 0
  end.
Lemma nth_seq (l : list nat) : map (fun j => nth j l 0%nat) (seq 0 (length l)) = l.
Proof.
  induction l as [|a l IH]; [reflexivity|]. cbn [length seq map nth]. f_equal. rewrite <- seq_shift, map_map. exact IH.
Qed.
Lemma rsum_nth (F : nat -> R) l : rsum (fun j => F (nth j l 0%nat)) (seq 0 (length l)) = rsum F l.
Proof. rewrite <- (nth_seq l) at 2. now rewrite rsum_map. Qed.
Fixpoint posn (v : nat) (l : list nat) : nat := match l with [] => O | y :: r => if Nat.eqb y v then O else S (posn v r) end.
Lemma posn_nth l j : NoDup l -> (j < length l)%nat -> posn (nth j l 0%nat) l = j.
Proof.
  revert j. induction l as [|a l IH]; intros j ND Hj; [cbn in Hj; lia|]. inversion ND as [|? ? NI ND']; subst. destruct j as [|j]; cbn [nth posn]; [now rewrite Nat.eqb_refl|].
  cbn in Hj. destruct (Nat.eqb_spec a (nth j l 0%nat)) as [E|_]; [contradiction NI; rewrite E; apply nth_In; lia|]. f_equal. apply IH; [exact ND'|lia].
Qed.
Lemma rsum_single (f : nat -> R) (l : list nat) a : NoDup l -> In a l -> (forall x, In x l -> x <> a -> f x = 0) -> rsum f l = f a.
Proof.
  induction l as [|b l IH]; intros ND Ha H; [destruct Ha|]. inversion ND as [|? ? NI ND']; subst. rewrite rsum_cons. destruct Ha as [->|Ha].
  - rewrite (rsum_ext _ (fun _ => 0)), rsum_0; [ring|]. intros x Hx. apply H; [now right|]. intros ->. contradiction.
  - rewrite (H b) by (now left || (intros ->; contradiction)). rewrite IH; auto; [ring|]. intros x Hx. apply H. now right.
Qed.

Section Rows.
Variable rows : list nat.
Notation ipr := (ip rows).
Lemma ip_sym f g : ipr f g = ipr g f. Proof. unfold ip. apply rsum_ext. intros; ring. Qed.
Lemma ip_pos f : 0 <= ipr f f. Proof. apply rsum_nonneg. intros; exact (Rle_0_sqr _). Qed.
Lemma ip_zero f : ipr f f = 0 -> forall s, In s rows -> f s = 0.
Proof. intros H s Hs. pose proof (proj1 (proj2 (rsum_nonneg (fun s => f s * f s) rows (fun x _ => Rle_0_sqr (f x)))) H s Hs) as H'. clear H. rename H' into H. cbv beta in H. apply Rmult_integral in H. tauto. Qed.
Lemma ip_ext f g h : (forall s, In s rows -> f s = g s) -> ipr f h = ipr g h. Proof. intros H. apply rsum_ext. intros s Hs. now rewrite H. Qed.
Lemma ip_plus f g h : ipr (fun s => f s + g s) h = ipr f h + ipr g h. Proof. unfold ip. rewrite <- rsum_plus. apply rsum_ext. intros; ring. Qed.
Lemma ip_scale c f h : ipr (fun s => c * f s) h = c * ipr f h. Proof. unfold ip. rewrite <- rsum_mult. apply rsum_ext. intros; ring. Qed.
Lemma ip_comb (g : nat -> R) (f : nat -> nat -> R) (l : list nat) h : ipr (fun s => rsum (fun v => g v * f v s) l) h = rsum (fun v => g v * ipr (f v) h) l.
Proof.
  unfold ip. rewrite (rsum_ext _ (fun s => rsum (fun v => g v * (f v s * h s)) l)) by (intros s _; rewrite Rmult_comm, <- rsum_mult; apply rsum_ext; intros; ring).
  rewrite rsum_swap. apply rsum_ext. intros v _. now rewrite rsum_mult.
Qed.
Lemma cauchy f g : ipr f g * ipr f g <= ipr f f * ipr g g.
Proof.
  pose proof (ip_pos (fun s => ipr g g * f s + (- ipr f g) * g s)) as H. pose proof (ip_pos g) as G. pose proof (ip_pos f) as F.
  assert (E : ipr (fun s => ipr g g * f s + (- ipr f g) * g s) (fun s => ipr g g * f s + (- ipr f g) * g s) = ipr g g * (ipr f f * ipr g g - ipr f g * ipr f g)).
  { set (h := fun s => ipr g g * f s + (- ipr f g) * g s). assert (E0 : forall k, ipr h k = ipr g g * ipr f k + (- ipr f g) * ipr g k) by (intros k; unfold h at 1; rewrite (ip_plus (fun s => ipr g g * f s) (fun s => - ipr f g * g s)), !ip_scale; reflexivity). rewrite (E0 h), (ip_sym f h), (ip_sym g h), !E0, (ip_sym g f). ring. }
  rewrite E in H. destruct (Req_EM_T (ipr g g) 0) as [Z|NZ]; [|nra]. assert (FG : ipr f g = 0); [|rewrite FG; nra].
  unfold ip. rewrite (rsum_ext _ (fun _ => 0)), rsum_0; [reflexivity|]. intros s Hs. rewrite (ip_zero g Z s Hs). ring.
Qed.
Variable D : nat -> nat -> R.
Hypothesis NE : rows <> [].
Lemma len_pos : INR (length rows) <> 0. Proof. apply not_0_INR. destruct rows; [now contradiction NE|cbn; lia]. Qed.
Definition col v := fun s : nat => D s v.
Definition w v := dev rows (col v).
Definition d v := sqrt (cross rows (col v) (col v)).
Lemma cross_ip v u : cross rows (col v) (col u) = ipr (w v) (w u). Proof. reflexivity. Qed.
Lemma dev_sum x : rsum (dev rows x) rows = 0.
Proof. unfold dev. rewrite rsum_minus, rsum_const. unfold rmean. pose proof len_pos. field. assumption. Qed.
Lemma ip_dev v e : rsum e rows = 0 -> ipr (w v) e = ipr (col v) e.
Proof.
  intros H. unfold ip, w, dev. rewrite (rsum_ext _ (fun s => col v s * e s - rmean rows (col v) * e s)) by (intros; ring). rewrite rsum_minus, rsum_mult, H. ring.
Qed.
Lemma constant_cross v : cross rows (col v) (col v) = 0 <-> constant_in rows D v.
Proof.
  split.
  - intros H. exists (rmean rows (col v)). intros s Hs. pose proof (ip_zero (w v) H s Hs) as Z. unfold w, dev, col in *. lra.
  - intros (c & Hc). assert (M : rmean rows (col v) = c) by (unfold rmean; rewrite (rsum_ext _ (fun _ => c)) by exact Hc; rewrite rsum_const; pose proof len_pos; field; assumption).
    unfold cross, dev. rewrite M. rewrite (rsum_ext _ (fun _ => 0)); [apply rsum_0|]. intros s Hs. unfold col. rewrite Hc by exact Hs. ring.
Qed.
Lemma d_pos v : ~ constant_in rows D v -> 0 < d v.
Proof. intros H. apply sqrt_lt_R0. pose proof (ip_pos (w v)) as P. rewrite <- cross_ip in P. assert (cross rows (col v) (col v) <> 0) by now rewrite constant_cross. lra. Qed.
Lemma d_sq v : d v * d v = ipr (w v) (w v).
Proof. unfold d. rewrite sqrt_sqrt; [reflexivity|]. rewrite cross_ip. apply ip_pos. Qed.
(** Affine combinations, centered. *)
Lemma centered u c l e : (forall s, In s rows -> e s = rsum (fun v => u v * D s v) l - c) -> rsum e rows = 0 -> forall s, In s rows -> e s = rsum (fun v => u v * w v s) l.
Proof.
  intros He H0 s Hs. assert (C : c = rsum (fun v => u v * rmean rows (col v)) l).
  { rewrite (rsum_ext _ (fun s => rsum (fun v => u v * D s v) l - c)) in H0 by exact He. rewrite rsum_minus, rsum_const, rsum_swap in H0.
    rewrite (rsum_ext _ (fun v => INR (length rows) * (u v * rmean rows (col v)))) in H0 by (intros v _; rewrite rsum_mult; unfold rmean, col; pose proof len_pos; field; assumption).
    rewrite rsum_mult in H0. pose proof len_pos as LP. apply (Rmult_eq_reg_l (INR (length rows))); [lra|exact LP]. }
  rewrite He by exact Hs. rewrite C, <- rsum_minus. apply rsum_ext. intros v _. unfold w, dev, col. ring.
Qed.
Lemma residual_form S x e : is_residual rows D S x e -> ~ In x S -> exists b, forall s, In s rows -> e s = w x s - rsum (fun k => b k * w k s) S.
Proof.
  intros ((b & c & Hb) & H0 & _) NI. exists b. intros s Hs.
  rewrite (centered (fun v => if Nat.eqb v x then 1 else - b v) c (x :: S) e); [|intros t Ht; rewrite Hb by exact Ht|exact H0|exact Hs].
  - rewrite rsum_cons, Nat.eqb_refl. rewrite (rsum_ext _ (fun v => (-1) * (b v * w v s))); [rewrite rsum_mult; ring|]. intros v Hv. destruct (Nat.eqb_spec v x) as [->|_]; [contradiction|]. ring.
  - rewrite rsum_cons, Nat.eqb_refl. rewrite (rsum_ext (fun v => (if Nat.eqb v x then 1 else - b v) * D t v) (fun v => (-1) * (b v * D t v))); [rewrite rsum_mult; ring|]. intros v Hv. destruct (Nat.eqb_spec v x) as [->|_]; [contradiction|]. ring.
Qed.
Section Var.
Variable var : list nat.
Hypothesis ND : NoDup var.
Hypothesis NC : forall v, In v var -> ~ constant_in rows D v.
Definition A : rmat := fun i j => corr rows (col (nth i var 0%nat)) (col (nth j var 0%nat)).
Lemma dv v : In v var -> 0 < d v. Proof. intros H. now apply d_pos, NC. Qed.
Lemma mat_vec g i : (i < length var)%nat ->
  rsum (fun j => A i j * g (nth j var 0%nat)) (seq 0 (length var)) = ipr (w (nth i var 0%nat)) (fun s => rsum (fun v => g v / d v * w v s) var) / d (nth i var 0%nat).
Proof.
  intros Hi. assert (Ii : In (nth i var 0%nat) var) by now apply nth_In. set (vi := nth i var 0%nat) in *. unfold A. fold vi.
  rewrite (rsum_nth (fun v => corr rows (col vi) (col v) * g v)). rewrite ip_sym, ip_comb. transitivity (/ d vi * rsum (fun v => g v / d v * ipr (w v) (w vi)) var); [|unfold Rdiv; ring]. rewrite <- rsum_mult. apply rsum_ext. intros v Hv.
  unfold corr. rewrite cross_ip, (ip_sym (w vi)). fold (d vi) (d v). pose proof (dv v Hv). pose proof (dv vi Ii). field. lra.
Qed.
Lemma no_inverse_if_collinear B : (forall i j, (i < length var)%nat -> (j < length var)%nat -> mmul (length var) B A i j = eye i j) -> ~ collinear rows D var.
Proof.
  intros HB (u & c & (v & Hv & Uv) & Hu).
  assert (Z : forall s, In s rows -> rsum (fun v => u v * w v s) var = 0).
  { intros s Hs. rewrite <- (centered u c var (fun _ => 0)); [reflexivity| |apply rsum_0|exact Hs]. intros t Ht. rewrite Hu by exact Ht. ring. }
  set (g := fun x => u x * d x). assert (AG : forall i, (i < length var)%nat -> rsum (fun j => A i j * g (nth j var 0%nat)) (seq 0 (length var)) = 0).
  { intros i Hi. rewrite mat_vec by exact Hi. rewrite ip_sym, (ip_ext _ (fun _ => 0)); [unfold ip; rewrite (rsum_ext _ (fun _ => 0)), rsum_0 by (intros; ring); unfold Rdiv; ring|].
    intros s Hs. rewrite <- (Z s Hs). apply rsum_ext. intros x Hx. unfold g. pose proof (dv x Hx). field. lra. }
  apply (In_nth _ _ 0%nat) in Hv. destruct Hv as (l & Hl & <-).
  assert (GL : g (nth l var 0%nat) = 0).
  { rewrite <- (rsum_eye (length var) l (fun j => g (nth j var 0%nat)) Hl). rewrite (rsum_ext _ (fun j => rsum (fun i => B l i * (A i j * g (nth j var 0%nat))) (seq 0 (length var)))).
    - rewrite rsum_swap. rewrite (rsum_ext _ (fun _ => 0)), rsum_0; [reflexivity|]. intros i Hi. apply in_seq0 in Hi. rewrite rsum_mult, AG by exact Hi. ring.
    - intros j Hj. apply in_seq0 in Hj. rewrite <- (HB l j Hl Hj). unfold mmul. rewrite Rmult_comm, <- rsum_mult. apply rsum_ext. intros; ring. }
  unfold g in GL. apply Rmult_integral in GL. destruct GL as [GL|GL]; [contradiction|]. pose proof (dv (nth l var 0%nat) (nth_In _ _ Hl)). lra.
Qed.
Lemma collinear_if_kernel t : (exists i, (i < length var)%nat /\ t i <> 0) -> (forall i, (i < length var)%nat -> rsum (fun j => A i j * t j) (seq 0 (length var)) = 0) -> collinear rows D var.
Proof.
  intros (i0 & Hi0 & Ti) Ht. set (g := fun v => t (posn v var)).
  assert (GT : forall j, (j < length var)%nat -> g (nth j var 0%nat) = t j) by (intros j Hj; unfold g; now rewrite posn_nth).
  set (E := fun s => rsum (fun v => g v / d v * w v s) var).
  assert (EZ : forall s, In s rows -> E s = 0).
  { apply ip_zero. unfold E at 1. rewrite ip_comb. rewrite (rsum_ext _ (fun _ => 0)), rsum_0; [reflexivity|]. intros v Hv. pose proof (dv v Hv) as DP. apply (In_nth _ _ 0%nat) in Hv. destruct Hv as (i & Hi & <-).
    pose proof (mat_vec g i Hi) as MV. rewrite (rsum_ext _ (fun j => A i j * t j)) in MV by (intros j Hj; apply in_seq0 in Hj; now rewrite GT). rewrite Ht in MV by exact Hi. fold E in MV.
    assert (Z : ipr (w (nth i var 0%nat)) E = 0); [|rewrite Z; ring]. apply (Rmult_eq_reg_r (/ d (nth i var 0%nat))); [unfold Rdiv in MV; lra|]. apply Rinv_neq_0_compat. lra. }
  exists (fun v => g v / d v), (rsum (fun v => g v / d v * rmean rows (col v)) var). split.
  - exists (nth i0 var 0%nat). split; [now apply nth_In|]. rewrite GT by exact Hi0. pose proof (dv _ (nth_In var 0%nat Hi0)). intros Z. apply Rmult_integral in Z. destruct Z as [Z|Z]; [contradiction|]. pose proof (Rinv_0_lt_compat _ H). lra.
  - intros s Hs. specialize (EZ s Hs). unfold E in EZ. rewrite (rsum_ext _ (fun v => g v / d v * D s v - g v / d v * rmean rows (col v))) in EZ by (intros; unfold w, dev, col; ring). rewrite rsum_minus in EZ. lra.
Qed.
End Var.
End Rows.
