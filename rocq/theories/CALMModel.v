(** Model of causallearn/search/ScoreBased/CALM.py and causallearn/utils/CALMUtils.py over the real numbers (floating point is not modelled).
    [mask] is the result of iamb_markov_network (MBModel.v); the gradient steps (lines 85-90: Adam, Gumbel noise, the likelihood) are an argument
    [train], a function of the round, of the parameters so far and of rho. *)
From Verif Require Import Base GraphModel BICModel EffectModel VARModel.
From Coq Require Import Reals.
Local Open Scope R_scope.

(** scipy's expit and torch.sigmoid at finite arguments; their value at -inf is 0. *)
Definition sigmoid (x : R) : R := / (1 + exp (- x)).
(** CALM.py:139-146 _init_params: the two d x d parameters. *)
Record calm_params := mkCalm { b_param : rmat; b_logit : rmat }.
(** CALM.py:94-95 and 167-168: sigmoid(B_logit / tau), where the logits outside the moral graph are -inf. *)
Definition gates (mask : nat -> nat -> bool) (tau : R) (P : calm_params) : rmat :=
  fun i j => if mask i j then sigmoid (b_logit P i j / tau) else 0.
(** CALMUtils.py:14-16 matrix_poly: (I + matrix / d)^d. *)
Fixpoint mpow (d : nat) (A : rmat) (m : nat) : rmat := match m with O => eye | S m' => mmul d (mpow d A m') A end.
Definition matrix_poly (d : nat) (B : rmat) : rmat := mpow d (fun i j => eye i j + B i j / INR d) d.
(** CALM.py:193-198 compute_h *)
Definition compute_h (d : nat) (B : rmat) : R := rsum (fun i => matrix_poly d B i i) (seq 0 d) - INR d.
(** CALM.py:158-174 get_params: B_bin (1 as true) and B. *)
Definition b_bin (mask : nat -> nat -> bool) (tau : R) (P : calm_params) (i j : nat) : bool :=
  if Rlt_dec (gates mask tau P i j) (1 / 2) then false else true.
Definition b_weighted (mask : nat -> nat -> bool) (tau : R) (P : calm_params) : rmat :=
  fun i j => (if b_bin mask tau P i j then 1 else 0) * b_param P i j.
(** CALM.py:82-99: at most [rounds] rounds; round k trains, multiplies rho and stops if h <= htol or rho > 1e16. *)
Fixpoint calm_loop (rounds k d : nat) (mask : nat -> nat -> bool) (tau mult htol : R) (train : nat -> calm_params -> R -> calm_params)
  (P : calm_params) (rho : R) : calm_params :=
  match rounds with
  | O => P
  | S r =>
      let P' := train k P rho in
      let rho' := rho * mult in
      if Rle_dec (compute_h d (gates mask tau P')) htol then P'
      else if Rlt_dec (10 ^ 16) rho' then P'
      else calm_loop r (S k) d mask tau mult htol train P' rho'
  end.
(** CALM.py:101-113: the graph. *)
Definition calm_graph (d : nat) (bin : nat -> nat -> bool) : ggraph :=
  fold_left (fun g i => fold_left (fun g j => if bin i j then add_directed_edge g i j else g) (seq 0 d) g) (seq 0 d) (empty_graph d).
(** CALM.py:14-120 calm: Record['G'] and Record['B_weighted']. *)
Definition calm (d : nat) (mask : nat -> nat -> bool) (tau rho_init mult htol : R) (train : nat -> calm_params -> R -> calm_params) (P0 : calm_params) : ggraph * rmat :=
  let P := calm_loop 100 0 d mask tau mult htol train P0 rho_init in
  (calm_graph d (b_bin mask tau P), b_weighted mask tau P).
