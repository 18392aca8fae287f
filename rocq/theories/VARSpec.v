(** Specification vocabulary for time series models. *)
From Verif Require Import Base BICModel EffectModel EffectSpec LingamSpec VARModel.
From Coq Require Import Permutation Reals.
Local Open Scope R_scope.

(** What the matrices Bs = [B_0; B_1; ...] predict for variable i at time t: the sum over the lags and the variables. *)
Definition predicted (p : nat) (Bs : list rmat) (X : series) (t i : nat) : R :=
  rsum (fun tau => rsum (fun j => nth tau Bs zmat i j * X (t - tau)%nat j) (seq 0 p)) (seq 0 (length Bs)).
(** A vector autoregression: one matrix per lag, and residuals that are what the lagged values leave of the data. *)
Definition regresses (p : nat) (X : series) (lag : nat) (r : vresult) : Prop :=
  length (vr_coefs r) = lag /\
  forall t i, (lag <= t)%nat -> (i < p)%nat ->
    vr_resid r (t - lag)%nat i = X t i - rsum (fun tau => rsum (fun j => nth (tau - 1) (vr_coefs r) zmat i j * X (t - tau)%nat j) (seq 0 p)) (seq 1 lag).
Definition var_regresses (E : externals) (p : nat) : Prop := forall N X lag, regresses p X lag (x_var E N X lag).
(** The LiNGAM model returns an order of the variables and a matrix along it. *)
Definition lingam_ordered (E : externals) (p : nat) : Prop := forall rows U, follows p (snd (x_lingam E rows U)) (fst (x_lingam E rows U)).
