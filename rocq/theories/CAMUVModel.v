(** Model of causallearn/search/FCMBased/lingam/CAMUV.py: get_neighborhoods, find_parents, execute.
    [hsic a bs] is the p-value (an integer, it is only compared) of the independence of the residual variable a from the residual variables bs; a residual variable
    (H, x) is the residual of x on the variables H (x itself for the empty set; 184-197).  [iter] is the order in which Python walks through a set.
    alpha >= 0 (with alpha < 0 get_child can return None with p-value 0 > alpha, and P[None] raises; here such a set is skipped). *)
From Verif Require Import Base UtilsModel SkelModel LingamModel RCDModel.
Local Open Scope nat_scope.

Definition rvar := (list nat * nat)%type.
Record cam := mkCam { hsic : rvar -> list rvar -> Z; alpha : Z; iter : list nat -> list nat }.
(** CAMUV.py:38-48 get_neighborhoods *)
Definition nb_step (C : cam) (N : anc) (p : nat * nat) : anc :=
  let '(i, j) := p in if Z.ltb (hsic C ([], i) [([], j)]) (alpha C) then add_anc (add_anc N i [j]) j [i] else N.
Definition neighborhoods (d : nat) (C : cam) : anc := fold_left (nb_step C) (pairs (seq 0 d)) (fun _ _ => false).
(** 143-149 check_identified_causality *)
Definition unidentified (P : anc) (S : list nat) : bool := forallb (fun p => negb (P (fst p) (snd p) || P (snd p) (fst p))) (pairs S).
(** 152-156 check_correlation *)
Definition check_correlation (N : anc) (child : nat) (ps : list nat) : bool := forallb (N child) ps.
(** 110-130 get_child; Y k is the set on which the stored residual of k was computed. *)
Definition child_step (d : nat) (C : cam) (P N : anc) (Y : nat -> list nat) (S : list nat) (best : option nat * Z) (c : nat) : option nat * Z :=
  let ps := others S c in
  if check_correlation N c ps then
    let p := hsic C (as_set d (fun k => memb k ps || P c k), c) (map (fun k => (Y k, k)) ps) in
    if Z.ltb (snd best) p then (Some c, p) else best
  else best.
Definition get_child (d : nat) (C : cam) (P N : anc) (Y : nat -> list nat) (S : list nat) : option nat * Z :=
  fold_left (child_step d C P N Y S) (iter C S) (None, 0%Z).
(** 133-140 check_independence_withou_K *)
Definition dependent_without (C : cam) (Y : nat -> list nat) (ps : list nat) (c : nat) : bool :=
  forallb (fun p => negb (Z.ltb (alpha C) (hsic C (Y c, c) [(Y p, p)]))) ps.
(** 76-79 and 101-107: every added parent recomputes the residual of the child. *)
Definition add_parent (d : nat) (child : nat) (st : anc * (nat -> list nat)) (p : nat) : anc * (nat -> list nat) :=
  let P := add_anc (fst st) child [p] in (P, fun k => if Nat.eqb k child then as_set d (P child) else snd st k).
(** 61-79: one set of variables *)
Definition cam_visit (d : nat) (C : cam) (N : anc) (st : anc * (nat -> list nat) * bool) (S : list nat) : anc * (nat -> list nat) * bool :=
  let '(P, Y, ch) := st in
  if negb (unidentified P S) then st
  else match get_child d C P N Y S with
       | (Some c, p) =>
           if negb (Z.ltb (alpha C) p) then st
           else if negb (dependent_without C Y (others S c) c) then st
           else match others S c with
                | [] => st
                | ps => (fold_left (add_parent d c) ps (P, Y), true)
                end
       | (None, _) => st
       end.
(** 51-85: the loop *)
Fixpoint cam_loop (fuel d mx : nat) (C : cam) (N : anc) (t : nat) (P : anc) (Y : nat -> list nat) : option anc :=
  match fuel with
  | O => None
  | S f =>
      let '(P', Y', ch) := fold_left (cam_visit d C N) (combs t (seq 0 d)) (P, Y, false) in
      if ch then cam_loop f d mx C N 2 P' Y'
      else if Nat.ltb mx (S t) then Some P'
      else cam_loop f d mx C N (S t) P' Y'
  end.
(** 87-98: pruning, one variable after the other *)
Definition prune_step (d : nat) (C : cam) (P : anc) (i : nat) : anc :=
  fun a b => P a b && negb (Nat.eqb a i && Z.ltb (alpha C) (hsic C (as_set d (fun k => P i k && negb (Nat.eqb k b)), i) [(as_set d (P b), b)])).
Definition find_parents (fuel d mx : nat) (C : cam) (N : anc) : option anc :=
  match cam_loop fuel d mx C N 2 (fun _ _ => false) (fun _ => []) with
  | None => None
  | Some P => Some (fold_left (prune_step d C) (seq 0 d) P)
  end.
(** 159-181 execute.  The pairs are visited once each, so "not in U" always holds. *)
Definition u_test (d : nat) (C : cam) (N P : anc) (p : nat * nat) : bool :=
  let '(i, j) := p in
  if P j i || P i j then false
  else if negb (N j i) || negb (N i j) then false
  else Z.ltb (hsic C (as_set d (P i), i) [(as_set d (P j), j)]) (alpha C).
Definition execute (fuel d mx : nat) (C : cam) : option (anc * list (nat * nat)) :=
  let N := neighborhoods d C in
  match find_parents fuel d mx C N with
  | None => None
  | Some P => Some (P, filter (u_test d C N P) (pairs (seq 0 d)))
  end.
(** 200-207 create_data_for_evaluation *)
Definition causal_pairs (d : nat) (P : anc) : list (nat * nat) := flat_map (fun i1 => map (fun i2 => (i2, i1)) (as_set d (P i1))) (seq 0 d).
