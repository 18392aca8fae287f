(** BackgroundKnowledge: the store of forbidden/required edges and tiers.
    A node is its name ([nat]): GraphNode.py __eq__/__hash__ use the name.  A pattern is a [nat] too; Python's
    [re.match(pattern, name) is not None] is the arbitrary function [rx]. *)
From Verif Require Import Base NamedModel.
Local Open Scope Z_scope.

(** Python set of pairs: a duplicate-free list. *)
Definition pset := list (nat * nat).
Definition pair_eqb (p q : nat * nat) : bool := (Nat.eqb (fst p) (fst q) && Nat.eqb (snd p) (snd q))%bool.
Definition pmem (p : nat * nat) (s : pset) : bool := existsb (pair_eqb p) s.
Definition padd (p : nat * nat) (s : pset) : pset := if pmem p s then s else s ++ [p].
Definition premove (p : nat * nat) (s : pset) : pset := filter (fun q => negb (pair_eqb p q)) s.

(** BackgroundKnowledge.py:8-14.  tier_map (tier -> set of nodes) is kept as an association list of (tier, nodes);
    tier values are nat because negative tiers raise before being stored. *)
Record bk : Type := mkBK {
  forb : pset; forbp : pset; reqd : pset; reqdp : pset;
  tmap : list (nat * list nat); tval : dict }.
Definition new_bk : bk := mkBK [] [] [] [] [] [].

(** BackgroundKnowledge.py:99-105 _ensure_tiers *)
Definition tier_get (m : list (nat * list nat)) (t : nat) : option (list nat) :=
  match find (fun p => Nat.eqb (fst p) t) m with Some p => Some (snd p) | None => None end.
Definition ensure_tiers (m : list (nat * list nat)) (t : nat) : list (nat * list nat) :=
  fold_left (fun m k => match tier_get m k with Some _ => m | None => m ++ [(k, [])] end) (seq 0 (S t)) m.
Definition tier_upd (m : list (nat * list nat)) (t : nat) (f : list nat -> list nat) : list (nat * list nat) :=
  map (fun p => if Nat.eqb (fst p) t then (fst p, f (snd p)) else p) m.
Definition nset_add (v : nat) (l : list nat) : list nat := if existsb (Nat.eqb v) l then l else l ++ [v].
Definition nset_remove (v : nat) (l : list nat) : list nat := filter (fun w => negb (Nat.eqb v w)) l.

(** The mutators, as commands. *)
Inductive bkop : Type :=
| AddForb (a b : nat) | AddReq (a b : nat) | AddForbP (p q : nat) | AddReqP (p q : nat)
| RemForb (a b : nat) | RemReq (a b : nat) | RemForbP (p q : nat) | RemReqP (p q : nat)
| AddTier (v : nat) (t : Z) | RemTier (v : nat) (t : Z).

(** BackgroundKnowledge.py:16-97, 107-131, 204-315.  The isinstance checks on nodes and patterns are dropped
    (arguments are well typed here); the negative-tier TypeError is kept. *)
Definition bk_apply (K : bk) (o : bkop) : res bk :=
  match o with
  | AddForb a b => Ok (mkBK (padd (a, b) (forb K)) (forbp K) (reqd K) (reqdp K) (tmap K) (tval K))
  | AddReq a b => Ok (mkBK (forb K) (forbp K) (padd (a, b) (reqd K)) (reqdp K) (tmap K) (tval K))
  | AddForbP p q => Ok (mkBK (forb K) (padd (p, q) (forbp K)) (reqd K) (reqdp K) (tmap K) (tval K))
  | AddReqP p q => Ok (mkBK (forb K) (forbp K) (reqd K) (padd (p, q) (reqdp K)) (tmap K) (tval K))
  | RemForb a b => Ok (mkBK (premove (a, b) (forb K)) (forbp K) (reqd K) (reqdp K) (tmap K) (tval K))
  | RemReq a b => Ok (mkBK (forb K) (forbp K) (premove (a, b) (reqd K)) (reqdp K) (tmap K) (tval K))
  | RemForbP p q => Ok (mkBK (forb K) (premove (p, q) (forbp K)) (reqd K) (reqdp K) (tmap K) (tval K))
  | RemReqP p q => Ok (mkBK (forb K) (forbp K) (reqd K) (premove (p, q) (reqdp K)) (tmap K) (tval K))
  | AddTier v t =>
      if t <? 0 then Raise else
      let t' := Z.to_nat t in
      Ok (mkBK (forb K) (forbp K) (reqd K) (reqdp K)
            (tier_upd (ensure_tiers (tmap K) t') t' (nset_add v)) (dset (tval K) v t'))
  | RemTier v t =>
      if t <? 0 then Raise else
      let t' := Z.to_nat t in
      Ok (mkBK (forb K) (forbp K) (reqd K) (reqdp K)
            (tier_upd (ensure_tiers (tmap K) t') t' (nset_remove v)) (dpop (tval K) v))
  end.

(** A call that raises leaves the store as it was: every check precedes every write. *)
Definition bk_step (K : bk) (o : bkop) : bk := match bk_apply K o with Ok K' => K' | Raise => K end.
Definition bk_run (h : list bkop) : bk := fold_left bk_step h new_bk.

Section Rx.
Variable rx : nat -> nat -> bool. (* pattern, name *)

(** BackgroundKnowledge.py:136-171 is_forbidden *)
Definition is_forbidden (K : bk) (a b : nat) : bool :=
  (existsb (fun p => Nat.eqb (fst p) a && Nat.eqb (snd p) b) (forb K) ||
   (existsb (fun p => rx (fst p) a && rx (snd p) b) (forbp K) ||
    match dget (tval K) a, dget (tval K) b with
    | Some t1, Some t2 => Nat.ltb t2 t1
    | _, _ => false
    end))%bool.

(** BackgroundKnowledge.py:173-202 is_required *)
Definition is_required (K : bk) (a b : nat) : bool :=
  (existsb (fun p => Nat.eqb (fst p) a && Nat.eqb (snd p) b) (reqd K) ||
   existsb (fun p => rx (fst p) a && rx (snd p) b) (reqdp K))%bool.
End Rx.

(** BackgroundKnowledge.py:317-329 is_in_which_tier *)
Definition is_in_which_tier (K : bk) (v : nat) : Z :=
  match dget (tval K) v with Some t => Z.of_nat t | None => -1 end.
