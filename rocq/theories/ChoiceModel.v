(** ChoiceGenerator.py and DepthChoiceGenerator.py. *)
From Verif Require Import Base.
Local Open Scope Z_scope.

(** [l[i] = v]; every write of the code is in range whenever the preceding read was (stated, used in the proofs). *)
Fixpoint lset {A} (l : list A) (i : nat) (v : A) : list A :=
  match l, i with
  | [], _ => []
  | _ :: r, O => v :: r
  | a :: r, S k => a :: lset r k v
  end.

(** ChoiceGenerator.py:35-44: the initial choiceLocal, [0..b-2] followed by b-2 when b > 0. *)
Definition init_choice (b : nat) : list Z :=
  map Z.of_nat (seq 0 (b - 1)) ++ (if Nat.ltb 0 b then [Z.of_nat b - 2] else []).

(** ChoiceGenerator.py:46-49 fill (and DepthChoiceGenerator.py:69-85). *)
Definition fill (b : nat) (c : list Z) (index : nat) : list Z :=
  fold_left (fun c i => lset c i (nth (i - 1) c 0 + 1)) (seq (S index) (b - S index))
    (lset c index (nth index c 0 + 1)).

(** The scan [while i > 0: i -= 1; if choiceLocal[i] < i + diff: ...] (ChoiceGenerator.py:51-61,
    DepthChoiceGenerator.py:87-101).  [Some i]: index found.  Raises IndexError when choiceLocal is too short. *)
Fixpoint scan (c : list Z) (diff : Z) (i : nat) : res (option nat) :=
  match i with
  | O => Ok None
  | S k => match nth_error c k with
           | None => Raise
           | Some v => if v <? Z.of_nat k + diff then Ok (Some k) else scan c diff k
           end
  end.

(** ChoiceGenerator.py: the object.  choiceReturned is the list object handed to the caller. *)
Record cgen : Type := mkCG { cg_a : nat; cg_b : nat; cg_local : list Z; cg_returned : list Z; cg_begun : bool }.
Definition new_cgen (a b : nat) : cgen := mkCG a b (init_choice b) (repeat 0 b) false.
Definition cg_diff (g : cgen) : Z := Z.of_nat (cg_a g) - Z.of_nat (cg_b g).

(** [for j in range(b): choiceReturned[j] = choiceLocal[j]] *)
Definition copy_into (b : nat) (src dst : list Z) : list Z :=
  fold_left (fun d j => lset d j (nth j src 0)) (seq 0 b) dst.

(** ChoiceGenerator.py:51-69 next.  The answer is the contents of choiceReturned at the time of return, or None. *)
Definition cg_next (g : cgen) : res (option (list Z) * cgen) :=
  match scan (cg_local g) (cg_diff g) (cg_b g) with
  | Raise => Raise
  | Ok (Some i) =>
      let c := fill (cg_b g) (cg_local g) i in
      let r := copy_into (cg_b g) c (cg_returned g) in
      Ok (Some r, mkCG (cg_a g) (cg_b g) c r true)
  | Ok None =>
      if cg_begun g then Ok (None, g)
      else let r := copy_into (cg_b g) (cg_local g) (cg_returned g) in
           Ok (Some r, mkCG (cg_a g) (cg_b g) (cg_local g) r true)
  end.

(** [k] successive calls of next(): the list of answers, or an exception. *)
Fixpoint cg_calls (k : nat) (g : cgen) : res (list (option (list Z))) :=
  match k with
  | O => Ok []
  | S k' => match cg_next g with
            | Raise => Raise
            | Ok (o, g') => match cg_calls k' g' with Raise => Raise | Ok l => Ok (o :: l) end
            end
  end.

(** DepthChoiceGenerator.py: the object (diff is recomputed by _initialize, so after b += 1 without _initialize it is stale). *)
Record dgen : Type := mkDG { dg_a : nat; dg_b : nat; dg_eff : nat; dg_diff : Z; dg_local : list Z; dg_returned : list Z; dg_begun : bool }.

(** DepthChoiceGenerator.py:20-34 _initialize *)
Definition dg_initialize (g : dgen) : dgen :=
  mkDG (dg_a g) (dg_b g) (dg_eff g) (Z.of_nat (dg_a g) - Z.of_nat (dg_b g)) (init_choice (dg_b g)) (repeat 0 (dg_b g)) false.

(** DepthChoiceGenerator.py:36-67; raises on depth < -1 (a is non-negative here by type). *)
Definition new_dgen (a : nat) (depth : Z) : res dgen :=
  if depth <? -1 then Raise else
  let eff := if depth =? -1 then a else if depth >? Z.of_nat a then a else Z.to_nat depth in
  Ok (dg_initialize (mkDG a 0 eff 0 [] [] false)).

(** DepthChoiceGenerator.py:87-117 next; the recursive call [return self.next()] happens right after _initialize,
    where begun is False, so it recurses at most once: [fuel] 2 covers every call (proved), 0 means it would recurse again. *)
Fixpoint dg_next (fuel : nat) (g : dgen) : res (option (list Z) * dgen) :=
  match fuel with
  | O => Raise
  | S fuel' =>
    match scan (dg_local g) (dg_diff g) (dg_b g) with
    | Raise => Raise
    | Ok (Some i) =>
        let c := fill (dg_b g) (dg_local g) i in
        let r := copy_into (dg_b g) c (dg_returned g) in
        Ok (Some r, mkDG (dg_a g) (dg_b g) (dg_eff g) (dg_diff g) c r true)
    | Ok None =>
        if dg_begun g then
          let b' := S (dg_b g) in
          let g1 := mkDG (dg_a g) b' (dg_eff g) (dg_diff g) (dg_local g) (dg_returned g) (dg_begun g) in
          if Nat.ltb (dg_eff g) b' then Ok (None, g1)
          else dg_next fuel' (dg_initialize g1)
        else let r := copy_into (dg_b g) (dg_local g) (dg_returned g) in
             Ok (Some r, mkDG (dg_a g) (dg_b g) (dg_eff g) (dg_diff g) (dg_local g) r true)
    end
  end.

Fixpoint dg_calls (k : nat) (g : dgen) : res (list (option (list Z))) :=
  match k with
  | O => Ok []
  | S k' => match dg_next 2 g with
            | Raise => Raise
            | Ok (o, g') => match dg_calls k' g' with Raise => Raise | Ok l => Ok (o :: l) end
            end
  end.
