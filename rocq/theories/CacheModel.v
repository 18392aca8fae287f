(** The p-value cache of cit.py and the local-score cache of LocalScoreFunctionClass.py. *)
From Verif Require Import Base.
From Coq Require Import Ascii String Decimal.
Local Open Scope Z_scope.

Definition str := list ascii.
Definition str_eqb (a b : str) : bool := if list_eq_dec ascii_dec a b then true else false.

(** Python's [str(int)] for non-negative ints. *)
Fixpoint uint_chars (u : uint) : str :=
  match u with
  | Nil => []
  | D0 u => "0"%char :: uint_chars u | D1 u => "1"%char :: uint_chars u | D2 u => "2"%char :: uint_chars u
  | D3 u => "3"%char :: uint_chars u | D4 u => "4"%char :: uint_chars u | D5 u => "5"%char :: uint_chars u
  | D6 u => "6"%char :: uint_chars u | D7 u => "7"%char :: uint_chars u | D8 u => "8"%char :: uint_chars u
  | D9 u => "9"%char :: uint_chars u
  end.
Definition dec (n : nat) : str := uint_chars (Nat.to_uint n).

(** ['.'.join(map(str, lst))] (cit.py:152) *)
Fixpoint strlst (l : list nat) : str :=
  match l with
  | [] => []
  | [x] => dec x
  | x :: r => dec x ++ "."%char :: strlst r
  end.

(** cit.py:150-154 _stringize *)
Definition stringize (u1 u2 c : list nat) : str :=
  match c with
  | [] => strlst u1 ++ ";"%char :: strlst u2
  | _ => strlst u1 ++ ";"%char :: strlst u2 ++ "|"%char :: strlst c
  end.

(** [sorted(set(map(int, l)))] *)
Fixpoint sins (x : nat) (l : list nat) : list nat :=
  match l with
  | [] => [x]
  | y :: r => if Nat.ltb x y then x :: l else if Nat.eqb x y then l else y :: sins x r
  end.
Definition sort_set (l : list nat) : list nat := fold_right sins [] l.

(** Python's [<] on lists of ints. *)
Fixpoint list_ltb (a b : list nat) : bool :=
  match a, b with
  | _, [] => false
  | [], _ :: _ => true
  | x :: a', y :: b' => if Nat.ltb x y then true else if Nat.eqb x y then list_ltb a' b' else false
  end.

Definition disjointb (a b : list nat) : bool := forallb (fun x => negb (existsb (Nat.eqb x) b)) a.

(** Arguments X, Y: an index, or (method 'kci' only) an iterable of indices. *)
Inductive arg : Type := One (x : nat) | Many (l : list nat).

(** cit.py:133-178 get_formatted_XYZ_and_cachekey; [kernel] = (self.method == 'kci').  Raises on overlap with the
    conditioning set, and on an iterable X or Y for a method that does not support it (int(X) / X < Y TypeError). *)
Definition formatted (kernel : bool) (X Y : arg) (S : list nat) : res (list nat * list nat * list nat * str) :=
  let C := sort_set S in
  if kernel then
    let Xs := match X with One x => [x] | Many l => sort_set l end in
    let Ys := match Y with One y => [y] | Many l => sort_set l end in
    let p := if list_ltb Xs Ys then (Xs, Ys) else (Ys, Xs) in
    if (disjointb (fst p) C && disjointb (snd p) C)%bool then Ok (fst p, snd p, C, stringize (fst p) (snd p) C) else Raise
  else
    match X, Y with
    | One x, One y =>
        let p := if Nat.ltb x y then (x, y) else (y, x) in
        if (disjointb [fst p] C && disjointb [snd p] C)%bool
        then Ok ([fst p], [snd p], C, stringize [fst p] [snd p] C) else Raise
    | _, _ => Raise
    end.

(** Values stored in the cache dict: p-values, or the strings under the three book-keeping keys (cit.py:96,108,109). *)
Inductive cval : Type := PVal (p : Z) | Text (s : str).
Definition cache := list (str * cval).
Definition cget (c : cache) (k : str) : option cval :=
  match find (fun e => str_eqb (fst e) k) c with Some e => Some (snd e) | None => None end.
Fixpoint cset (c : cache) (k : str) (v : cval) : cache :=
  match c with
  | [] => [(k, v)]
  | (k', v') :: r => if str_eqb k' k then (k', v) :: r else (k', v') :: cset r k v
  end.

Definition lit (s : string) : str := list_ascii_of_string s.
Definition k_hash : str := lit "data_hash".
Definition k_method : str := lit "method_name".
Definition k_params : str := lit "parameters_hash".

(** cit.py:97-118: constructor and check_cache_method_consistent.  [file]: contents of the cache file if it exists.  Raises on a data-hash mismatch
    (line 108; KeyError when the file lacks the key). *)
Definition check_method (c : cache) (method params : str) : res cache :=
  match cget c method with
  | None => Ok (cset (cset c k_method (Text method)) k_params (Text params))
  | Some _ =>
      match cget c k_method, cget c k_params with
      | Some (Text m), Some (Text p) => if (str_eqb m method && str_eqb p params)%bool then Ok c else Raise
      | _, _ => Raise
      end
  end.
Definition construct (file : option cache) (hash method params : str) : res cache :=
  match file with
  | None => check_method [(k_hash, Text hash)] method params
  | Some c => match cget c k_hash with
              | Some (Text h) => if str_eqb h hash then check_method c method params else Raise
              | _ => Raise
              end
  end.

(** __call__ of FisherZ, KCI, FastKCI, RCIT, Chisq_or_Gsq, MV_FisherZ (cit.py:197-228, 242-249, 264-271, 286-293,
    432-440, 459-489): look the key up, else compute and store.  [test] is the statistical computation; it may raise and,
    being possibly randomised, may answer differently on every call ([t] is the call number). *)
Definition cit_call (kernel : bool) (test : nat -> list nat -> list nat -> list nat -> res Z) (t : nat) (c : cache)
    (X Y : arg) (S : list nat) : res cval * cache :=
  match formatted kernel X Y S with
  | Raise => (Raise, c)
  | Ok (xs, ys, s, key) =>
      match cget c key with
      | Some v => (Ok v, c)
      | None => match test t xs ys s with
                | Raise => (Raise, c)
                | Ok p => (Ok (PVal p), cset c key (PVal p))
                end
      end
  end.

(** A history of calls: the answers and the final cache. *)
Fixpoint cit_run kernel test (t : nat) (c : cache) (qs : list (arg * arg * list nat)) : list (res cval) * cache :=
  match qs with
  | [] => ([], c)
  | (X, Y, C) :: r =>
      let ac := cit_call kernel test t c X Y C in
      let rest := cit_run kernel test (Datatypes.S t) (snd ac) r in
      (fst ac :: fst rest, snd rest)
  end.

(** LocalScoreFunctionClass.py:36-48 score: [sorted(PAi)] keeps repetitions. *)
Fixpoint nins (x : nat) (l : list nat) : list nat :=
  match l with [] => [x] | y :: r => if Nat.leb x y then x :: l else y :: nins x r end.
Definition nsort (l : list nat) : list nat := fold_right nins [] l.
Definition scache := list ((nat * list nat) * Z).
Definition skey_eqb (a b : nat * list nat) : bool :=
  (Nat.eqb (fst a) (fst b) && if list_eq_dec Nat.eq_dec (snd a) (snd b) then true else false)%bool.
(** Simplification: the two-level dict score_cache[i][key] is one dict keyed by (i, key). *)
Definition score_call (f : nat -> list nat -> Z) (c : scache) (i : nat) (P : list nat) : Z * scache :=
  let k := (i, nsort P) in
  match find (fun e => skey_eqb (fst e) k) c with
  | Some e => (snd e, c)
  | None => (f i P, c ++ [(k, f i P)])
  end.
Fixpoint score_run (f : nat -> list nat -> Z) (c : scache) (qs : list (nat * list nat)) : list Z * scache :=
  match qs with
  | [] => ([], c)
  | (i, P) :: r => let ac := score_call f c i P in let rest := score_run f (snd ac) r in (fst ac :: fst rest, snd rest)
  end.
