(** Model of the cache file of the conditional independence tests: causallearn/utils/cit.py:92-128 (CIT_Base: constructor and
    save_to_local_cache) with a cache_path.  The file is absent, holds a cache as JSON, or is torn: [open(path, 'w')] empties it and a
    crash before [write] has finished leaves a text that json.load refuses.  Times are integers (seconds). *)
From Verif Require Import Base CacheModel.
Local Open Scope Z_scope.

Inductive content := Whole (c : cache) | Torn.
Record pstate := mkP { mem : cache; disk : option content; last_saved : Z }.

(** cit.py:98-109 the constructor at time [t] (line 102: last_time_cache_saved = time.time()). *)
Definition start (t : Z) (d : option content) (hash method params : str) : res pstate :=
  let made := match d with
              | None => construct None hash method params
              | Some (Whole c) => construct (Some c) hash method params
              | Some Torn => Raise
              end in
  match made with Ok c => Ok (mkP c d t) | Raise => Raise end.

(** cit.py:124-127 save_to_local_cache: [t] is the time of the comparison, [t'] the time noted after writing. *)
Definition save_due (t : Z) (st : pstate) : bool := 30 <? t - last_saved st.
Definition save (t t' : Z) (st : pstate) : pstate := if save_due t st then mkP (mem st) (Some (Whole (mem st))) t' else st.

(** A call: get_formatted_XYZ_and_cachekey (cit.py:157) saves first, then the query is answered and stored. *)
Definition event := (Z * Z * (arg * arg * list nat))%type.
Definition pcall (kernel : bool) (test : nat -> list nat -> list nat -> list nat -> res Z) (n : nat) (st : pstate) (e : event) : res cval * pstate :=
  let '(t, t', (X, Y, C)) := e in
  let st' := save t t' st in
  let ac := cit_call kernel test n (mem st') X Y C in
  (fst ac, mkP (snd ac) (disk st') (last_saved st')).
Fixpoint prun (kernel : bool) test (n : nat) (st : pstate) (es : list event) : pstate :=
  match es with [] => st | e :: r => prun kernel test (S n) (snd (pcall kernel test n st e)) r end.

(** What may be on the disk if the process dies during the call [e]. *)
Inductive crash_during (st : pstate) (e : event) : option content -> Prop :=
| crash_before : crash_during st e (disk st)
| crash_writing : save_due (fst (fst e)) st = true -> crash_during st e (Some Torn)
| crash_after : crash_during st e (disk (save (fst (fst e)) (snd (fst e)) st)).
