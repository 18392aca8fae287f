(** Model of the fingerprint of the data in a p-value cache: causallearn/utils/cit.py:98 (CIT_Base.__init__),
    [hashlib.md5(str(data).encode('utf-8')).hexdigest()].  [str] of a two-dimensional array is numpy's (array2string with the default
    options): an array of more than 1000 entries is summarised - along each axis longer than 6 only the first and last 3 are shown,
    with "..." between - and the layout and precision are chosen from the entries shown.  Entries are integers here;
    [fmt] (how the entries shown become text) and [md5] are arbitrary functions.  None is the "...". *)
From Verif Require Import Base CacheModel.

Definition axis (summary : bool) (n : nat) : list (option nat) :=
  if summary && Nat.ltb 6 n then [Some 0; Some 1; Some 2; None; Some (n - 3); Some (n - 2); Some (n - 1)]%nat else map Some (seq 0 n).
Definition shown (n d : nat) (X : mat) : list (option (list (option Z))) :=
  let summary := Nat.ltb 1000 (n * d) in
  map (option_map (fun i => map (option_map (fun j => X i j)) (axis summary d))) (axis summary n).
Definition data_hash (fmt : list (option (list (option Z))) -> str) (md5 : str -> str) (n d : nat) (X : mat) : str := md5 (fmt (shown n d X)).
