(** The rates computed from the confusion counts: AdjacencyConfusion.get_adj_precision/recall, ArrowConfusion.get_arrows_precision/recall(_ce)
    and GraphUtils.adj_precision ... arrow_recall_common_edges.  Simplification: quotients are exact rationals, where the code
    divides floats. *)
From Verif Require Import Base GraphModel NamedModel.
Require Import QArith.
Local Open Scope Z_scope.

(** Division of two Python ints: ZeroDivisionError when the divisor is 0. *)
Definition py_div (a b : Z) : res Q := if b =? 0 then Raise else Ok (a # Z.to_pos b)%Q.
(** Division of two numpy float64 scalars (the arrow counts are [.sum()]s of float matrices): 0/0 is nan, with a warning and no
    exception. [None] is nan. The numerator here is at most the divisor, so nothing else divides by zero. *)
Definition np_div (a b : Z) : option Q := if b =? 0 then None else Some (a # Z.to_pos b)%Q.

(** AdjacencyConfusion.py:52-56; GraphUtils.py:422-428 (the same quotients of the same counts). *)
Definition adj_precision (T E : ngraph) : res Q := py_div (adj_tp T E) (adj_tp T E + adj_fp T E).
Definition adj_recall (T E : ngraph) : res Q := py_div (adj_tp T E) (adj_tp T E + adj_fn T E).
(** ArrowConfusion.py:91-95; GraphUtils.py:430-436. *)
Definition arrow_precision (T E : ngraph) : option Q := np_div (arrows_tp T E) (arrows_tp T E + arrows_fp T E).
Definition arrow_recall (T E : ngraph) : option Q := np_div (arrows_tp T E) (arrows_tp T E + arrows_fn T E).
(** ArrowConfusion.py:97-101. *)
Definition arrow_precision_ce (T E : ngraph) : option Q := np_div (arrows_tp_ce T E) (arrows_tp_ce T E + arrows_fp_ce T E).
Definition arrow_recall_ce (T E : ngraph) : option Q := np_div (arrows_tp_ce T E) (arrows_tp_ce T E + arrows_fn_ce T E).
(** GraphUtils.py:438-444: arrow_precision_common_edges takes the plain true positives. *)
Definition arrow_precision_common_edges (T E : ngraph) : option Q := np_div (arrows_tp T E) (arrows_tp T E + arrows_fp_ce T E).
Definition arrow_recall_common_edges (T E : ngraph) : option Q := np_div (arrows_tp T E) (arrows_tp T E + arrows_fn_ce T E).
