(** Model of causallearn/graph/Endpoint.py, Edge.py and Edges.py. *)
From Verif Require Import Base.
Local Open Scope Z_scope.

(** Endpoint.py:9-16 *)
Inductive endpoint : Type :=
| TAIL | NULL | ARROW | CIRCLE | STAR | TAIL_AND_ARROW | ARROW_AND_ARROW.

(** Endpoint.py:9-16, [.value]. *)
Definition ev (e : endpoint) : Z :=
  match e with
  | TAIL => -1 | NULL => 0 | ARROW => 1 | CIRCLE => 2 | STAR => 3
  | TAIL_AND_ARROW => 4 | ARROW_AND_ARROW => 5
  end.

(** [Endpoint(x)] (enum lookup by value); raises ValueError on other integers. *)
Definition endpoint_of (x : Z) : res endpoint :=
  if x =? -1 then Ok TAIL else if x =? 0 then Ok NULL else if x =? 1 then Ok ARROW
  else if x =? 2 then Ok CIRCLE else if x =? 3 then Ok STAR
  else if x =? 4 then Ok TAIL_AND_ARROW else if x =? 5 then Ok ARROW_AND_ARROW else Raise.

(** Endpoint.py:22-23 [__eq__]. *)
Definition ep_eqb (a b : endpoint) : bool := ev a =? ev b.

(** Edge.py:24-48.  Nodes are node indices ([nat]); node objects are compared by
    name in [==] and by identity in [is], and a graph holds one object per name,
    so both comparisons are equality of indices here. *)
Record edge : Type := mkE {
  e_node1 : nat; e_node2 : nat;
  e_end1 : endpoint; e_end2 : endpoint;
  e_num1 : Z; e_num2 : Z }.

(** Edge.py:245-246 *)
Definition pointing_left (a b : endpoint) : bool :=
  ep_eqb a ARROW && (ep_eqb b TAIL || ep_eqb b CIRCLE).

(** Edge.py:24-48 (the TypeError on None cannot occur with typed arguments). *)
Definition Edge (n1 n2 : nat) (a b : endpoint) : edge :=
  if pointing_left a b then mkE n2 n1 b a (ev b) (ev a) else mkE n1 n2 a b (ev a) (ev b).

(** Edge.py:108-119 = 149-160: the flip at the end of both setters. *)
Definition flip_if_left (e : edge) : edge :=
  if pointing_left (e_end1 e) (e_end2 e)
  then mkE (e_node2 e) (e_node1 e) (e_end2 e) (e_end1 e) (e_num2 e) (e_num1 e) else e.

(** Edge.py:81-119 *)
Definition set_endpoint1 (e : edge) (p : endpoint) : edge :=
  let '(n1, n2) :=
    if (e_num1 e =? 1) && (e_num2 e =? 1) then
      if ep_eqb p ARROW then (e_num1 e, e_num2 e)
      else if ep_eqb p TAIL then (-1, 1)
      else if ep_eqb p CIRCLE then (2, 1) else (e_num1 e, e_num2 e)
    else if ep_eqb p ARROW && (e_num2 e =? 1) then (1, 1)
    else if ep_eqb p ARROW then (1, e_num2 e)
    else if ep_eqb p TAIL then (-1, e_num2 e)
    else if ep_eqb p CIRCLE then (2, e_num2 e) else (e_num1 e, e_num2 e) in
  flip_if_left (mkE (e_node1 e) (e_node2 e) p (e_end2 e) n1 n2).

(** Edge.py:122-160 (note line 137 tests numerical_endpoint_2, as in set_endpoint1). *)
Definition set_endpoint2 (e : edge) (p : endpoint) : edge :=
  let '(n1, n2) :=
    if (e_num1 e =? 1) && (e_num2 e =? 1) then
      if ep_eqb p ARROW then (e_num1 e, e_num2 e)
      else if ep_eqb p TAIL then (1, -1)
      else if ep_eqb p CIRCLE then (1, 2) else (e_num1 e, e_num2 e)
    else if ep_eqb p ARROW && (e_num2 e =? 1) then (1, 1)
    else if ep_eqb p ARROW then (e_num1 e, 1)
    else if ep_eqb p TAIL then (e_num1 e, -1)
    else if ep_eqb p CIRCLE then (e_num1 e, 2) else (e_num1 e, e_num2 e) in
  flip_if_left (mkE (e_node1 e) (e_node2 e) (e_end1 e) p n1 n2).

(** Edge.py:165-172 *)
Definition get_proximal_endpoint (e : edge) (n : nat) : option endpoint :=
  if Nat.eqb (e_node1 e) n then Some (e_end1 e)
  else if Nat.eqb (e_node2 e) n then Some (e_end2 e) else None.

(** Edge.py:176-183 *)
Definition get_distal_endpoint (e : edge) (n : nat) : option endpoint :=
  if Nat.eqb (e_node1 e) n then Some (e_end2 e)
  else if Nat.eqb (e_node2 e) n then Some (e_end1 e) else None.

(** Edge.py:187-194 *)
Definition get_distal_node (e : edge) (n : nat) : option nat :=
  if Nat.eqb (e_node1 e) n then Some (e_node2 e)
  else if Nat.eqb (e_node2 e) n then Some (e_node1 e) else None.

(** Comparison of an optional endpoint (a Python value that may be None) with a member. *)
Definition oep_eqb (o : option endpoint) (p : endpoint) : bool :=
  match o with Some q => ep_eqb q p | None => false end.

(** Edge.py:196-199 *)
Definition points_toward (e : edge) (n : nat) : bool :=
  oep_eqb (get_proximal_endpoint e n) ARROW &&
  (oep_eqb (get_distal_endpoint e n) TAIL || oep_eqb (get_distal_endpoint e n) CIRCLE).

(** Edge.py:201-205 [__eq__] *)
Definition edge_eqb (a b : edge) : bool :=
  ep_eqb (e_end1 a) (e_end1 b) && ep_eqb (e_end2 a) (e_end2 b) &&
  Nat.eqb (e_node1 a) (e_node1 b) && Nat.eqb (e_node2 a) (e_node2 b).

(** Edges.py:12-29 *)
Definition bidirected_edge a b := Edge a b ARROW ARROW.
Definition directed_edge a b := Edge a b TAIL ARROW.
Definition partially_oriented_edge a b := Edge a b CIRCLE ARROW.
Definition undirected_edge a b := Edge a b TAIL TAIL.

(** Edges.py:32-33 *)
Definition is_bidirected_edge (e : edge) : bool := ep_eqb (e_end1 e) ARROW && ep_eqb (e_end2 e) ARROW.
(** Edges.py:36-42 *)
Definition is_directed_edge (e : edge) : bool :=
  if ep_eqb (e_end1 e) TAIL then ep_eqb (e_end2 e) ARROW
  else if ep_eqb (e_end2 e) TAIL then ep_eqb (e_end1 e) ARROW else false.
(** Edges.py:45-51 *)
Definition is_partially_oriented_edge (e : edge) : bool :=
  if ep_eqb (e_end1 e) CIRCLE then ep_eqb (e_end2 e) ARROW
  else if ep_eqb (e_end2 e) CIRCLE then ep_eqb (e_end1 e) ARROW else false.
(** Edges.py:54-55 *)
Definition is_undirected_edge (e : edge) : bool := ep_eqb (e_end1 e) TAIL && ep_eqb (e_end2 e) TAIL.
(** Edges.py:57-65 *)
Definition traverse_directed (n : nat) (e : edge) : option nat :=
  if Nat.eqb n (e_node1 e) then
    if ep_eqb (e_end1 e) TAIL && ep_eqb (e_end2 e) ARROW then Some (e_node2 e) else None
  else if Nat.eqb n (e_node2 e) then
    if ep_eqb (e_end2 e) TAIL && ep_eqb (e_end1 e) ARROW then Some (e_node1 e) else None
  else None.
