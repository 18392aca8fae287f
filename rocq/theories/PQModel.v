(** PriorityQueue.py.  An entry is the Python list object [weight, item], shared between the heap and the dict
    [entries]; the object's identity is [e_id].  item = (variables, payload); the variables tuple is a [nat] key,
    [e_key = None] is the tombstone item ((-1,),) (keys equal to (-1,) are outside the model).
    heapq is modelled by its contract: heappop removes some entry of least weight (ties in any order: deletions rewrite
    items in place, so the tie order is unspecified). *)
From Verif Require Import Base NamedModel.
Local Open Scope Z_scope.

Record entry : Type := mkE { e_id : nat; e_w : Z; e_key : option nat; e_pay : nat }.
(** PriorityQueue.py:8-12; [q_next] allocates identities. *)
Record pqueue : Type := mkPQ { q_n : Z; q_pq : list entry; q_entries : dict; q_next : nat }.
Definition new_pq : pqueue := mkPQ 0 [] [] 0.

(** PriorityQueue.py:17-21 push *)
Definition q_push (q : pqueue) (k pay : nat) (w : Z) : pqueue :=
  mkPQ (q_n q + 1) (mkE (q_next q) w (Some k) pay :: q_pq q) (dset (q_entries q) k (q_next q)) (S (q_next q)).

(** PriorityQueue.py:23-24 get: the entry object (its weight and payload). *)
Definition q_get (q : pqueue) (k : nat) : option (Z * nat) :=
  match dget (q_entries q) k with
  | None => None
  | Some i => match find (fun e => Nat.eqb (e_id e) i) (q_pq q) with Some e => Some (e_w e, e_pay e) | None => None end
  end.

(** PriorityQueue.py:26-29 delete: dict.pop raises KeyError on a missing key. *)
Definition q_delete (q : pqueue) (k : nat) : res pqueue :=
  match dget (q_entries q) k with
  | None => Raise
  | Some i => Ok (mkPQ (q_n q - 1)
      (map (fun e => if Nat.eqb (e_id e) i then mkE (e_id e) (e_w e) None (e_pay e) else e) (q_pq q))
      (dpop (q_entries q) k) (q_next q))
  end.

(** PriorityQueue.py:31-32 *)
Definition q_empty (q : pqueue) : bool := q_n q =? 0.

(** heapq.heappop on a heap: some entry of least weight leaves. *)
Definition heappop (l : list entry) (e : entry) (l' : list entry) : Prop :=
  exists l1 l2, l = l1 ++ e :: l2 /\ l' = l1 ++ l2 /\ forall x, In x l -> e_w e <= e_w x.

(** PriorityQueue.py:34-42 pop.  Result: Ok (weight, key, payload) or an exception. *)
Inductive q_pop : pqueue -> res (Z * nat * nat) -> pqueue -> Prop :=
| pop_empty q : q_empty q = true -> q_pop q Raise q                                        (* KeyError *)
| pop_index q : q_empty q = false -> q_pq q = [] -> q_pop q Raise q                        (* IndexError from heappop *)
| pop_dead q e l r q' : q_empty q = false -> heappop (q_pq q) e l -> e_key e = None ->
    q_pop (mkPQ (q_n q) l (q_entries q) (q_next q)) r q' -> q_pop q r q'
| pop_live q e l k i : q_empty q = false -> heappop (q_pq q) e l -> e_key e = Some k -> dget (q_entries q) k = Some i ->
    q_pop q (Ok (e_w e, k, e_pay e)) (mkPQ (q_n q - 1) l (dpop (q_entries q) k) (q_next q))
| pop_key q e l k : q_empty q = false -> heappop (q_pq q) e l -> e_key e = Some k -> dget (q_entries q) k = None ->
    q_pop q Raise (mkPQ (q_n q) l (q_entries q) (q_next q)).                               (* KeyError from del *)

(** Client calls and their observable outcomes. *)
Inductive qop : Type := QPush (k pay : nat) (w : Z) | QDelete (k : nat) | QPop | QGet (k : nat) | QEmpty | QLen.
Inductive qout : Type := OUnit | ORaise | OPopped (w : Z) (k pay : nat) | OGet (o : option (Z * nat)) | OBool (b : bool) | OLen (n : Z).

Inductive q_step : pqueue -> qop -> qout -> pqueue -> Prop :=
| st_push q k p w : q_step q (QPush k p w) OUnit (q_push q k p w)
| st_delete q k q' : q_delete q k = Ok q' -> q_step q (QDelete k) OUnit q'
| st_delete_raise q k : q_delete q k = Raise -> q_step q (QDelete k) ORaise q
| st_pop q w k p q' : q_pop q (Ok (w, k, p)) q' -> q_step q QPop (OPopped w k p) q'
| st_pop_raise q q' : q_pop q Raise q' -> q_step q QPop ORaise q'
| st_get q k : q_step q (QGet k) (OGet (q_get q k)) q
| st_empty q : q_step q QEmpty (OBool (q_empty q)) q
| st_len q : q_step q QLen (OLen (q_n q)) q.

Inductive q_run : pqueue -> list (qop * qout) -> pqueue -> Prop :=
| run_nil q : q_run q [] q
| run_cons q o r q1 h q2 : q_step q o r q1 -> q_run q1 h q2 -> q_run q ((o, r) :: h) q2.
