(** Model of what a graph does when the name of one of its nodes changes: GraphNode.py 34-37 (set_name), 63-71 (__eq__, __hash__), GeneralGraph.py 26-33 (node_map), 447-452 (get_node), 534-545 (get_edge). *)
From Verif Require Import Base EdgeModel GraphModel.
Local Open Scope Z_scope.

Section Rename.
(** A node object is a number; nm gives its present name; h is the hash of names. *)
Variable h : Z -> Z.
(** GraphNode.py:63-64 *)
Definition node_eq (nm : nat -> Z) (a b : nat) : bool := nm a =? nm b.
(** A Python dict: each entry has the hash that its key had when it was put in, the key and the value. *)
Record entry := mkEntry { stored : Z; key_obj : nat; value : nat }.
(** A key matches an entry if its hash now is the hash stored, and it is the same object or an equal one.  (Of several entries that match, the first one is found.) *)
Definition matches (nm : nat -> Z) (a : nat) (e : entry) : bool := (stored e =? h (nm a)) && (Nat.eqb (key_obj e) a || node_eq nm (key_obj e) a).
Definition hget (nm : nat -> Z) (d : list entry) (a : nat) : option nat := option_map value (find (matches nm a) d).
Fixpoint hset (nm : nat -> Z) (d : list entry) (a v : nat) : list entry :=
  match d with [] => [mkEntry (h (nm a)) a v] | e :: r => if matches nm a e then mkEntry (stored e) (key_obj e) v :: r else e :: hset nm r a v end.
(** GeneralGraph.py:31-33 *)
Definition build (nm : nat -> Z) (l : list nat) : list entry := fold_left (fun d p => hset nm d (snd p) (fst p)) (combine (seq 0 (length l)) l) [].
(** GraphNode.py:34-37 *)
Definition set_name (nm : nat -> Z) (a : nat) (s : Z) : nat -> Z := fun x => if Nat.eqb x a then s else nm x.
(** GeneralGraph.py:447-452 *)
Definition get_node (nm : nat -> Z) (l : list nat) (s : Z) : option nat := find (fun a => nm a =? s) l.
(** GeneralGraph.py:534-545; the KeyError of an unknown node is Raise. *)
Definition hget_edge (nm : nat -> Z) (d : list entry) (g : ggraph) (a b : nat) : res (option (endpoint * endpoint)) :=
  match hget nm d a, hget nm d b with
  | Some i, Some j => if gm g i j =? 0 then Ok None else res_bind (endpoint_of (gm g i j)) (fun p => res_bind (endpoint_of (gm g j i)) (fun q => Ok (Some (p, q))))
  | _, _ => Raise
  end.
End Rename.
