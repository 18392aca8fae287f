(** The attribute dictionaries of nodes and graphs (GraphNode.py:15, 78-97; GeneralGraph.py:47, 903-904, 992-1002; Dag.py:47, 654-655, 742-752). *)
From Verif Require Import Base.
Local Open Scope Z_scope.

(** A GraphNode, a GeneralGraph or a Dag.  The three classes hold their attributes in a dictionary [self.attributes = {}] made by __init__
    (GraphNode.py:15, GeneralGraph.py:47, Dag.py:47). *)
Inductive kind := KNode | KGeneral | KDag.

(** The program's memory: each object refers to one dictionary; dictionaries are shared by reference.  A dictionary is the partial map from keys to
    values: the order of its entries is not modelled (no method here exposes it but get_all_attributes, which hands out the reference). *)
Record astate := mkAS { aref : nat -> nat; heap : nat -> nat -> option Z }.
(** Every object starts with an empty dictionary of its own. *)
Definition ainit : astate := mkAS (fun o => o) (fun _ _ => None).

Inductive aop :=
| AAdd (o k : nat) (v : Z)      (* o.add_attribute(k, v); o[k] = v on a node *)
| ARemove (o k : nat)           (* o.remove_attribute(k); del o[k] on a node *)
| AGet (o k : nat)              (* o.get_attribute(k); o[k] on a node *)
| ATransfer (o o' : nat).       (* o.transfer_attributes(o') *)
Inductive aout := ODone | OVal (v : Z) | OKeyError | OTypeError | OAttributeError.

Definition hupd (h : nat -> nat -> option Z) (r k : nat) (x : option Z) : nat -> nat -> option Z :=
  fun r' k' => if (Nat.eqb r' r && Nat.eqb k' k)%bool then x else h r' k'.

(** GraphNode.py:81-97, GeneralGraph.py:903-904, 995-1002, Dag.py:654-655, 745-752.  A method that raises leaves the state as it is. *)
Definition astep (K : nat -> kind) (s : astate) (op : aop) : astate * aout :=
  match op with
  | AAdd o k v => (mkAS (aref s) (hupd (heap s) (aref s o) k (Some v)), ODone)
  | AGet o k => (s, match heap s (aref s o) k with Some v => OVal v | None => OKeyError end)
  | ARemove o k =>
      match K o with
      | KNode =>   (* GraphNode.py:88: self.attributes.pop(key) *)
          match heap s (aref s o) k with
          | Some _ => (mkAS (aref s) (hupd (heap s) (aref s o) k None), ODone)
          | None => (s, OKeyError)
          end
      | _ => (s, OTypeError)   (* GeneralGraph.py:999, Dag.py:749: self.attributes.pop[key], subscripting a builtin method *)
      end
  | ATransfer o o' =>
      match K o with
      | KNode => (s, OAttributeError)   (* GraphNode has no such method *)
      | _ => (mkAS (fun x => if Nat.eqb x o' then aref s o else aref s x) (heap s), ODone)   (* graph.attributes = self.attributes *)
      end
  end.
(** A program that catches every exception and goes on. *)
Definition arun (K : nat -> kind) (s : astate) (h : list aop) : astate := fold_left (fun s op => fst (astep K s op)) h s.
(** What get_attribute answers after the history. *)
Definition aget (K : nat -> kind) (h : list aop) (o k : nat) : aout := snd (astep K (arun K ainit h) (AGet o k)).
