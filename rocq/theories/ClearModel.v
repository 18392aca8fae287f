(** GeneralGraph.clear (GeneralGraph.py:224-229) on the whole object: nodes and edges, the three lists of annotated triples, the attributes. *)
From Verif Require Import Base EdgeModel GraphModel NamedModel NamedProofs BulkModel.
Local Open Scope Z_scope.

Inductive which := Ambiguous | Underline | Dotted.
Definition which_eqb (a b : which) : bool :=
  match a, b with Ambiguous, Ambiguous | Underline, Underline | Dotted, Dotted => true | _, _ => false end.
(** GeneralGraph.py:26-47 __init__.  Not modelled: the flags pattern and pag (48-49), which clear does not touch either.  The attribute dictionary is a
    partial map; its sharing is in AttrModel. *)
Record gobj := mkObj { o_g : ngraph; o_tri : which -> list triple; o_attr : nat -> option Z }.
Definition new_gobj (l : list nat) : gobj := mkObj (new_ngraph l) (fun _ => []) (fun _ => None).
(** GeneralGraph.py:224-229 clear: nodes, num_vars, node_map, graph and dpath only. *)
Definition gclear (x : gobj) : gobj := mkObj (mkNG [] [] (mkG 0 zeros zeros)) (o_tri x) (o_attr x).

Inductive oop := ONode (n : nop) | OTri (w : which) (t : top) | OAttr (k : nat) (v : Z) | OClear.
Definition ostep (x : gobj) (o : oop) : res gobj :=
  match o with
  | ONode n => res_bind (napply (o_g x) n) (fun G => Ok (mkObj G (o_tri x) (o_attr x)))
  | OTri w t => res_bind (tstep (o_tri x w) t) (fun l => Ok (mkObj (o_g x) (fun w' => if which_eqb w' w then l else o_tri x w') (o_attr x)))
  | OAttr k v => Ok (mkObj (o_g x) (o_tri x) (fun k' => if Nat.eqb k' k then Some v else o_attr x k'))
  | OClear => Ok (gclear x)
  end.
Definition orun (x : gobj) (h : list oop) : res gobj := fold_left (fun acc o => res_bind acc (fun x => ostep x o)) h (Ok x).
