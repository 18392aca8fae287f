(** Model of GeneralGraph.remove_nodes, remove_edges, set_nodes and the annotations of triples. *)
From Verif Require Import Base EdgeModel GraphModel NamedModel TransferModel.
Local Open Scope Z_scope.

(** GeneralGraph.py:862-864 remove_nodes with a list of its own. *)
Definition nremove_nodes (G : ngraph) (l : list nat) : res ngraph := fold_left (fun R v => res_bind R (fun K => nremove_node K v)) l (Ok G).
(** GeneralGraph.py:862-864 remove_nodes(get_nodes()): the list that the loop goes through is the one that remove_node takes the node out of; k is the position the loop has reached. *)
Fixpoint remove_own (fuel k : nat) (G : ngraph) : res ngraph :=
  match fuel with
  | O => Ok G
  | S f => match nth_error (nodes G) k with None => Ok G | Some v => res_bind (nremove_node G v) (fun K => remove_own f (S k) K) end
  end.
Definition nremove_own (G : ngraph) : res ngraph := remove_own (length (nodes G)) 0 G.
(** GeneralGraph.py:829-831 remove_edges *)
Definition remove_edges (g : ggraph) (es : list edge) : ggraph := fold_left remove_edge es g.
(** GeneralGraph.py:985-989 set_nodes; ValueError when the numbers differ. *)
Definition nset_nodes (G : ngraph) (l : list nat) : res ngraph := if Nat.eqb (length l) (gn (ng G)) then Ok (mkNG l (node_map G) (ng G)) else Raise.

(** GeneralGraph.py:908-966 the ambiguous (and likewise the underlined and the dotted) triples: a list; remove takes out the first occurrence, ValueError when there is none. *)
Definition triple := (nat * nat * nat)%type.
Definition teqb (s t : triple) : bool := let '(a, b, c) := s in let '(x, y, z) := t in Nat.eqb a x && Nat.eqb b y && Nat.eqb c z.
Inductive top := TAdd (t : triple) | TRemove (t : triple) | TSet (l : list triple).
Fixpoint tremove (t : triple) (l : list triple) : res (list triple) :=
  match l with [] => Raise | s :: r => if teqb s t then Ok r else res_bind (tremove t r) (fun r' => Ok (s :: r')) end.
Definition tstep (l : list triple) (o : top) : res (list triple) := match o with TAdd t => Ok (l ++ [t]) | TRemove t => tremove t l | TSet l' => Ok l' end.
Definition truns (l : list triple) (os : list top) : res (list triple) := fold_left (fun R o => res_bind R (fun l => tstep l o)) os (Ok l).
Definition is_triple (l : list triple) (t : triple) : bool := existsb (teqb t) l.
