(** gst.py: one grow-shrink tree as an object, with set_knowledge and reset (BossModel has the trees of BOSS and GRaSP, which never call them). *)
From Verif Require Import Base EdgeModel GraphModel UtilsModel BossModel.
Local Open Scope Z_scope.

(** gst.py:57-64 GST: root, forbidden, required. *)
Record gst : Type := mkGst { g_root : gnode; g_forb : list nat; g_req : list nat }.
Section G.
Variable sc : nat -> list nat -> Z.
Variable p v : nat.
(** gst.py:57-64 GST.__init__ *)
Definition gst_new : gst := mkGst (new_node v (sc v [])) [v] [].
(** gst.py:76-77 reset: a new root; forbidden and required stay. *)
Definition gst_reset (t : gst) : gst := mkGst (new_node v (sc v [])) (g_forb t) (g_req t).
(** gst.py:71-74 set_knowledge *)
Definition gst_know (t : gst) (forbidden required : list nat) : gst := gst_reset (mkGst (g_root t) forbidden required).
(** gst.py:66-69 trace with an empty list of parents: the object afterwards, the score, the parents. *)
Definition gst_query (t : gst) (prefix : list nat) : gst * Z * list nat :=
  let '(n, s, ps) := trace sc (S p) v prefix (filter (fun i => negb (memb i (g_forb t))) (seq 0 p)) [] (g_root t) in
  (mkGst n (g_forb t) (g_req t), s, ps).
(** The calls a client makes. *)
Inductive gcall : Type := CKnow (forbidden required : list nat) | CReset | CTrace (prefix : list nat).
Definition gst_step (t : gst) (c : gcall) : gst :=
  match c with CKnow f r => gst_know t f r | CReset => gst_reset t | CTrace prefix => fst (fst (gst_query t prefix)) end.
Definition gst_after (h : list gcall) : gst := fold_left gst_step h gst_new.
End G.
