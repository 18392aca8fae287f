(** Writing a graph as text and reading it back: GraphUtils.graph_string, Edge.__str__ and TXT2GeneralGraph.txt2generalgraph.
    A Python string is a list of [ascii] read as code points 0-255; other code points are not modelled.  A file is the string it holds. *)
From Verif Require Import Base EdgeModel GraphModel NamedModel.
From Coq Require Import Ascii String Decimal.
From Coq Require Export List.
Local Open Scope Z_scope.

Definition str := list ascii.
Definition lit (s : string) : str := list_ascii_of_string s.
Definition code (c : ascii) : nat := nat_of_ascii c.
Definition str_eqb (a b : str) : bool := if list_eq_dec ascii_dec a b then true else false.

(** str.isspace on code points below 256: what str.strip() and str.split() split at. *)
Definition ws (c : ascii) : bool :=
  let k := code c in
  (Nat.leb 9 k && Nat.leb k 13) || (Nat.leb 28 k && Nat.leb k 32) || Nat.eqb k 133 || Nat.eqb k 160.

(** file.readlines() in text mode (universal newlines), the line ends dropped (the caller strips them anyway). *)
Fixpoint readlines_aux (cur : str) (l : str) : list str :=
  match l with
  | [] => match cur with [] => [] | _ => [rev cur] end
  | c :: r =>
      if Nat.eqb (code c) 10 then rev cur :: readlines_aux [] r
      else if Nat.eqb (code c) 13 then
        match r with
        | d :: r' => if Nat.eqb (code d) 10 then rev cur :: readlines_aux [] r' else rev cur :: readlines_aux [] r
        | [] => [rev cur]
        end
      else readlines_aux (c :: cur) r
  end.
Definition readlines (s : str) : list str := readlines_aux [] s.

(** str.strip() *)
Fixpoint lstrip (s : str) : str := match s with c :: r => if ws c then lstrip r else s | [] => [] end.
Definition strip (s : str) : str := rev (lstrip (rev (lstrip s))).

(** str.split() *)
Fixpoint words_aux (cur : str) (l : str) : list str :=
  match l with
  | [] => match cur with [] => [] | _ => [rev cur] end
  | c :: r =>
      if ws c then match cur with [] => words_aux [] r | _ => rev cur :: words_aux [] r end
      else words_aux (c :: cur) r
  end.
Definition words (s : str) : list str := words_aux [] s.

(** str.split(';') *)
Definition semi : ascii := ";"%char.
Fixpoint split_semi_aux (cur : str) (l : str) : list str :=
  match l with
  | [] => [rev cur]
  | c :: r => if ascii_dec c semi then rev cur :: split_semi_aux [] r else split_semi_aux (c :: cur) r
  end.
Definition split_semi (s : str) : list str := split_semi_aux [] s.

(** str(count) for a natural number. *)
Fixpoint digits (d : uint) : str :=
  match d with
  | Nil => [] | D0 r => "0"%char :: digits r | D1 r => "1"%char :: digits r | D2 r => "2"%char :: digits r
  | D3 r => "3"%char :: digits r | D4 r => "4"%char :: digits r | D5 r => "5"%char :: digits r | D6 r => "6"%char :: digits r
  | D7 r => "7"%char :: digits r | D8 r => "8"%char :: digits r | D9 r => "9"%char :: digits r
  end.
Definition str_of_nat (k : nat) : str := digits (Nat.to_uint k).

(** A graph with its node names; the node at position i has index i (C40). *)
Record tgraph : Type := mkT { t_names : list str; t_graph : ggraph }.
Definition name_of (names : list str) (i : nat) : str := nth i names [].

(** ** Writing *)
(** Edge.py:209-236 __str__ (= GraphUtils.py:56-84 edge_string). *)
Definition end1_str (p : endpoint) : ascii := if ep_eqb p TAIL then "-"%char else if ep_eqb p ARROW then "<"%char else "o"%char.
Definition end2_str (p : endpoint) : ascii := if ep_eqb p TAIL then "-"%char else if ep_eqb p ARROW then ">"%char else "o"%char.
Definition edge_str (names : list str) (e : edge) : str :=
  name_of names (e_node1 e) ++ lit " " ++ [end1_str (e_end1 e)] ++ lit "-" ++ [end2_str (e_end2 e)] ++ lit " " ++ name_of names (e_node2 e).
Definition nl : ascii := ascii_of_nat 10.
(** GraphUtils.py:95-100: every name but the last followed by a semicolon. *)
Fixpoint names_str (names : list str) : str :=
  match names with
  | [] => []
  | [a] => a
  | a :: r => a ++ semi :: names_str r
  end.
(** GraphUtils.py:104-107 *)
Fixpoint edges_str (names : list str) (count : nat) (es : list edge) : str :=
  match es with
  | [] => []
  | e :: r => str_of_nat (S count) ++ lit ". " ++ edge_str names e ++ nl :: edges_str names (S count) r
  end.
(** GraphUtils.py:86-109 graph_string; also GeneralGraph.py:888-890 __str__. *)
Definition graph_string (T : tgraph) : str :=
  lit "Graph Nodes:" ++ nl :: names_str (t_names T) ++ nl :: nl :: lit "Graph Edges:" ++ nl :: edges_str (t_names T) 0 (get_graph_edges (t_graph T)).

(** ** Reading *)
(** GeneralGraph.py:196-221 add_node, on string names. *)
Definition tadd_node (T : tgraph) (v : str) : tgraph :=
  if existsb (str_eqb v) (t_names T) then T
  else let n := gn (t_graph T) in
       mkT (t_names T ++ [v]) (mkG (S n) (pad n (gm (t_graph T))) (adjust_dpath (S n) (pad n (gd (t_graph T))) n n)).
(** node_map lookup; KeyError on an unknown name.  The local node_map of txt2generalgraph and the one of the graph have the same keys. *)
Fixpoint index_of (v : str) (l : list str) : option nat :=
  match l with [] => None | a :: r => if str_eqb a v then Some 0%nat else option_map S (index_of v r) end.
(** TXT2GeneralGraph.py:42-50 to_endpoint *)
Definition to_endpoint (c : ascii) : res endpoint :=
  if ascii_dec c "o" then Ok CIRCLE else if ascii_dec c ">" then Ok ARROW else if ascii_dec c "-" then Ok TAIL else Raise.
(** TXT2GeneralGraph.py:53-59 mod_endpoint *)
Definition mod_endpoint (e : edge) (z : nat) (p : endpoint) : res edge :=
  if Nat.eqb (e_node1 e) z then Ok (set_endpoint1 e p) else if Nat.eqb (e_node2 e) z then Ok (set_endpoint2 e p) else Raise.
(** words[k]; IndexError when missing. *)
Definition word (ws : list str) (k : nat) : res str := match nth_error ws k with Some w => Ok w | None => Raise end.
Definition first_char (w : str) : res ascii := match w with c :: _ => Ok c | [] => Raise end.
Definition last_char (w : str) : res ascii := match rev w with c :: _ => Ok c | [] => Raise end.
Definition lookup (T : tgraph) (v : str) : res nat := match index_of v (t_names T) with Some i => Ok i | None => Raise end.
(** TXT2GeneralGraph.py:25-38: a line that starts with a number and a dot. *)
Definition read_edge (T : tgraph) (w : list str) : res tgraph :=
  res_bind (word w 1) (fun n1 => res_bind (word w 3) (fun n2 => res_bind (word w 2) (fun m =>
  res_bind (first_char m) (fun c1 => res_bind (last_char m) (fun c2 =>
  res_bind (to_endpoint (if ascii_dec c1 "<" then ">"%char else c1)) (fun p1 => res_bind (to_endpoint c2) (fun p2 =>
  res_bind (lookup T n1) (fun i => res_bind (lookup T n2) (fun j =>
  res_bind (mod_endpoint (Edge i j CIRCLE CIRCLE) i p1) (fun e1 => res_bind (mod_endpoint e1 j p2) (fun e2 =>
  Ok (mkT (t_names T) (add_edge (t_graph T) e2))))))))))))).
(** TXT2GeneralGraph.py:13-38: one line, with the flag next_nodes_line. *)
Definition read_line (s : tgraph * bool) (l : str) : res (tgraph * bool) :=
  let '(T, next) := s in
  let line := strip l in
  let w := words line in
  if match nth_error w 1 with Some x => str_eqb x (lit "Nodes:") | None => false end then Ok (T, true)
  else if (match line with [] => false | _ => true end) && next then Ok (fold_left tadd_node (split_semi line) T, false)
  else match w with
       | [] => Ok (T, next)
       | w0 :: _ => res_bind (last_char w0) (fun c => if ascii_dec c "." then res_bind (read_edge T w) (fun T' => Ok (T', false)) else Ok (T, next))
       end.
(** TXT2GeneralGraph.py:8-39 *)
Definition txt2generalgraph (file : str) : res tgraph :=
  res_bind (fold_left (fun acc l => res_bind acc (fun s => read_line s l)) (readlines file) (Ok (mkT [] (empty_graph 0), false))) (fun s => Ok (fst s)).
