(** * DotModel: model of BBN.get_graphviz_source (causalnex/ebaybbn/bbn.py). *)
From Coq Require Import List Bool Arith String Ascii.
From Verif Require Import Base BbnModel.
Import ListNotations.
Local Open Scope string_scope.
Local Open Scope list_scope.

(** bbn.py:90: the end of a line *)
Definition eol : string := String (ascii_of_nat 10) EmptyString.
(** A quotation mark (bbn.py:91, 94) *)
Definition quote : string := String (ascii_of_nat 34) EmptyString.

(** The [name] of a node is the [__name__] of its function (bbn.py:59, 93). *)
Definition node_name (n : bnode) : string := fname (nfac n).

(** [node.children]: connect (graph.py:66-74, bbn.py:764-765) adds a node to the children of each of its parents.  Here in the
    order of the nodes; only the set of edges matters. *)
Definition children (b : bbn) (n : bnode) : list bnode := filter (fun m => smem (nvar n) (nparents m)) (bnodes b).

(** bbn.py:92, 95-97: the set of edges *)
Definition dot_pair_eqb (e f : string * string) : bool := String.eqb (fst e) (fst f) && String.eqb (snd e) (snd f).
(** bbn.py:92, 97: adding to a set *)
Definition add_edge (es : list (string * string)) (e : string * string) : list (string * string) :=
  if existsb (dot_pair_eqb e) es then es else es ++ [e].
(** bbn.py:98: the order of pairs *)
Definition dot_pair_leb (e f : string * string) : bool :=
  if String.eqb (fst e) (fst f) then sleb (snd e) (snd f) else sleb (fst e) (fst f).

(** bbn.py:94 *)
Definition node_line (x : string) : string := ("  " ++ x ++ " [ shape=" ++ quote ++ "ellipse" ++ quote ++ " color=" ++ quote ++ "blue" ++ quote ++ "];" ++ eol)%string.
(** bbn.py:99 *)
Definition edge_line (e : string * string) : string := ("  " ++ fst e ++ " -> " ++ snd e ++ ";" ++ eol)%string.
(** bbn.py:90-91 *)
Definition first_lines : string :=
  ("digraph G {" ++ eol ++ "  graph [ dpi = 300 bgcolor=" ++ quote ++ "transparent" ++ quote ++ " rankdir=" ++ quote ++ "LR" ++ quote ++ "];" ++ eol)%string.

(** bbn.py:88-101 get_graphviz_source *)
Definition get_graphviz_source (b : bbn) : string :=
  let nodes := isort (fun n m => sleb (node_name n) (node_name m)) (bnodes b) in
  let edges := fold_left add_edge (flat_map (fun n => map (fun c => (node_name n, node_name c)) (children b n)) nodes) [] in
  (first_lines ++ String.concat "" (map (fun n => node_line (node_name n)) nodes)
    ++ String.concat "" (map edge_line (isort dot_pair_leb edges)) ++ "}" ++ eol)%string.
