(** * CopyModel: copies and conversions of a StructureModel.

    The methods are networkx 2.5's (networkx/classes/digraph.py, graph.py); StructureModel decides the classes they
    use (structuremodel.py:107-119) and overrides the add_edges_from through which they fill the new graph.

    Simplification: the dictionaries of the copies are values, so that copying them (shallow or deep) is not visible. *)
From Coq Require Import List Bool Arith ZArith Lia String QArith Qcanon.
From Verif Require Import Base Digraph SmModel.
Import ListNotations.
Local Open Scope string_scope.
Local Open Scope list_scope.

(** structuremodel.py:125-190: a triple for each edge, as it is passed to add_edges_from *)
Definition triples (es : list (label * label * list (string * aval))) : list etuple :=
  map (fun e => E3 (fst (fst e)) (snd (fst e)) (snd e)) es.

(** structuremodel.py:65, inherited copy(): a new StructureModel, nodes and then edges in the order of the original *)
Definition copy (g : graph) : graph :=
  fst (add_edges_from (fold_left add_node (nodes g) []) (triples (edges_data g)) "unknown" []).

(** structuremodel.py:107-112 to_directed_class, through the inherited to_directed(): a new StructureModel *)
Definition to_directed (g : graph) : graph :=
  fst (add_edges_from (fold_left add_node (nodes g) []) (triples (edges_data g)) "unknown" []).

(** structuremodel.py:65, inherited reverse(): the edges the other way round *)
Definition reverse (g : graph) : graph :=
  fst (add_edges_from (fold_left add_node (nodes g) []) (triples (map (fun e => (snd (fst e), fst (fst e), snd e)) (edges_data g))) "unknown" []).

(** structuremodel.py:83-105 [StructureModel(g, origin)] of a StructureModel *)
Definition from_graph (g : graph) (origin : string) : res graph := sm_new (nodes g) (triples (edges_data g)) origin.

(** structuremodel.py:114-119 to_undirected_class: networkx's Graph keeps one dictionary for both directions; its
    add_edges_from updates the dictionary that is there. *)
Definition put_uedge (h : graph) (u v : label) (dd : list (string * aval)) : graph :=
  let h1 := add_node (add_node h u) v in
  let old := match edge_attrs h1 u v with Some d => d | None => [] end in
  let d := dupdate String.eqb old dd in
  let h2 := dset label_eqb h1 u (dset label_eqb (succ_of h1 u) v d) in
  dset label_eqb h2 v (dset label_eqb (succ_of h2 v) u d).

(** structuremodel.py:114-119, through the inherited to_undirected() *)
Definition to_undirected (g : graph) : graph :=
  fold_left (fun h e => put_uedge h (fst (fst e)) (snd (fst e)) (snd e)) (edges_data g) (fold_left add_node (nodes g) []).
