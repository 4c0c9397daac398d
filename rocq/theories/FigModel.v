(** * FigModel: model of plot_structure (causalnex/plots/plots.py), of DAGBase.plot_dag
    (causalnex/structure/pytorch/sklearn/_base.py) and of causalnex/plots/display.py.

    - pygraphviz, IPython and matplotlib are taken to be installed (otherwise Warning or ImportError is raised).
    - A figure is what is handed to pygraphviz: the decorated graph, the attributes of the graph and the layout program.
      What Graphviz draws from it is not modelled, nor are pixels. *)
From Coq Require Import List Bool Arith ZArith String QArith Qcanon.
From Verif Require Import Base Names Digraph SmModel NetModel PlotModel.
Import ListNotations.
Local Open Scope string_scope.
Local Open Scope list_scope.

(** plots.py:227-236 GRAPH_STYLE; True is [AObj 1]. *)
Definition graph_style : adict :=
  [("bgcolor", AStr "#001521"); ("fontcolor", AStr "#FFFFFFD9"); ("fontname", AStr "Helvetica"); ("splines", AObj 1); ("overlap", AStr "scale");
   ("scale", ANum (Q2Qc 2)); ("pad", AStr "0.8,0.3"); ("dpi", ANum (Q2Qc 300))].

(** plots.py:241-252 NODE_STYLE.WEAK *)
Definition node_weak : adict :=
  [("fontcolor", AStr "#FFFFFF8c"); ("fontname", AStr "Helvetica"); ("shape", AStr "circle"); ("fixedsize", AObj 1); ("style", AStr "filled");
   ("fillcolor", AStr "#4a90e2d9"); ("color", AStr "#FFFFFFD9"); ("width", ANum (Q2Qc (1 # 20))); ("penwidth", AStr "1"); ("fontsize", ANum (Q2Qc 10))].
(** plots.py:280-285 EDGE_STYLE.WEAK *)
Definition edge_weak : adict :=
  [("color", match color_gradient_string "#FFFFFF33" "#ffffffaa" 30 with Ok s => AStr s | Err _ => ANone end);
   ("arrowhead", AStr "normal"); ("penwidth", ANum (Q2Qc (1 # 4))); ("arrowsize", ANum (Q2Qc (2 # 5)))].

(** plots.py:107-135: the pygraphviz graph after layout; its nodes and edges have the attributes at the addresses
    of [fig_graph].  Attributes keep their Python values here, pygraphviz makes strings of them. *)
Record figure := mkFig { fig_graph : pgraph; fig_attrs : list (string * aval); fig_prog : string }.

(** plots.py:39-135 plot_structure; arguments that are None are empty dictionaries here (both are falsy).  The
    networkx graph has no graph attributes of its own that to_agraph would take over. *)
Definition plot_structure (node_style edge_style : nat) (h : heap) (sm : pgraph) (prog : string)
  (all_node all_edge : adict) (node : list (label * adict)) (edge : list (label * label * adict)) (graph : adict) : heap * figure :=
  let '(h', g) := add_attributes node_style edge_style h sm all_node all_edge node edge in
  (h', mkFig g (dupdate String.eqb graph_style graph) prog).

(** _base.py:383-391: the dictionary [plot_structure_kwargs]; a keyword with the value None is [Some []].
    [kw_other]: there is a keyword that plot_structure does not have. *)
Record kwargs := mkKw {
  kw_prog : option string; kw_all_node : option (list (string * aval)); kw_all_edge : option (list (string * aval));
  kw_node : option (list (label * list (string * aval))); kw_edge : option (list (label * label * list (string * aval)));
  kw_graph : option (list (string * aval)); kw_other : bool }.

(** _base.py:388: whether the dictionary has any keyword *)
Definition kw_truthy (k : kwargs) : bool :=
  match k with mkKw None None None None None None false => false | _ => true end.

(** The keyword or its default (plots.py:41-46) *)
Definition or_empty {A} (o : option (list A)) : list A := match o with Some l => l | None => [] end.

(** structuremodel.py:296-303: the graph as networkx sees it, with the attribute dictionaries of the edges *)
Definition view (h : heap) (g : pgraph) : graph :=
  map (fun na => (fst na, flat_map (fun ea => if label_eqb (fst (fst ea)) (fst na) then [(snd (fst ea), hread h (snd ea))] else []) (pg_edges g))) (pg_nodes g).

(** structuremodel.py:296-303 threshold_till_dag: removing an edge leaves the dictionaries of the others as they are *)
Definition till_dag_pg (h : heap) (g : pgraph) : pgraph * res unit :=
  let (g', r) := threshold_till_dag (view h g) in
  (mkPg (pg_nodes g) (filter (fun ea => existsb (edge_eqb (fst ea)) (edges g')) (pg_edges g)), r).

(** Graphs are mutable objects too: a list of them, and the estimator holds the place of its own. (_base.py:378-380) *)
Definition gread (gs : list pgraph) (a : nat) : pgraph := nth a gs (mkPg [] []).
(** _base.py:380: a method changes the graph at a place *)
Definition gset (gs : list pgraph) (a : nat) (g : pgraph) : list pgraph := firstn a gs ++ g :: skipn (S a) gs.

(** display.py:72, 111-121: how the drawing is shown: an IPython image, an axes of the caller, or a new figure *)
Inductive shown := Image | OnAxes | NewFigure.

(** _base.py:398-402, display.py:52-72, 75-121: the figure, the program that draws it and how it is shown *)
Record picture := mkPic { pic_fig : figure; pic_prog : string; pic_shown : shown }.

(** _base.py:348-402 plot_dag.  [fitted] is the place of [graph_] of a fitted estimator.  [node_style] and [edge_style]
    are the addresses of NODE_STYLE.NORMAL and EDGE_STYLE.NORMAL, [node_w] and [edge_w] those of the WEAK styles.
    [own_ax]: an axes was given.  The size of pixels is not modelled. *)
Definition plot_dag (node_style edge_style node_w edge_w : nat) (h : heap) (gs : list pgraph) (fitted : option nat)
  (enforce_dag : bool) (kw : option kwargs) (use_mpl own_ax : bool) : heap * list pgraph * res picture :=
  match fitted with
  | None => (h, gs, Err NotFittedError)
  | Some self =>
      let '(h1, g) := deepcopy h (gread gs self) in
      let graph := List.length gs in
      let gs1 := gs ++ [g] in
      let '(gs2, r) := if enforce_dag then (let (g', r) := till_dag_pg h1 (gread gs1 graph) in (gset gs1 graph g', r)) else (gs1, Ok tt) in
      match r with
      | Err x => (h1, gs2, Err x)
      | Ok _ =>
          let default := mkKw None (Some (hread h1 node_w)) (Some (hread h1 edge_w)) None None (Some [("scale", AStr "0.5")]) false in
          let k := match kw with Some k => if kw_truthy k then k else default | None => default end in
          let prog := match kw_prog k with Some p => p | None => "neato" end in
          if kw_other k then (h1, gs2, Err TypeError)
          else
            let '(h2, f) := plot_structure node_style edge_style h1 (gread gs2 graph) prog (or_empty (kw_all_node k)) (or_empty (kw_all_edge k))
                              (or_empty (kw_node k)) (or_empty (kw_edge k)) (or_empty (kw_graph k)) in
            (h2, gs2, Ok (mkPic f prog (if use_mpl then (if own_ax then OnAxes else NewFigure) else Image)))
      end
  end.
