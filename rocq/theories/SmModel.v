(** * SmModel: model of causalnex/structure/structuremodel.py (StructureModel).

    StructureModel extends networkx.DiGraph.  The networkx methods it calls are modelled as in
    networkx 2.x (networkx/classes/digraph.py).

    Simplifications:
    - nodes are ints or strings; node and graph attributes are left out;
    - attribute values are numbers (exact rationals), strings, None or other objects;
    - the adjacency dictionary [_adj] is kept; its mirror [_pred] holds the same edge dictionaries. *)
From Coq Require Import List Bool Arith ZArith Lia String QArith Qcanon.
From Verif Require Import Base Digraph.
Import ListNotations.
Local Open Scope string_scope.
Local Open Scope list_scope.

(** structuremodel.py:80: attribute values *)
Inductive aval := ANum (q : Qc) | AStr (s : string) | ANone | AObj (z : Z).

(** structuremodel.py:80: the attributes of an edge *)
Notation attrs := (list (string * aval)) (only parsing).
(** structuremodel.py:65-81: networkx's dictionary of the successors of a node *)
Notation succs := (list (label * list (string * aval))) (only parsing).

(** [self._adj]: node -> successor -> edge attributes. (structuremodel.py:65-81) *)
Definition graph := list (label * succs).

(** structuremodel.py:105, 241: looking up a node *)
Notation gget := (dget label_eqb) (only parsing).
(** structuremodel.py:241: looking up an attribute *)
Notation aget := (dget String.eqb) (only parsing).

(** structuremodel.py:287: [self.nodes] *)
Definition nodes (g : graph) : list label := dkeys g.

(** [G.edges(data=True)] (structuremodel.py:252, 302) *)
Definition edges_data (g : graph) : list (label * label * attrs) :=
  flat_map (fun us => map (fun va => (fst us, fst va, snd va)) (snd us)) g.

(** [G.edges] (structuremodel.py:104, 241) *)
Definition edges (g : graph) : list (label * label) := map fst (edges_data g).

(** structuremodel.py:241: [self[u]] *)
Definition succ_of (g : graph) (u : label) : succs :=
  match gget g u with Some s => s | None => [] end.

(** [G[u][v]] (structuremodel.py:105, 241) *)
Definition edge_attrs (g : graph) (u v : label) : option attrs := gget (succ_of g u) v.

(** networkx: a node is created with empty adjacency when it is not there. (structuremodel.py:151, 190) *)
Definition add_node (g : graph) (u : label) : graph :=
  if dhas label_eqb g u then g else g ++ [(u, [])].

(** networkx add_edge / the body of add_edges_from: [datadict.update(attr); datadict.update(dd)] on
    the existing edge dictionary or a new one. (structuremodel.py:151, 190) *)
Definition put_edge (g : graph) (u v : label) (attr dd : attrs) : graph :=
  let g1 := add_node (add_node g u) v in
  let old := match edge_attrs g1 u v with Some d => d | None => [] end in
  dset label_eqb g1 u
       (dset label_eqb (succ_of g1 u) v (dupdate String.eqb (dupdate String.eqb old attr) dd)).

(** structuremodel.py:41-62 _validate_origin *)
Definition allowed : list string := ["unknown"; "learned"; "expert"].

(** structuremodel.py:41-62; the message is left out *)
Definition validate_origin (origin : string) : res unit :=
  if smem origin allowed then Ok tt else Err ValueError.

(** [attr.update({"origin": origin})] (structuremodel.py:150, 189, 230) *)
Definition with_origin (attr : attrs) (origin : string) : attrs :=
  dset String.eqb attr "origin" (AStr origin).

(** structuremodel.py:125-151 add_edge *)
Definition add_edge (g : graph) (u v : label) (origin : string) (attr : attrs) : graph * res unit :=
  match validate_origin origin with
  | Err x => (g, Err x)
  | Ok _ => (put_edge g u v (with_origin attr origin) [], Ok tt)
  end.

(** An element of [ebunch_to_add]: a pair, a triple with a dictionary, or a tuple of another length.
    (structuremodel.py:176-179) *)
Inductive etuple := E2 (u v : label) | E3 (u v : label) (d : attrs) | EBad.

(** networkx add_edges_from: a bad tuple raises NetworkXError after the ones before it were added.
    (structuremodel.py:190) *)
Fixpoint put_edges (g : graph) (es : list etuple) (attr : attrs) : graph * res unit :=
  match es with
  | [] => (g, Ok tt)
  | E2 u v :: rest => put_edges (put_edge g u v attr []) rest attr
  | E3 u v d :: rest => put_edges (put_edge g u v attr d) rest attr
  | EBad :: _ => (g, Err NetworkXError)
  end.

(** structuremodel.py:157-190 add_edges_from *)
Definition add_edges_from (g : graph) (es : list etuple) (origin : string) (attr : attrs) : graph * res unit :=
  match validate_origin origin with
  | Err x => (g, Err x)
  | Ok _ => put_edges g es (with_origin attr origin)
  end.

(** An element of the argument of add_weighted_edges_from; unpacking another tuple raises
    ValueError when the generator reaches it. (structuremodel.py:216-219) *)
Inductive wtuple := W3 (u v : label) (w : aval) | WBad.

(** networkx add_weighted_edges_from feeds [(u, v, {weight: d})] to [self.add_edges_from], which is
    the overriding one.  Its generator raises while add_edges_from consumes it. (structuremodel.py:231) *)
Fixpoint put_weighted (g : graph) (es : list wtuple) (weight : string) (attr : attrs) : graph * res unit :=
  match es with
  | [] => (g, Ok tt)
  | W3 u v w :: rest => put_weighted (put_edge g u v attr [(weight, w)]) rest weight attr
  | WBad :: _ => (g, Err ValueError)
  end.

(** structuremodel.py:196-231 add_weighted_edges_from; the origin is validated a second time and put
    in [attr] a second time by add_edges_from. *)
Definition add_weighted_edges_from (g : graph) (es : list wtuple) (weight origin : string) (attr : attrs)
  : graph * res unit :=
  match validate_origin origin with
  | Err x => (g, Err x)
  | Ok _ =>
      match validate_origin origin with
      | Err x => (g, Err x)
      | Ok _ => put_weighted g es weight (with_origin (with_origin attr origin) origin)
      end
  end.

(** structuremodel.py:83-105 __init__ with a graph or an edge list: networkx copies nodes and edges
    through add_nodes_from and the overriding add_edges_from; then every edge gets the origin. *)
Definition set_origins (g : graph) (origin : string) : graph :=
  map (fun us => (fst us, map (fun va => (fst va, dset String.eqb (snd va) "origin" (AStr origin))) (snd us))) g.

(** structuremodel.py:83-105; the graph attributes are left out *)
Definition sm_new (ns : list label) (es : list etuple) (origin : string) : res graph :=
  match validate_origin origin with
  | Err x => Err x
  | Ok _ =>
      match add_edges_from (fold_left add_node ns []) es "unknown" [] with
      | (g, Ok _) => Ok (set_origins g origin)
      | (_, Err x) => Err x
      end
  end.

(** structuremodel.py:233-241 edges_with_origin; [self[u][v]["origin"]] raises KeyError without one. *)
Definition aval_eqb (a b : aval) : bool :=
  match a, b with
  | ANum x, ANum y => Qc_eq_bool x y
  | AStr x, AStr y => String.eqb x y
  | ANone, ANone => true
  | AObj x, AObj y => Z.eqb x y
  | _, _ => false
  end.

(** structuremodel.py:233-241 *)
Definition edges_with_origin (g : graph) (origin : string) : res (list (label * label)) :=
  do fl <- mapM (fun e => match aget (snd e) "origin" with
                          | None => Err KeyError
                          | Some o => Ok (fst e, aval_eqb o (AStr origin))
                          end) (edges_data g);
  Ok (map fst (filter snd fl)).

(** networkx remove_edge, remove_edges_from (missing edges are ignored), remove_node.
    (structuremodel.py:251, 303) *)
Definition del_edge (g : graph) (u v : label) : graph :=
  dset label_eqb g u (ddel label_eqb (succ_of g u) v).

(** structuremodel.py:303, networkx's remove_edge *)
Definition remove_edge (g : graph) (u v : label) : graph * res unit :=
  match edge_attrs g u v with
  | None => (g, Err NetworkXError)
  | Some _ => (del_edge g u v, Ok tt)
  end.

(** structuremodel.py:251, networkx's remove_edges_from *)
Definition remove_edges_from (g : graph) (es : list (label * label)) : graph :=
  fold_left (fun g e => match edge_attrs g (fst e) (snd e) with
                        | None => g
                        | Some _ => del_edge g (fst e) (snd e)
                        end) es g.

(** structuremodel.py:65, networkx's remove_node, inherited *)
Definition remove_node (g : graph) (u : label) : graph * res unit :=
  if dhas label_eqb g u
  then (map (fun us => (fst us, ddel label_eqb (snd us) u)) (ddel label_eqb g u), Ok tt)
  else (g, Err NetworkXError).

(** [self.edges(data="weight")]: None when there is no such attribute. (structuremodel.py:252, 302) *)
Definition weight_of (a : attrs) : aval := match aget a "weight" with Some w => w | None => ANone end.

(** structuremodel.py:252, 302: absolute value *)
Definition Qcabs (x : Qc) : Qc := if Qclt_le_dec x 0 then (- x)%Qc else x.

(** [abs] / [np.abs]: TypeError for anything but a number. (structuremodel.py:252, 302) *)
Definition abs_val (w : aval) : res Qc := match w with ANum x => Ok (Qcabs x) | _ => Err TypeError end.

(** structuremodel.py:252: [<] on numbers *)
Definition Qcltb (x y : Qc) : bool := if Qclt_le_dec x y then true else false.

(** structuremodel.py:243-253 remove_edges_below_threshold: the list is complete before an edge is removed. *)
Definition remove_edges_below_threshold (g : graph) (threshold : Qc) : graph * res unit :=
  match mapM (fun e => do a <- abs_val (weight_of (snd e)); Ok (fst e, Qcltb a threshold)) (edges_data g) with
  | Err x => (g, Err x)
  | Ok fl => (remove_edges_from g (map fst (filter snd fl)), Ok tt)
  end.

(** [min(..., key=...)]: the first smallest. (structuremodel.py:302) *)
Fixpoint min_by {A} (best : A * Qc) (l : list (A * Qc)) : A * Qc :=
  match l with
  | [] => best
  | x :: r => min_by (if Qcltb (snd x) (snd best) then x else best) r
  end.

(** structuremodel.py:296-303 threshold_till_dag; [is_directed_acyclic_graph] is modelled by its
    result (Digraph.v).  Every round removes an edge, so their number is enough fuel. *)
Fixpoint threshold_loop (fuel : nat) (g : graph) : graph * res unit :=
  if is_dag label_eqb (edges g) then (g, Ok tt)
  else match fuel with
       | O => (g, Err OutOfFuel)
       | S n =>
           match mapM (fun e => do a <- abs_val (weight_of (snd e)); Ok (fst e, a)) (edges_data g) with
           | Err x => (g, Err x)
           | Ok [] => (g, Err ValueError)
           | Ok (x :: r) =>
               let (uv, _) := min_by x r in
               match remove_edge g (fst uv) (snd uv) with
               | (g', Ok _) => threshold_loop n g'
               | (g', Err y) => (g', Err y)
               end
           end
       end.

(** structuremodel.py:296-303 *)
Definition threshold_till_dag (g : graph) : graph * res unit := threshold_loop (List.length (edges g)) g.

(** networkx weakly_connected_components, modelled by its result: the nodes that can be reached over
    edges in either direction, the components in the order of their first node. (structuremodel.py:266, 289) *)
Definition widen (es : list (label * label)) (l : list label) : list label :=
  fold_left (fun l e =>
    if lmem (fst e) l then (if lmem (snd e) l then l else snd e :: l)
    else if lmem (snd e) l then fst e :: l else l) es l.

(** structuremodel.py:266, 289, as above *)
Fixpoint widen_n (n : nat) (es : list (label * label)) (l : list label) : list label :=
  match n with O => l | S k => widen_n k es (widen es l) end.

(** structuremodel.py:266, 289, as above *)
Definition component (g : graph) (x : label) : list label :=
  let r := widen_n (List.length (nodes g)) (edges g) [x] in
  filter (fun y => lmem y r) (nodes g).

(** structuremodel.py:266, 289, as above *)
Definition components (g : graph) : list (list label) :=
  fold_left (fun cs x => if existsb (lmem x) cs then cs else cs ++ [component g x]) (nodes g) [].

(** [self.subgraph(c).copy()]: the copy is a new StructureModel that is filled through the overriding
    add_edges_from (origin "unknown" first, then the copied edge dictionary).  The order of nodes in the
    copy may depend on set order; here it is the order of the original. (structuremodel.py:266, 289) *)
Definition subgraph_copy (g : graph) (c : list label) : graph :=
  let ns := filter (fun x => lmem x c) (nodes g) in
  let es := filter (fun e => lmem (fst (fst e)) c && lmem (snd (fst e)) c) (edges_data g) in
  fst (add_edges_from (fold_left add_node ns []) (map (fun e => E3 (fst (fst e)) (snd (fst e)) (snd e)) es) "unknown" []).

(** structuremodel.py:255-272 get_largest_subgraph *)
Definition get_largest_subgraph (g : graph) : option graph :=
  snd (fold_left (fun (best : nat * option graph) s =>
         if (fst best <? List.length (edges s))%nat then (List.length (edges s), Some s) else best)
       (map (subgraph_copy g) (components g)) (O, None)).

(** structuremodel.py:274-294 get_target_subgraph *)
Definition get_target_subgraph (g : graph) (x : label) : res graph :=
  if lmem x (nodes g) then
    match find (fun s => lmem x (nodes s)) (map (subgraph_copy g) (components g)) with
    | Some s => Ok s
    | None => Err NodeNotFound
    end
  else Err NodeNotFound.

(** A history of calls. (structuremodel.py:125-303) *)
Inductive sop :=
| AddEdge (u v : label) (origin : string) (attr : attrs)
| AddEdgesFrom (es : list etuple) (origin : string) (attr : attrs)
| AddWeighted (es : list wtuple) (weight origin : string) (attr : attrs)
| RemoveEdge (u v : label)
| RemoveEdgesFrom (es : list (label * label))
| RemoveNode (u : label)
| Below (t : Qc)
| TillDag.

(** structuremodel.py:125-303: one call *)
Definition sstep (g : graph) (o : sop) : graph * res unit :=
  match o with
  | AddEdge u v o a => add_edge g u v o a
  | AddEdgesFrom es o a => add_edges_from g es o a
  | AddWeighted es w o a => add_weighted_edges_from g es w o a
  | RemoveEdge u v => remove_edge g u v
  | RemoveEdgesFrom es => (remove_edges_from g es, Ok tt)
  | RemoveNode u => remove_node g u
  | Below t => remove_edges_below_threshold g t
  | TillDag => threshold_till_dag g
  end.

(** structuremodel.py:125-303: the calls of a history; exceptions are caught by the user *)
Fixpoint srun (g : graph) (ops : list sop) : graph :=
  match ops with
  | [] => g
  | o :: rest => srun (fst (sstep g o)) rest
  end.
