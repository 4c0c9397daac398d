(** * NetModel: model of causalnex/network/network.py (BayesianNetwork) and of the pgmpy calls it makes.

    pgmpy is a dependency whose source is not in the repository; the parts that are modelled follow
    pgmpy 0.1.12: BayesianModel.add_edges_from, the state counts, MaximumLikelihoodEstimator and
    BayesianEstimator, TabularCPD.normalize.  BayesianModel.predict and predict_probability (used when
    parents are missing) are oracles.

    Simplifications:
    - node names are strings, states are ints or strings; a missing value is [None];
    - floating point numbers are exact rationals;
    - a data frame is its column names and its rows (column -> value), column names being distinct;
    - a data frame without rows is out of scope for fitting and prediction. *)
From Coq Require Import List Bool Arith ZArith Lia String Ascii QArith Qcanon Decimal DecimalString.
From Verif Require Import Base Digraph SmModel.
Import ListNotations.
Local Open Scope string_scope.
Local Open Scope list_scope.

(** [str(x)] for an int or a string. (network.py:451, 536: [str.format]) *)
Definition str_of (l : label) : string :=
  match l with
  | LInt z => NilZero.string_of_int (Z.to_int z)
  | LStr s => s
  end.

(** ** The pgmpy graph *)

(** networkx has_path: the nodes that can be reached in at most [n] steps. (network.py:152) *)
Definition step_from (es : list (string * string)) (l : list string) : list string :=
  l ++ map snd (filter (fun e => smem (fst e) l) es).

(** network.py:152, as above *)
Fixpoint reach (n : nat) (es : list (string * string)) (l : list string) : list string :=
  match n with O => l | S k => reach k es (step_from es l) end.

(** network.py:152: the check in pgmpy's add_edge *)
Definition has_path (es : list (string * string)) (u v : string) : bool :=
  smem v (reach (List.length es) es [u]).

(** network.py:152: adding a node to the graph, once *)
Definition add_name (ns : list string) (x : string) : list string := if smem x ns then ns else ns ++ [x].

(** pgmpy BayesianModel.add_edge: self loops and loops raise ValueError. (network.py:151-152) *)
Definition pg_add_edge (ne : list string * list (string * string)) (e : string * string)
  : res (list string * list (string * string)) :=
  let (ns, es) := ne in
  let (u, v) := e in
  if String.eqb u v then Err ValueError
  else if smem u ns && smem v ns && has_path es v u then Err ValueError
  else Ok (add_name (add_name ns u) v,
           if existsb (fun f => String.eqb (fst f) u && String.eqb (snd f) v) es then es else es ++ [(u, v)]).

(** ** BayesianNetwork *)

(** [cpd.variables[1:]] and [cpd.values] as a matrix: one row per state code. (network.py:249-262) *)
Record table := mkTable { t_parents : list string; t_values : list (list Qc) }.

(** network.py:141-152: the state of the object *)
Record bn := mkBn {
  b_nodes : list string;                                (* self._model.nodes *)
  b_edges : list (string * string);                     (* self._model.edges *)
  b_states : option (list (string * list (label * nat)));  (* self._node_states *)
  b_cpds : list (string * table)                        (* self._model.cpds *)
}.

(** network.py:152: the structure's nodes as strings; the claims about learned networks require string names *)
Definition name_of (l : label) : string := match l with LStr s => s | LInt _ => str_of l end.

(** network.py:111-152 __init__ *)
Definition bn_init (g : graph) : res bn :=
  if (1 <? List.length (components g))%nat then Err ValueError
  else if negb (is_dag label_eqb (edges g)) then Err ValueError
  else
    do ne <- foldM pg_add_edge (map (fun e => (name_of (fst e), name_of (snd e))) (edges g)) ([], []);
    Ok (mkBn (fst ne) (snd ne) None []).

(** [self._model.get_parents(node)]: the predecessors in the order of their edges.
    (network.py:424, 447, 502, 525) *)
Definition get_parents (b : bn) (v : string) : list string :=
  map fst (filter (fun e => String.eqb (snd e) v) (b_edges b)).

(** ** Node states *)

(** network.py:210: for [sorted] *)
Definition is_int (l : label) : bool := match l with LInt _ => true | LStr _ => false end.

(** [sorted(states)]: comparing an int and a string raises TypeError. (network.py:210, 252, 263) *)
Definition sorted_labels (l : list label) : res (list label) :=
  if forallb is_int l || forallb (fun x => negb (is_int x)) l then Ok (isort label_leb l) else Err TypeError.

(** [{v: k for k, v in enumerate(sorted(states))}] (network.py:209-211) *)
Definition number (l : list label) : list (label * nat) := combine l (seq 0 (List.length l)).

(** network.py:206-211: no state is None after the check *)
Fixpoint drop_none {A} (l : list (option A)) : list A :=
  match l with [] => [] | Some x :: r => x :: drop_none r | None :: r => drop_none r end.

(** network.py:184-211 node_states.setter; the sets are lists without duplicates in some order. *)
Definition set_node_states (b : bn) (nodes : list (string * list (option label))) : bn * res unit :=
  if negb (forallb (fun v => smem v (dkeys nodes)) (b_nodes b)) then (b, Err KeyError)
  else if existsb (fun ns => existsb (fun s => match s with None => true | Some _ => false end) (snd ns)) nodes
  then (b, Err ValueError)
  else match mapM (fun ns => do l <- sorted_labels (drop_none (snd ns)); Ok (fst ns, number l)) nodes with
       | Err x => (b, Err x)
       | Ok st => (mkBn (b_nodes b) (b_edges b) (Some st) (b_cpds b), Ok tt)
       end.

(** network.py:174-182 node_states: the keys; AttributeError before any was set. *)
Definition node_states (b : bn) : res (list (string * list label)) :=
  match b_states b with
  | None => Err AttributeError
  | Some st => Ok (map (fun ns => (fst ns, map fst (snd ns))) st)
  end.

(** ** Data frames *)
(** network.py:286, 310: a row of a data frame *)
Notation row := (list (string * option label)) (only parsing).
(** network.py:286, 310: a data frame *)
Record df := mkDf { d_cols : list string; d_rows : list row }.

(** network.py:286, 310: [df[col]] in one row *)
Definition at_col (r : row) (c : string) : option label :=
  match dget String.eqb r c with Some x => x | None => None end.

(** [set(df[c].unique())], in order of appearance. (network.py:286) *)
Definition olabel_eqb (x y : option label) : bool :=
  match x, y with Some a, Some b => label_eqb a b | None, None => true | _, _ => false end.

(** network.py:286 *)
Definition unique {A} (eqb : A -> A -> bool) (l : list A) : list A :=
  fold_left (fun acc x => if memb eqb x acc then acc else acc ++ [x]) l [].

(** network.py:271-288 fit_node_states *)
Definition fit_node_states (b : bn) (d : df) : bn * res unit :=
  set_node_states b (map (fun c => (c, unique olabel_eqb (map (fun r => at_col r c) (d_rows d)))) (d_cols d)).

(** ** Fitting *)

(** network.py:290-312 _state_to_index for one value: [Series.map] gives NaN for an undeclared state. *)
Definition code (sts : list (label * nat)) (x : option label) : option nat :=
  match x with Some l => dget label_eqb sts l | None => None end.

(** network.py:310: [self._node_states[col]] *)
Definition states_at (st : list (string * list (label * nat))) (v : string) : list (label * nat) :=
  match dget String.eqb st v with Some s => s | None => [] end.

(** network.py:348-349 *)
Definition coded (st : list (string * list (label * nat))) (vs : list string) (r : row) : list (string * option nat) :=
  map (fun v => (v, code (states_at st v) (at_col r v))) vs.

(** pgmpy drops the rows that contain NaN in a column of the model (complete_samples_only).
    (network.py:352-356, 366-372) *)
Definition full (r : list (string * option nat)) : bool :=
  forallb (fun x => match snd x with Some _ => true | None => false end) r.

(** network.py:352-356: a cell of the transformed data *)
Definition code_at (r : list (string * option nat)) (v : string) : option nat :=
  match dget String.eqb r v with Some x => x | None => None end.

(** network.py:352-356: comparison of a cell with a code *)
Definition is_code (r : list (string * option nat)) (v : string) (i : nat) : bool :=
  match code_at r v with Some j => (j =? i)%nat | None => false end.

(** pgmpy BaseEstimator.state_counts: how often [v] has code [i] while its parents have the codes [u].
    (network.py:352-356, 366-372) *)
Definition state_count (rs : list (list (string * option nat))) (v : string) (i : nat) (ps : list string) (u : list nat) : nat :=
  List.length (filter (fun r => is_code r v i && forallb (fun pu => is_code r (fst pu) (snd pu)) (combine ps u)) rs).

(** MultiIndex.from_product: the last factor varies fastest.
    (network.py:256; also the columns of pgmpy's tables, network.py:352-356) *)
Fixpoint product {A} (ls : list (list A)) : list (list A) :=
  match ls with
  | [] => [[]]
  | l :: rest => flat_map (fun x => map (cons x) (product rest)) l
  end.

(** network.py:352-356: counts as numbers *)
Definition Qc_of_nat (n : nat) : Qc := Q2Qc (inject_Z (Z.of_nat n)).

(** network.py:352-356: the sum of a column *)
Definition sum_list (l : list Qc) : Qc := fold_right Qcplus 0%Qc l.

(** What is added to the counts of a column before it is normalised. (network.py:351-372) *)
Inductive smoothing := MLE | Pseudo (x : Qc).

(** pgmpy MaximumLikelihoodEstimator.estimate_cpd: a column of zeros is filled with ones;
    BayesianEstimator.estimate_cpd: the pseudo counts are added. (network.py:352-356, 366-372) *)
Definition column (sm : smoothing) (counts : list Qc) : list Qc :=
  match sm with
  | MLE => if forallb (fun c => Qc_eq_bool c 0) counts then map (fun _ => 1%Qc) counts else counts
  | Pseudo x => map (fun c => (c + x)%Qc) counts
  end.

(** TabularCPD.normalize (network.py:352-356, 366-372) *)
Definition normalize (col : list Qc) : list Qc := map (fun c => (c / sum_list col)%Qc) col.

(** network.py:346: the number of states *)
Definition card (st : list (string * list (label * nat))) (v : string) : nat := List.length (states_at st v).

(** network.py:352-356, 366-372: pgmpy's estimate_cpd for one node *)
Definition estimate_cpd (st : list (string * list (label * nat))) (rs : list (list (string * option nat)))
    (sm : smoothing) (ps : list string) (v : string) : table :=
  let cols := map (fun u => normalize (column sm (map (fun i => Qc_of_nat (state_count rs v i ps u)) (seq 0 (card st v)))))
                  (product (map (fun p => seq 0 (card st p)) ps)) in
  mkTable ps (map (fun i => map (fun col => nth i col 0%Qc) cols) (seq 0 (card st v))).

(** The pseudo count of one cell: 1 for K2, ess / (cardinality * product of the parents') for BDeu.
    (network.py:366-372) *)
Definition bdeu (st : list (string * list (label * nat))) (ess : Qc) (ps : list string) (v : string) : Qc :=
  (ess / Qc_of_nat (card st v * fold_right Nat.mul 1%nat (map (card st) ps)))%Qc.

(** network.py:314-379 fit_cpds *)
Definition fit_cpds (b : bn) (d : df) (method : string) (prior : option string) (ess : option Qc) : bn * res unit :=
  match b_states b with
  | None => (b, Err AttributeError)
  | Some st =>
      if negb (forallb (fun v => smem v (d_cols d)) (b_nodes b)) then (b, Err KeyError)
      else
        let rs := filter full (map (coded st (b_nodes b)) (d_rows d)) in
        let fit_with sm :=
          (mkBn (b_nodes b) (b_edges b) (b_states b)
             (map (fun v => let ps := ssort (get_parents b v) in (v, estimate_cpd st rs (sm ps v) ps v)) (ssort (b_nodes b))), Ok tt) in
        if String.eqb method "MaximumLikelihoodEstimator" then fit_with (fun _ _ => MLE)
        else if String.eqb method "BayesianEstimator" then
          match prior with
          | Some p =>
              if String.eqb p "K2" then fit_with (fun _ _ => Pseudo 1%Qc)
              else if String.eqb p "BDeu" then
                match ess with
                | None => (b, Err TypeError)
                | Some e => fit_with (fun ps v => Pseudo (bdeu st e ps v))
                end
              else (b, Err ValueError)
          | None => (b, Err ValueError)
          end
        else (b, Err ValueError)
  end.

(** ** CPDs as data frames *)
(** network.py:258-267 *)
Record frame := mkFrame {
  f_index : list label;          (* the states of the node *)
  f_names : list string;         (* the parents *)
  f_columns : list (list label); (* their states; [[]] for the single column of a node without parents *)
  f_rows : list (list Qc)
}.

(** [values.reshape(n, m)] (network.py:258-262) *)
Fixpoint chunks {A} (n m : nat) (l : list A) : list (list A) :=
  match n with O => [] | S k => firstn m l :: chunks k m (skipn m l) end.

(** network.py:223-269 cpds, one node. *)
Definition cpd_frame (st : list (string * list (label * nat))) (v : string) (t : table) : res frame :=
  do its <- mapM (fun p => match dget String.eqb st p with
                           | Some s => sorted_labels (map fst s)
                           | None => Err KeyError
                           end) (t_parents t);
  do own <- match dget String.eqb st v with Some s => sorted_labels (map fst s) | None => Err KeyError end;
  let cols := product its in
  let flat := List.concat (t_values t) in
  if (List.length flat =? List.length own * List.length cols)%nat
  then Ok (mkFrame own (t_parents t) cols (chunks (List.length own) (List.length cols) flat))
  else Err ValueError.

(** network.py:223-269 *)
Definition cpds (b : bn) : res (list (string * frame)) :=
  match b_states b with
  | None => match b_cpds b with [] => Ok [] | _ => Err TypeError end
  | Some st => mapM (fun vt => do f <- cpd_frame st (fst vt) (snd vt); Ok (fst vt, f)) (b_cpds b)
  end.

(** ** Prediction *)

(** A cell of the copy of the data: a user's value or a probability that was written to it.
    (network.py:453, 531: [row[parent]]) *)
Inductive cell := CVal (x : option label) | CNum (q : Qc).

(** A label that equals the cell (1.0 == 1 in Python). (network.py:453, 531) *)
Definition cell_label (c : cell) : option label :=
  match c with
  | CVal x => x
  | CNum q => if (Qden (this q) =? 1)%positive then Some (LInt (Qnum (this q))) else None
  end.

(** network.py:453, 531: looking up a label in an index *)
Fixpoint index_of {A} (eqb : A -> A -> bool) (x : A) (l : list A) : option nat :=
  match l with
  | [] => None
  | y :: r => if eqb x y then Some O else match index_of eqb x r with Some n => Some (S n) | None => None end
  end.

(** network.py:453, 531: comparing the tuples of a MultiIndex *)
Fixpoint list_eqb {A} (eqb : A -> A -> bool) (l m : list A) : bool :=
  match l, m with
  | [], [] => true
  | x :: l', y :: m' => eqb x y && list_eqb eqb l' m'
  | _, _ => false
  end.

(** [cpd[tuple([row[parent] for parent in parents])]] (the column [""] without parents): KeyError when
    the column is missing. (network.py:453-455, 530-532) *)
Definition cpd_column (f : frame) (ps : list string) (r : list (string * cell)) : res (list Qc) :=
  do key <- mapM (fun p => match dget String.eqb r p with
                           | Some c => match cell_label c with Some l => Ok l | None => Err KeyError end
                           | None => Err KeyError
                           end) ps;
  match index_of (list_eqb label_eqb) key (f_columns f) with
  | Some j => Ok (map (fun rw => nth j rw 0%Qc) (f_rows f))
  | None => Err KeyError
  end.

(** network.py:445, 523: the copy of the data *)
Definition start_row (r : row) : list (string * cell) := map (fun cx => (fst cx, CVal (snd cx))) r.

(** [Series.idxmax]: the first label with the largest value. (network.py:453-455) *)
Fixpoint idxmax (best : label * Qc) (l : list (label * Qc)) : label :=
  match l with
  | [] => fst best
  | x :: r => idxmax (if Qcltb (snd best) (snd x) then x else best) r
  end.

(** network.py:448, 526: [self.cpds[node]] *)
Definition frame_of (b : bn) (v : string) : res frame :=
  do fs <- cpds b;
  match dget String.eqb fs v with Some f => Ok f | None => Err KeyError end.

(** [all(parent in data.columns ...)]; get_parents of an unknown node raises NetworkXError. (network.py:424, 502) *)
Definition has_parents (b : bn) (d : df) (v : string) : res bool :=
  if smem v (b_nodes b) then Ok (forallb (fun p => smem p (d_cols d)) (get_parents b v)) else Err NetworkXError.

(** network.py:429-458 _predict_from_complete_data: the column [{node}_prediction]. *)
Definition predict_complete (b : bn) (d : df) (v : string) : res (list label) :=
  let ps := ssort (get_parents b v) in
  do f <- frame_of b v;
  mapM (fun r =>
    do col <- cpd_column f ps (start_row r);
    match combine (f_index f) col with
    | [] => Err ValueError
    | x :: l => Ok (idxmax x l)
    end) (d_rows d).

(** network.py:507-543 _predict_probability_from_complete_data.  [order] is the order in which Python
    iterates over the set of states.  Each pass writes the column [{node}_{state}] into the copy that
    the next pass reads. *)
Definition prob_of (f : frame) (ps : list string) (r : list (string * cell)) (s : label) : res Qc :=
  do col <- cpd_column f ps r;
  match index_of label_eqb s (f_index f) with
  | Some i => Ok (nth i col 0%Qc)
  | None => Err KeyError
  end.

(** network.py:536 *)
Definition col_name (v : string) (s : label) : string := v ++ "_" ++ str_of s.

(** network.py:534-539 *)
Definition write_state (f : frame) (ps : list string) (v : string) (rs : list (list (string * cell))) (s : label)
  : res (list (list (string * cell))) :=
  mapM (fun r => do p <- prob_of f ps r s; Ok (dset String.eqb r (col_name v s) (CNum p))) rs.

(** network.py:507-543 *)
Definition predict_prob_complete (order : list label) (b : bn) (d : df) (v : string)
  : res (list string * list (list cell)) :=
  let ps := ssort (get_parents b v) in
  do f <- frame_of b v;
  do rs <- foldM (write_state f ps v) order (map start_row (d_rows d));
  let cs := map (col_name v) order in
  do out <- mapM (fun r => mapM (fun c => match dget String.eqb r c with Some x => Ok x | None => Err KeyError end) cs) rs;
  Ok (cs, out).

(** ** Prediction with missing parents: pgmpy answers in codes *)

(** What pgmpy's BayesianModel.predict and predict_probability answer for one row of evidence: a code,
    respectively the probabilities by code, for every variable that is missing. (network.py:486) *)
Definition predictor := list (string * nat) -> string -> nat.
(** network.py:568-570 *)
Definition prob_predictor := list (string * nat) -> string -> list Qc.

(** network.py:460-488: map the columns, drop the column of the node.  A NaN in the evidence raises
    inside pgmpy (the class of that exception is not modelled; KeyError stands for it). *)
Definition evidence (b : bn) (d : df) (v : string) : res (list (list (string * nat))) :=
  match b_states b with
  | None => Err TypeError
  | Some st =>
      if negb (forallb (fun c => smem c (dkeys st)) (d_cols d)) then Err KeyError
      else if negb (smem v (d_cols d)) then Err KeyError
      else
        let cs := filter (fun c => negb (String.eqb c v)) (d_cols d) in
        if negb (forallb (fun c => smem c (b_nodes b)) cs) then Err ValueError
        else mapM (fun r => mapM (fun c => match code (states_at st c) (at_col r c) with
                                           | Some i => Ok (c, i)
                                           | None => Err KeyError
                                           end) cs) (d_rows d)
  end.

(** network.py:460-488 *)
Definition predict_incomplete (pg : predictor) (b : bn) (d : df) (v : string) : res (list label) :=
  do es <- evidence b d v;
  Ok (map (fun e => LInt (Z.of_nat (pg e v))) es).

(** [^{node}_[0-9]+$] selects the node's own columns [{node}_{code}]; node names are taken literally.
    (network.py:545-582) *)
Definition predict_prob_incomplete (pg : prob_predictor) (b : bn) (d : df) (v : string) : res (list string * list (list Qc)) :=
  do es <- evidence b d v;
  match b_states b with
  | None => Err TypeError
  | Some st => Ok (map (fun i => col_name v (LInt (Z.of_nat i))) (seq 0 (card st v)), map (fun e => pg e v) es)
  end.

(** network.py:412-427 predict *)
Definition predict (pg : predictor) (b : bn) (d : df) (v : string) : res (list label) :=
  do all <- has_parents b d v;
  if all then predict_complete b d v else predict_incomplete pg b d v.

(** network.py:490-505 predict_probability; the table of a complete row has cells. *)
Definition predict_probability (order : list label) (pg : prob_predictor) (b : bn) (d : df) (v : string)
  : res (list string * list (list cell)) :=
  do all <- has_parents b d v;
  if all then predict_prob_complete order b d v
  else do r <- predict_prob_incomplete pg b d v; Ok (fst r, map (map CNum) (snd r)).
