(** * DynoModel: model of causalnex/structure/dynotears.py.

    As in NotearsModel.v the optimiser and the penalty are oracles; data values may be any floats.  The
    regularisation parameters only go into the objective. *)
From Coq Require Import List Bool Arith ZArith Lia String QArith Qcanon.
From Verif Require Import Base Names QcX Digraph SmModel NotearsModel TransModel MapperModel.
Import ListNotations.
Local Open Scope string_scope.
Local Open Scope list_scope.
Local Open Scope nat_scope.

(** Banned edges (lag, from, to), parents and children. (dynotears.py:53-55, 170-172) *)
Record dtabu (A : Type) := mkDtabu { dt_edges : option (list (Z * A * A)); dt_parents : option (list A); dt_children : option (list A) }.
Arguments mkDtabu {A}. Arguments dt_edges {A}. Arguments dt_parents {A}. Arguments dt_children {A}.

(** dynotears.py:221, 237 *)
Definition zzzmem (k x y : Z) (l : list (Z * Z * Z)) : bool :=
  existsb (fun e => Z.eqb k (fst (fst e)) && Z.eqb x (snd (fst e)) && Z.eqb y (snd e)) l.

(** dynotears.py:217-229: the bounds of the current-slice entry (i, j). *)
Definition dbnd_w (t : dtabu Z) (i j : nat) : bound :=
  if i =? j then fixed0
  else if on_list (dt_edges t) (zzzmem 0 (Z.of_nat i) (Z.of_nat j)) then fixed0
  else if on_list (dt_parents t) (zmem (Z.of_nat i)) then fixed0
  else if on_list (dt_children t) (zmem (Z.of_nat j)) then fixed0
  else nonneg.

(** dynotears.py:231-246: the bounds of entry (i, j) at lag k. *)
Definition dbnd_a (t : dtabu Z) (k i j : nat) : bound :=
  if on_list (dt_edges t) (zzzmem (Z.of_nat k) (Z.of_nat i) (Z.of_nat j)) then fixed0
  else if on_list (dt_parents t) (zmem (Z.of_nat i)) then fixed0
  else if on_list (dt_children t) (zmem (Z.of_nat j)) then fixed0
  else nonneg.

(** dynotears.py:227-228, 243-244 *)
Definition dgrid (f : nat -> nat -> bound) (d : nat) : list bound := flat_map (fun i => map (f i) (seq 0 d)) (seq 0 d).
(** dynotears.py:217, 234 *)
Definition twice {A} (l : list A) : list A := l ++ l.
(** dynotears.py:217-248 *)
Definition dbnds (t : dtabu Z) (d p : nat) : list bound :=
  twice (dgrid (dbnd_w t) d) ++ flat_map (fun k => twice (dgrid (dbnd_a t k) d)) (seq 1 p).

(** Row [m] of [v.reshape(_, n)] (dynotears.py:321, 326) *)
Definition vrow {A} (n : nat) (v : list A) (m : nat) : list A := firstn n (skipn (m * n) v).

(** dynotears.py:301-330 _reshape_wa; matrices are flat and row-major. *)
Definition reshape_wa (v : list Qc) (d p : nat) : res (list Qc * list Qc) :=
  if List.length v =? 2 * (p + 1) * d * d then
    let w_plus := firstn (d * d) v in
    let w_minus := firstn (d * d) (skipn (d * d) v) in
    let tail := skipn (2 * (d * d)) v in
    let a_plus := flat_map (fun k => vrow (d * d) tail (2 * k)) (seq 0 p) in
    let a_minus := flat_map (fun k => vrow (d * d) tail (2 * k + 1)) (seq 0 p) in
    Ok (subv w_plus w_minus, subv a_plus a_minus)
  else Err ValueError.

(** dynotears.py:393-405 _h (a vector of another length would raise; the optimiser keeps the length of its
    starting point). *)
Definition dyn_h (eh : penalty) (d p : nat) (v : list Qc) : fl :=
  match reshape_wa v d p with Ok wa => eh d (fst wa) | Err _ => NaN end.

(** dynotears.py:418-427: the data term of _func, for finite data; the rows of X and Xlags are given. *)
Definition eye (i j : nat) : Qc := if i =? j then 1%Qc else 0%Qc.
(** dynotears.py:418-427 *)
Definition dyn_loss (d p : nat) (X Xlags : list (list Qc)) (v : list Qc) : res Qc :=
  do wa <- reshape_wa v d p;
  let resid (x y : list Qc) (j : nat) : Qc :=
    (Qsum (fun i => nth i x 0 * (eye i j - entry d (fst wa) i j)) (seq 0 d) - Qsum (fun m => nth m y 0 * entry d (snd wa) m j) (seq 0 (p * d)))%Qc in
  Ok (Q2Qc (1 # 2) / Q2Qc (inject_Z (Z.of_nat (List.length X))) *
      Qsum (fun xy => Qsum (fun j => resid (fst xy) (snd xy) j * resid (fst xy) (snd xy) j) (seq 0 d)) (combine X Xlags))%Qc.

(** dynotears.py:333-492 _learn_dynamic_structure; the second component says whether it warned. *)
Definition learn_dynamic (fuel : nat) (opt : optimiser) (eh : penalty) (X Xlags : mat) (bnds : list bound) (par : params)
  : res (list Qc * list Qc * bool) :=
  if m_size X =? 0 then Err ValueError
  else if m_size Xlags =? 0 then Err ValueError
  else if negb (List.length (m_rows X) =? List.length (m_rows Xlags)) then Err ValueError
  else if negb (m_cols Xlags mod m_cols X =? 0) then Err ValueError
  else
    let d := m_cols X in
    let p := m_cols Xlags / d in
    do r <- dual_ascent fuel (max_iter par) (2 * (p + 1) * (d * d)) (dyn_h eh d p) opt bnds (h_tol par);
    do wa <- reshape_wa (w_est (fst r)) d p;
    Ok (wa, snd r).

(** dynotears.py:276-280: the names of the nodes. *)
Definition lag_cols (d p : nat) : list string := flat_map (fun l => map (fun v => lag_name (dec v) l) (seq 0 d)) (seq 0 (1 + p)).

(** dynotears.py:259-298 _matrices_to_structure_model *)
Definition matrices_to_sm (d p : nat) (w a : list Qc) : res graph :=
  let name i := LStr (nth i (lag_cols d p) "") in
  let edges_of (rows : nat) (shift : nat) (m : list Qc) :=
    map (fun ij => E3 (name (fst ij + shift)) (name (snd ij)) [("weight", ANum (entry d m (fst ij) (snd ij)))])
        (filter (fun ij => qnz (entry d m (fst ij) (snd ij))) (list_prod (seq 0 rows) (seq 0 d))) in
  let g0 := fold_left add_node (map LStr (lag_cols d p)) [] in
  do g1 <- sm_result (add_edges_from g0 (edges_of d 0 w) "unknown" []);
  sm_result (add_edges_from g1 (edges_of (p * d) d a) "unknown" []).

(** dynotears.py:162-256 from_numpy_dynamic, with the warning. *)
Definition learn_numpy_dynamic (fuel : nat) (opt : optimiser) (eh : penalty) (X Xlags : mat) (par : params) (t : dtabu Z) : res (graph * bool) :=
  let d := m_cols X in
  if d =? 0 then Err ZeroDivisionError
  else
    let p := m_cols Xlags / d in
    do r <- learn_dynamic fuel opt eh X Xlags (dbnds t d p) par;
    let wa := fst r in
    do g <- matrices_to_sm d p (cut_lt (w_threshold par) (fst wa)) (cut_lt (w_threshold par) (snd wa));
    Ok (g, snd r).
(** dynotears.py:162-256 *)
Definition from_numpy_dynamic (fuel : nat) (opt : optimiser) (eh : penalty) (X Xlags : mat) (par : params) (t : dtabu Z) : res graph :=
  do r <- learn_numpy_dynamic fuel opt eh X Xlags par t; Ok (fst r).

(** Python's [s.split("_lag")]; [skip] characters belong to a separator already found. (dynotears.py:158) *)
Fixpoint split_lag (skip : nat) (s : string) : list string :=
  match s with
  | EmptyString => [""]
  | String c r =>
      match skip with
      | S k => split_lag k r
      | O => if String.prefix "_lag" s then "" :: split_lag 3 r
             else match split_lag 0 r with
                  | h :: rest => String c h :: rest
                  | [] => [String c ""]
                  end
      end
  end.

(** [idx_col[i]] (dynotears.py:103, 159) *)
Definition idx_col (ci : list (label * nat)) (i : Z) : res label :=
  match find (fun ck => Z.eqb (Z.of_nat (snd ck)) i) ci with Some ck => Ok (fst ck) | None => Err KeyError end.

(** dynotears.py:158-159 *)
Definition text (l : label) : string := match l with LStr s => s | LInt _ => "" end.

(** dynotears.py:148-159 _format_name_from_pandas *)
Definition format_name (ci : list (label * nat)) (u : label) : res label :=
  match split_lag 0 (text u) with
  | [idx; lag_val] =>
      do i <- py_int idx;
      do c <- idx_col ci i;
      Ok (LStr (text c ++ "_lag" ++ lag_val)%string)
  | _ => Err ValueError
  end.

(** dynotears.py:105-110 *)
Definition dtabu_index (ci : list (label * nat)) (t : dtabu string) : res (dtabu Z) :=
  do e <- opt_mapM (fun kuv => do u <- idx_of ci (LStr (snd (fst kuv))); do v <- idx_of ci (LStr (snd kuv)); Ok (fst (fst kuv), u, v)) (dt_edges t);
  do p <- opt_mapM (fun n => idx_of ci (LStr n)) (dt_parents t);
  do c <- opt_mapM (fun n => idx_of ci (LStr n)) (dt_children t);
  Ok (mkDtabu e p c).

(** dynotears.py:45-145 from_pandas_dynamic; column names are strings.  X has a column for every variable and
    Xlags p times as many. *)
Definition learn_pandas_dynamic (fuel : nat) (opt : optimiser) (eh : penalty) (l : list series) (p : nat) (par : params) (t : dtabu string)
  : res (graph * bool) :=
  do tr <- ddt_fit (ddt_init p) l false;
  do o <- ddt_transform tr l;
  match o, l with
  | Arrays X Xlags, first :: _ =>
      let cols := map LStr (col_names first) in
      let ci := col_idx cols in
      do tz <- dtabu_index ci t;
      let d := List.length cols in
      do r <- learn_numpy_dynamic fuel opt eh (mkMat d (map (map Fin) X)) (mkMat (p * d) (map (map Fin) Xlags)) par tz;
      let g0 := fold_left add_node (flat_map (fun ck => map (fun k => LStr (lag_name (text (fst ck)) k)) (seq 0 (p + 1))) ci) [] in
      do es <- mapM (fun e => do u <- format_name ci (fst (fst e)); do v <- format_name ci (snd (fst e)); Ok (W3 u v (weight_of (snd e)))) (edges_data (fst r));
      do g <- sm_result (add_weighted_edges_from g0 es "weight" "learned" []);
      Ok (g, snd r)
  | _, _ => Err ValueError
  end.
(** dynotears.py:45-145 *)
Definition from_pandas_dynamic (fuel : nat) (opt : optimiser) (eh : penalty) (l : list series) (p : nat) (par : params) (t : dtabu string) : res graph :=
  do r <- learn_pandas_dynamic fuel opt eh l p par t; Ok (fst r).
