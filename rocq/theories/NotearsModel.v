(** * NotearsModel: model of causalnex/structure/notears.py.

    - Weights, thresholds and tolerances are exact rationals; data values and values of the acyclicity
      function may also be infinite or not a number.
    - [scipy.optimize.minimize] is an oracle [opt]: any function of the bounds, rho, alpha, the starting
      point and the number of earlier calls.  The objective and its gradient only go into that call.
    - The value of [np.trace(slin.expm(W * W)) - d] is an oracle [eh] (AcycModel.v has the exact function). *)
From Coq Require Import List Bool Arith ZArith Lia String QArith Qcanon.
From Verif Require Import Base Digraph SmModel.
Import ListNotations.
Local Open Scope string_scope.
Local Open Scope list_scope.
Local Open Scope nat_scope.

(** ** Floating point values *)
(** notears.py:424, 581-583: a Python float *)
Inductive fl := Fin (q : Qc) | PInf | NInf | NaN.

(** notears.py:582: [np.isfinite] *)
Definition is_finite (x : fl) : bool := match x with Fin _ => true | _ => false end.
(** notears.py:428: [h_new == np.inf] *)
Definition is_pinf (x : fl) : bool := match x with PInf => true | _ => false end.

(** notears.py:442: [<=] on finite numbers *)
Definition qle (a b : Qc) : bool := if Qclt_le_dec b a then false else true.
(** notears.py:428: [<] on finite numbers *)
Definition qlt (a b : Qc) : bool := if Qclt_le_dec a b then true else false.

(** [a < b]; every comparison with NaN is False. (notears.py:428, 432) *)
Definition flt (a b : fl) : bool :=
  match a, b with
  | Fin x, Fin y => qlt x y
  | Fin _, PInf | NInf, Fin _ | NInf, PInf => true
  | _, _ => false
  end.
(** notears.py:437 *)
Definition fle (a b : fl) : bool :=
  match a, b with
  | Fin x, Fin y => qle x y
  | NInf, NaN => false
  | NInf, _ => true
  | NaN, PInf => false
  | _, PInf => true
  | _, _ => false
  end.

(** Product with a positive finite number, and sum. (notears.py:428, 436) *)
Definition fscale (c : Qc) (x : fl) : fl := match x with Fin q => Fin (c * q) | _ => x end.
(** notears.py:436 *)
Definition fadd (a b : fl) : fl :=
  match a, b with
  | Fin x, Fin y => Fin (x + y)
  | NaN, _ | _, NaN => NaN
  | PInf, NInf | NInf, PInf => NaN
  | PInf, _ | _, PInf => PInf
  | NInf, _ | _, NInf => NInf
  end.

(** ** Data *)

(** A two-dimensional array: number of columns and rows. (notears.py:103, 419) *)
Record mat := mkMat { m_cols : nat; m_rows : list (list fl) }.
(** notears.py:414: [X.size] *)
Definition m_size (X : mat) : nat := List.length (m_rows X) * m_cols X.

(** notears.py:557-583 _assert_all_finite *)
Definition all_finite (X : mat) : bool := forallb (forallb is_finite) (m_rows X).

(** ** Dual ascent *)
(** notears.py:107-119: a pair of the list [bnds] *)
Definition bound : Type := option Qc * option Qc.
(** notears.py:108: [(0, 0)] *)
Definition fixed0 : bound := (Some 0%Qc, Some 0%Qc).
(** notears.py:116: [(None, None)] *)
Definition free : bound := (None, None).
(** notears.py:178: [(0, None)] *)
Definition nonneg : bound := (Some 0%Qc, None).

(** notears.py:429, 537: [sopt.minimize(...).x], an oracle *)
Definition optimiser : Type := list bound -> Qc -> fl -> list Qc -> nat -> list Qc.

(** notears.py:433 *)
Definition ten : Qc := Q2Qc 10.
(** notears.py:428: [1e20] *)
Definition rho_max : Qc := Qcpower ten 20.
(** notears.py:428: [0.25] *)
Definition quarter : Qc := Q2Qc (1 # 4).

(** notears.py:420-424: the local variables of the loop *)
Record st := mkSt {
  rho : Qc; alpha : fl; h_cur : fl; h_new : fl; w_est : list Qc; w_new : list Qc; calls : nat }.

(** notears.py:428-433, 536-543; dynotears.py:477-483: the [while] loop. [hf] is [_h] of the vector. *)
Fixpoint inner (fuel : nat) (hf : list Qc -> fl) (opt : optimiser) (bnds : list bound) (s : st) : res st :=
  if qlt (rho s) rho_max && (flt (fscale quarter (h_cur s)) (h_new s) || is_pinf (h_new s)) then
    match fuel with
    | O => Err OutOfFuel
    | S f =>
        let w := opt bnds (rho s) (alpha s) (w_est s) (calls s) in
        let h := hf w in
        let r := if flt (fscale quarter (h_cur s)) h then (rho s * ten)%Qc else rho s in
        inner f hf opt bnds (mkSt r (alpha s) (h_cur s) h (w_est s) w (S (calls s)))
    end
  else Ok s.

(** notears.py:427-440, 535-550; dynotears.py:476-491: the [for] loop over [n] remaining iterations; the
    second component says whether the convergence warning was given. *)
Fixpoint outer (n fuel : nat) (hf : list Qc -> fl) (opt : optimiser) (bnds : list bound) (h_tol : Qc) (s : st)
  : res (st * bool) :=
  match n with
  | O => Ok (s, false)
  | S m =>
      do s1 <- inner fuel hf opt bnds s;
      let s2 := mkSt (rho s1) (fadd (alpha s1) (fscale (rho s1) (h_new s1))) (h_new s1) (h_new s1) (w_new s1) (w_new s1) (calls s1) in
      if fle (h_cur s2) (Fin h_tol) then Ok (s2, false)
      else match m with
           | O => Ok (s2, flt (Fin h_tol) (h_cur s2))
           | S _ => outer m fuel hf opt bnds h_tol s2
           end
  end.

(** The initial state: zeros, rho = 1, alpha = 0, both penalties infinite. (notears.py:420-424, 533-534) *)
Definition start (len : nat) : st := mkSt 1%Qc (Fin 0%Qc) PInf PInf (repeat 0%Qc len) (repeat 0%Qc len) 0.

(** notears.py:420-440, 533-550 *)
Definition dual_ascent (fuel max_iter len : nat) (hf : list Qc -> fl) (opt : optimiser) (bnds : list bound) (h_tol : Qc)
  : res (st * bool) := outer max_iter fuel hf opt bnds h_tol (start len).

(** ** Graphs from matrices *)

(** Entry (i, j) of a row-major d x d matrix. (notears.py:443) *)
Definition entry (d : nat) (w : list Qc) (i j : nat) : Qc := nth (i * d + j) w 0%Qc.

(** notears.py:443: an entry is an edge when it is not 0 *)
Definition qnz (x : Qc) : bool := negb (Qc_eq_bool x 0).

(** [np.nonzero] order. (notears.py:443) *)
Definition cells (d : nat) : list (nat * nat) := list_prod (seq 0 d) (seq 0 d).

(** notears.py:443: the nodes of the result are the indices of the columns *)
Definition node (i : nat) : label := LInt (Z.of_nat i).

(** [StructureModel(w.reshape([d, d]))]: networkx's conversion of an array adds the nodes 0..d-1 and the
    non-zero entries as edges with a weight; the origin is the default one. (notears.py:443, 554) *)
Definition sm_of_matrix (d : nat) (w : list Qc) : res graph :=
  if List.length w =? d * d then
    sm_new (map node (seq 0 d))
           (map (fun ij => E3 (node (fst ij)) (node (snd ij)) [("weight", ANum (entry d w (fst ij) (snd ij)))])
                (filter (fun ij => qnz (entry d w (fst ij) (snd ij))) (cells d)))
           "unknown"
  else Err ValueError.

(** ** from_numpy *)

(** Banned edges, parents and children, as given by the user (None: nothing). (notears.py:62-64) *)
Record tabu (A : Type) := mkTabu { t_edges : option (list (A * A)); t_parents : option (list A); t_children : option (list A) }.
Arguments mkTabu {A}. Arguments t_edges {A}. Arguments t_parents {A}. Arguments t_children {A}.

(** notears.py:111-115: [x is not None and ... in x] *)
Definition on_list {A} (o : option (list A)) (f : list A -> bool) : bool := match o with Some l => f l | None => false end.
(** notears.py:113, 115: membership in a list of indices *)
Definition zmem (x : Z) (l : list Z) : bool := existsb (Z.eqb x) l.
(** notears.py:111: membership in a list of pairs *)
Definition zzmem (x y : Z) (l : list (Z * Z)) : bool := existsb (fun e => Z.eqb x (fst e) && Z.eqb y (snd e)) l.

(** notears.py:107-119, 169-181: the bounds of entry (i, j). *)
Definition bnd (t : tabu Z) (other : bound) (i j : nat) : bound :=
  if i =? j then fixed0
  else if on_list (t_edges t) (zzmem (Z.of_nat i) (Z.of_nat j)) then fixed0
  else if on_list (t_parents t) (zmem (Z.of_nat i)) then fixed0
  else if on_list (t_children t) (zmem (Z.of_nat j)) then fixed0
  else other.
(** notears.py:107-119, 169-181 *)
Definition bnds_matrix (t : tabu Z) (other : bound) (d : nat) : list bound :=
  flat_map (fun i => map (fun j => bnd t other i j) (seq 0 d)) (seq 0 d).

(** [w[np.abs(w) <= w_threshold] = 0] and [w[np.abs(w) < w_threshold] = 0] (notears.py:442) *)
Definition cut_le (t : Qc) (w : list Qc) : list Qc := map (fun x => if qle (Qcabs x) t then 0%Qc else x) w.
(** notears.py:553 *)
Definition cut_lt (t : Qc) (w : list Qc) : list Qc := map (fun x => if qlt (Qcabs x) t then 0%Qc else x) w.

(** notears.py:540, 552: subtraction of arrays *)
Definition subv (a b : list Qc) : list Qc := map (fun xy => (fst xy - snd xy)%Qc) (combine a b).

(** notears.py:57-62: the arguments of the call *)
Record params := mkParams { max_iter : nat; h_tol : Qc; w_threshold : Qc }.

(** The oracle for the penalty of a d x d matrix. (notears.py:378-379) *)
Definition penalty : Type := nat -> list Qc -> fl.

(** notears.py:57-121 from_numpy and 356-443 _learn_structure *)
Definition from_numpy (fuel : nat) (opt : optimiser) (eh : penalty) (X : mat) (p : params) (t : tabu Z) : res graph :=
  let d := m_cols X in
  if negb (all_finite X) then Err ValueError
  else if m_size X =? 0 then Err ValueError
  else
    do r <- dual_ascent fuel (max_iter p) (d * d) (eh d) opt (bnds_matrix t free d) (h_tol p);
    sm_of_matrix d (cut_le (w_threshold p) (w_est (fst r))).

(** notears.py:439-440: whether that call gives the convergence warning. *)
Definition numpy_warns (fuel : nat) (opt : optimiser) (eh : penalty) (X : mat) (p : params) (t : tabu Z) : res bool :=
  let d := m_cols X in
  do r <- dual_ascent fuel (max_iter p) (d * d) (eh d) opt (bnds_matrix t free d) (h_tol p); Ok (snd r).

(** The two halves of the lasso weight vector: [w[: d ** 2] - w[d ** 2 :]]. (notears.py:540, 552) *)
Definition lasso_matrix (d : nat) (w : list Qc) : list Qc := subv (firstn (d * d) w) (skipn (d * d) w).

(** notears.py:124-183 from_numpy_lasso and 446-554 _learn_structure_lasso; [beta] only goes into the
    objective. *)
Definition from_numpy_lasso (fuel : nat) (opt : optimiser) (eh : penalty) (X : mat) (p : params) (t : tabu Z) : res graph :=
  let d := m_cols X in
  if negb (all_finite X) then Err ValueError
  else if m_size X =? 0 then Err ValueError
  else
    do r <- dual_ascent fuel (max_iter p) (2 * d * d) (fun w => eh d (lasso_matrix d w)) opt
              (bnds_matrix t nonneg d ++ bnds_matrix t nonneg d) (h_tol p);
    sm_of_matrix d (cut_lt (w_threshold p) (lasso_matrix d (w_est (fst r)))).

(** notears.py:549-550: whether that call gives the convergence warning. *)
Definition numpy_lasso_warns (fuel : nat) (opt : optimiser) (eh : penalty) (X : mat) (p : params) (t : tabu Z) : res bool :=
  let d := m_cols X in
  do r <- dual_ascent fuel (max_iter p) (2 * d * d) (fun w => eh d (lasso_matrix d w)) opt
            (bnds_matrix t nonneg d ++ bnds_matrix t nonneg d) (h_tol p); Ok (snd r).

(** ** from_pandas *)

(** A data frame: column names, whether each column is numeric, and the rows. (notears.py:231-241) *)
Record frame := mkFrame { f_cols : list (label * bool); f_rows : list (list fl) }.

(** [{c: i for i, c in enumerate(columns)}] (notears.py:243, 325) *)
Fixpoint col_index (i : nat) (cols : list label) (d : list (label * nat)) : list (label * nat) :=
  match cols with [] => d | c :: r => col_index (S i) r (dset label_eqb d c i) end.
(** notears.py:243, 325 *)
Definition col_idx (cols : list label) : list (label * nat) := col_index 0 cols [].

(** notears.py:247-251 *)
Definition idx_of (ci : list (label * nat)) (c : label) : res Z :=
  match dget label_eqb ci c with Some i => Ok (Z.of_nat i) | None => Err KeyError end.

(** [idx_col[u]] for a node of the numpy result: [{i: c for c, i in col_idx.items()}]; the indices are
    distinct. (notears.py:244, 266) *)
Definition col_of (ci : list (label * nat)) (u : label) : res label :=
  match find (fun ck => label_eqb (node (snd ck)) u) ci with Some ck => Ok (fst ck) | None => Err KeyError end.

(** [if tabu: tabu = [...]]: None and the empty list stay as they are. (notears.py:246-251) *)
Definition opt_mapM {A B} (f : A -> res B) (o : option (list A)) : res (option (list B)) :=
  match o with Some l => do l' <- mapM f l; Ok (Some l') | None => Ok None end.

(** notears.py:246-251, 328-333 *)
Definition tabu_index (ci : list (label * nat)) (t : tabu label) : res (tabu Z) :=
  do e <- opt_mapM (fun uv => do u <- idx_of ci (fst uv); do v <- idx_of ci (snd uv); Ok (u, v)) (t_edges t);
  do p <- opt_mapM (idx_of ci) (t_parents t);
  do c <- opt_mapM (idx_of ci) (t_children t);
  Ok (mkTabu e p c).

(** notears.py:265-268: an exception of the call is raised *)
Definition sm_result (r : graph * res unit) : res graph := match snd r with Ok _ => Ok (fst r) | Err e => Err e end.

(** notears.py:186-270 from_pandas and 273-353 from_pandas_lasso; [learn] is from_numpy or
    from_numpy_lasso. *)
Definition from_pandas (learn : mat -> tabu Z -> res graph) (X : frame) (t : tabu label) : res graph :=
  let cols := map fst (f_cols X) in
  if negb (forallb snd (f_cols X)) then Err ValueError
  else
    let ci := col_idx cols in
    do tz <- tabu_index ci t;
    do g <- learn (mkMat (List.length cols) (f_rows X)) tz;
    do es <- mapM (fun e => do u <- col_of ci (fst (fst e)); do v <- col_of ci (snd (fst e)); Ok (W3 u v (weight_of (snd e)))) (edges_data g);
    sm_result (add_weighted_edges_from (fold_left add_node cols []) es "weight" "learned" []).

(** notears.py:186-270 *)
Definition notears_pandas (fuel : nat) (opt : optimiser) (eh : penalty) (X : frame) (p : params) (t : tabu label) : res graph :=
  from_pandas (fun M tz => from_numpy fuel opt eh M p tz) X t.
(** notears.py:273-353 *)
Definition notears_pandas_lasso (fuel : nat) (opt : optimiser) (eh : penalty) (X : frame) (p : params) (t : tabu label) : res graph :=
  from_pandas (fun M tz => from_numpy_lasso fuel opt eh M p tz) X t.

(** notears.py:253-261, 335-344: the warning of the inner call *)
Definition pandas_warns (warns : mat -> tabu Z -> res bool) (X : frame) (t : tabu label) : res bool :=
  let cols := map fst (f_cols X) in
  do tz <- tabu_index (col_idx cols) t; warns (mkMat (List.length cols) (f_rows X)) tz.
