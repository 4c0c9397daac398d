(** * TorchModel: model of causalnex/structure/pytorch/notears.py, core.py, nonlinear.py and dist_type/.

    - Data and parameters are exact rationals.
    - scipy's L-BFGS-B is an oracle [optimiser] as in NotearsModel.v: any function of the bounds, rho, alpha,
      the starting point and the number of earlier calls.  The losses and regularisers only go into that call
      (but an ordinal column with one category makes the loss raise).  The conversion of its result to 32 bit
      floats counts as part of the oracle.
    - The sigmoid followed by torch's LayerNorm is an oracle [act]: any function of the width and the units of
      one feature.  torch.autograd.grad is an oracle [autograd].
    - The value of the penalty polynomial is an oracle [eh] of the size and the matrix (AcycModel.v has the
      exact function). *)
From Coq Require Import List Bool Arith ZArith Lia String QArith Qcanon.
From Verif Require Import Base Names Digraph SmModel QcX NetModel NotearsModel.
Import ListNotations.
Local Open Scope string_scope.
Local Open Scope list_scope.
Local Open Scope nat_scope.

(** ** Distribution types *)
(** dist_type/__init__.py:38-44 *)
Inductive kind := Bin | Cat | Cont | Ord | Poiss.

(** dist_type/__init__.py:38-44 dist_type_aliases *)
Definition alias_kind (s : string) : option kind :=
  dget String.eqb [("bin", Bin); ("cat", Cat); ("cont", Cont); ("ord", Ord); ("poiss", Poiss)] s.

(** A distribution type object: its column, its [idx_group] (categorical only) and the categories of its
    encoder (categorical and ordinal only). (dist_type/_base.py:47-56, categorical.py:44-50, ordinal.py:42-48) *)
Record dtype := mkDt { dt_kind : kind; dt_idx : nat; dt_group : list nat; dt_cats : list Qc }.

(** The columns that belong to it: dist_type/_base.py:58-71, categorical.py:52-65 (the ordinal version, which
    returns everything it is given, is in SklearnModel.v). *)
Definition dt_columns (t : dtype) : list nat := match dt_kind t with Cat => dt_group t | _ => [dt_idx t] end.

(** A data matrix: number of columns and rows. (pytorch/notears.py:140-150) *)
Record data := mkData { width : nat; rows : list (list Qc) }.

(** dist_type/categorical.py:95, 98: a column of the data *)
Definition column (i : nat) (X : data) : list Qc := map (fun r => nth i r 0%Qc) (rows X).
(** dist_type/categorical.py:100: assignment to a column *)
Definition set_nth {A} (i : nat) (x : A) (l : list A) : list A := firstn i l ++ x :: skipn (S i) l.

(** The categories of scikit-learn's encoders: the sorted distinct values.
    (dist_type/categorical.py:92-98, ordinal.py:72-78) *)
Definition categories (l : list Qc) : list Qc := isort qle (nodup Qc_eq_dec l).

(** One row of OneHotEncoder.transform (dist_type/categorical.py:98) *)
Definition one_hot (cs : list Qc) (x : Qc) : list Qc := map (fun c => if Qc_eq_bool c x then 1%Qc else 0%Qc) cs.

(** dist_type/ordinal.py:78: the code that OrdinalEncoder gives a value *)
Fixpoint position (cs : list Qc) (x : Qc) : nat :=
  match cs with [] => 0 | c :: r => if Qc_eq_bool c x then 0 else S (position r x) end.

(** categorical.py:97-102: the column becomes the first indicator, the others go to the end. *)
Definition expand_row (i : nat) (cs : list Qc) (r : list Qc) : list Qc :=
  let e := one_hot cs (nth i r 0%Qc) in set_nth i (hd 0%Qc e) r ++ tl e.

(** Encoders raise ValueError for a value that is not a category.
    (dist_type/categorical.py:67-115, ordinal.py:50-92) *)
Definition known (cs l : list Qc) : bool := forallb (fun x => existsb (Qc_eq_bool x) cs) l.

(** categorical.py:67-115 preprocess_X with fit_transform=True; ordinal.py:50-92; poisson.py:42-62;
    _base.py:75-94 *)
Definition preprocess_fit (k : kind) (i : nat) (X : data) : res (dtype * data) :=
  match k with
  | Cat =>
      let cs := categories (column i X) in
      let n_new := List.length cs - 1 in
      let X' := mkData (width X + n_new) (map (expand_row i cs) (rows X)) in
      let idx_start := width X' - n_new in
      Ok (mkDt Cat i (i :: seq idx_start (width X' - idx_start)) cs, X')
  | Ord =>
      let cs := categories (column i X) in
      Ok (mkDt Ord i [] cs, mkData (width X) (map (fun r => set_nth i (Q2Qc (inject_Z (Z.of_nat (position cs (nth i r 0%Qc))))) r) (rows X)))
  | Poiss => if existsb (fun x => qlt x 0%Qc) (column i X) then Err ValueError else Ok (mkDt Poiss i [] [], X)
  | Bin => Ok (mkDt Bin i [] [], X)
  | Cont => Ok (mkDt Cont i [] [], X)
  end.

(** The same with fit_transform=False: the encoder is not changed.
    (dist_type/categorical.py:67-115, ordinal.py:50-92, poisson.py:42-62; core.py:199-201) *)
Definition preprocess (t : dtype) (X : data) : res data :=
  let i := dt_idx t in
  match dt_kind t with
  | Cat =>
      if known (dt_cats t) (column i X)
      then Ok (mkData (width X + (List.length (dt_cats t) - 1)) (map (expand_row i (dt_cats t)) (rows X)))
      else Err ValueError
  | Ord =>
      if known (dt_cats t) (column i X)
      then Ok (mkData (width X) (map (fun r => set_nth i (Q2Qc (inject_Z (Z.of_nat (position (dt_cats t) (nth i r 0%Qc))))) r) (rows X)))
      else Err ValueError
  | Poiss => if existsb (fun x => qlt x 0%Qc) (column i X) then Err ValueError else Ok X
  | _ => Ok X
  end.

(** ** Banned edges of expanded columns *)

(** [itertools.permutations(l, 2)] (dist_type/_base.py:276) *)
Definition permutations2 (l : list nat) : list (nat * nat) :=
  flat_map (fun p => map (fun q => (nth p l 0, nth q l 0)) (filter (fun q => negb (q =? p)) (seq 0 (List.length l)))) (seq 0 (List.length l)).

(** _base.py:230-278 update_tabu_edges with tabu_idx_group=True, categorical.py:117-131
    preprocess_tabu_edges; _base.py:97-109 for the other types *)
Definition preprocess_tabu_edges (t : dtype) (te : option (list (Z * Z))) : option (list (Z * Z)) :=
  match dt_kind t, dt_group t with
  | Cat, o :: rest =>
      let es := match te with Some l => l | None => [] end in
      let new := flat_map (fun e =>
        if Z.eqb (fst e) (Z.of_nat o) then map (fun x => (Z.of_nat x, snd e)) rest
        else if Z.eqb (snd e) (Z.of_nat o) then map (fun x => (fst e, Z.of_nat x)) rest
        else []) es in
      Some (es ++ new ++ map (fun ab => (Z.of_nat (fst ab), Z.of_nat (snd ab))) (permutations2 (o :: rest)))
  | _, _ => te
  end.

(** _base.py:281-310 update_tabu_nodes, categorical.py:133-143; _base.py:112-122 for the other types *)
Definition preprocess_tabu_nodes (t : dtype) (tn : option (list Z)) : option (list Z) :=
  match dt_kind t, dt_group t with
  | Cat, o :: rest =>
      match tn with
      | None => None
      | Some l => Some (l ++ flat_map (fun i => if Z.eqb i (Z.of_nat o) then map Z.of_nat rest else []) l)
      end
  | _, _ => tn
  end.

(** notears.py:143-148: the loop over the distribution types. *)
Definition prepared : Type := list dtype * data * tabu Z.

(** pytorch/notears.py:143-148 *)
Fixpoint prepare (ks : list (nat * kind)) (X : data) (t : tabu Z) : res prepared :=
  match ks with
  | [] => Ok ([], X, t)
  | (i, k) :: rest =>
      do r <- preprocess_fit k i X;
      let dt := fst r in
      let t' := mkTabu (preprocess_tabu_edges dt (t_edges t)) (preprocess_tabu_nodes dt (t_parents t)) (preprocess_tabu_nodes dt (t_children t)) in
      do r' <- prepare rest (snd r) t';
      Ok (dt :: fst (fst r'), snd (fst r'), snd r')
  end.

(** ** The network *)
(** core.py:427-430: a square matrix *)
Definition qmat : Type := nat -> nat -> Qc.

(** The oracles. (core.py:175-181) *)
Definition activation : Type := nat -> list Qc -> list Qc.
(** core.py:513 *)
Definition autograd : Type := (list (list Qc) -> Qc) -> list (list Qc) -> list (list Qc).

(** core.py:98-102: the widths; [hu] is never empty here. *)
Definition net_dims (d : nat) (hu : list nat) : list nat :=
  if hd 0 hu =? 0 then [d; 1] else d :: hu ++ [1].

(** core.py:113-122: the local layers as pairs of widths. *)
Definition net_layers (dims : list nat) : list (nat * nat) := combine (removelast (tl dims)) (tl (tl dims)).

(** The flat vector of parameters in the order of [self.parameters()]: the weights of the first layer, its
    bias, then weights and bias of each local layer. (core.py:104-107) *)
Definition n_weights (d m1 : nat) : nat := d * m1 * d.
(** core.py:104-110 *)
Definition n_bias (use_bias : bool) (n : nat) : nat := if use_bias then n else 0.
(** nonlinear.py:74-82 *)
Definition n_layer (d : nat) (use_bias : bool) (io : nat * nat) : nat := d * fst io * snd io + n_bias use_bias (d * snd io).
(** core.py:346-354 *)
Definition n_params (d : nat) (use_bias : bool) (dims : list nat) : nat :=
  n_weights d (nth 1 dims 0) + n_bias use_bias (d * nth 1 dims 0) +
  fold_right Nat.add 0 (map (n_layer d use_bias) (net_layers dims)).

(** [dag_layer.weight[j * m1 + m][i]] (core.py:427) *)
Definition dag_w (d m1 : nat) (v : list Qc) (j m i : nat) : Qc := nth ((j * m1 + m) * d + i) v 0%Qc.
(** [dag_layer.bias[k]] (core.py:104-110) *)
Definition dag_b (d m1 : nat) (v : list Qc) (k : nat) : Qc := nth (n_weights d m1 + k) v 0%Qc.

(** core.py:172-173: the units of feature [j] after the first layer, for one row [x]. *)
Definition dag_units (d m1 : nat) (use_bias : bool) (v : list Qc) (x : list Qc) (j : nat) : list Qc :=
  map (fun m => (Qsum (fun i => dag_w d m1 v j m i * nth i x 0) (seq 0 d) +
                 if use_bias then dag_b d m1 v (j * m1 + m) else 0)%Qc) (seq 0 m1).

(** nonlinear.py:97-112 LocallyConnected.forward for feature [j]; [off] is the place of its parameters. *)
Definition local_units (d : nat) (use_bias : bool) (off : nat) (io : nat * nat) (v : list Qc) (x : list Qc) (j : nat) : list Qc :=
  map (fun b => (Qsum (fun a => nth a x 0 * nth (off + (j * fst io + a) * snd io + b) v 0) (seq 0 (fst io)) +
                 if use_bias then nth (off + d * fst io * snd io + j * snd io + b) v 0 else 0)%Qc) (seq 0 (snd io)).

(** core.py:174-183 *)
Fixpoint run_layers (act : activation) (d : nat) (use_bias : bool) (off : nat) (ls : list (nat * nat)) (v : list Qc) (x : list Qc) (j : nat) : list Qc :=
  match ls with
  | [] => x
  | io :: rest => run_layers act d use_bias (off + n_layer d use_bias io) rest v (local_units d use_bias off io v (act (fst io) x) j) j
  end.

(** core.py:162-185 forward for one row: one output for each feature. *)
Definition forward (act : activation) (use_bias : bool) (dims : list nat) (v : list Qc) (x : list Qc) : list Qc :=
  let d := nth 0 dims 0 in
  let m1 := nth 1 dims 0 in
  map (fun j => nth 0 (run_layers act d use_bias (n_weights d m1 + n_bias use_bias (d * m1)) (net_layers dims) v (dag_units d m1 use_bias v x j) j) 0%Qc)
      (seq 0 d).

(** core.py:426-430: squares summed over the units. *)
Definition square_mat (d m1 : nat) (v : list Qc) : qmat :=
  fun i j => Qsum (fun m => dag_w d m1 v j m i * dag_w d m1 v j m i)%Qc (seq 0 m1).

(** Row [o] plus the rows [ex]; column [o] plus the columns [ex]. (dist_type/categorical.py:163-166) *)
Definition add_rows (o : nat) (ex : list nat) (M : qmat) : qmat :=
  fun i j => if i =? o then (M o j + Qsum (fun e => M e j) ex)%Qc else M i j.
(** dist_type/categorical.py:167-170 *)
Definition add_cols (o : nat) (ex : list nat) (M : qmat) : qmat :=
  fun i j => if j =? o then (M i o + Qsum (fun e => M i e) ex)%Qc else M i j.

(** categorical.py:145-172 modify_h; _base.py:151-162 *)
Definition modify_h (t : dtype) (M : qmat) : qmat :=
  match dt_kind t, dt_group t with Cat, o :: ex => add_cols o ex (add_rows o ex M) | _, _ => M end.
(** categorical.py:174-193 collapse_adj; _base.py:165-177 *)
Definition collapse_adj (t : dtype) (M : qmat) : qmat :=
  match dt_kind t, dt_group t with Cat, o :: ex => add_cols o ex (add_rows o ex M) | _, _ => M end.

(** core.py:432-445: the matrix whose penalty is computed, and its size. *)
Definition h_matrix (dts : list dtype) (d m1 : nat) (v : list Qc) : qmat := fold_left (fun M t => modify_h t M) dts (square_mat d m1 v).
(** core.py:439-445 *)
Definition h_size (dts : list dtype) : nat := S (list_max (map dt_idx dts)).

(** core.py:447-453 *)
Definition tpenalty : Type := nat -> qmat -> fl.

(** core.py:486-524 _calculate_adj *)
Definition adjacency (act : activation) (grad : autograd) (use_bias : bool) (dims : list nat) (v : list Qc) (X : data) (mean_effect : bool) : qmat :=
  if List.length dims <=? 2 then
    fun i j => let w := dag_w (nth 0 dims 0) (nth 1 dims 0) v j 0 i in if mean_effect then w else Qcabs w
  else
    fun i j =>
      let g := grad (fun Y => Qsum (fun r => nth j (forward act use_bias dims v r) 0%Qc) Y) (rows X) in
      (Qsum (fun r => let x := nth i r 0%Qc in if mean_effect then x else Qcabs x) g / Q2Qc (inject_Z (Z.of_nat (List.length (rows X)))))%Qc.

(** ** Dual ascent *)
(** core.py:232: [1e16] *)
Definition torch_rho_max : Qc := Qcpower ten 16.
(** core.py:231: [1e-8] *)
Definition torch_h_tol : Qc := Q2Qc (1 # 100000000).

(** core.py:397-413: the [while] loop of one step. *)
Fixpoint torch_while (fuel : nat) (hf : list Qc -> fl) (opt : optimiser) (bnds : list bound) (flat : list Qc) (al h : fl)
  (r : Qc) (hn : fl) (cur : list Qc) (k : nat) : res (Qc * fl * list Qc * nat) :=
  if qlt r torch_rho_max && (flt (fscale quarter h) hn || is_pinf hn) then
    match fuel with
    | O => Err OutOfFuel
    | S f =>
        let w := opt bnds r al flat k in
        let h' := hf w in
        torch_while f hf opt bnds flat al h (if flt (fscale quarter h) h' then (r * ten)%Qc else r) h' w (S k)
    end
  else Ok (r, hn, cur, k).

(** core.py:242-250: the [for] loop of fit over [n] remaining iterations.  The result: the parameters, whether
    the warning was given, and the number of calls of the optimiser. *)
Fixpoint torch_fit (n fuel : nat) (hf : list Qc -> fl) (opt : optimiser) (bnds : list bound) (r : Qc) (al h : fl) (cur : list Qc) (k : nat)
  : res (list Qc * bool * nat) :=
  match n with
  | O => Ok (cur, false, k)
  | S m =>
      do x <- torch_while fuel hf opt bnds cur al h r PInf cur k;
      let '(r', h', cur', k') := x in
      if fle h' (Fin torch_h_tol) || qle torch_rho_max r' then Ok (cur', false, k')
      else match m with
           | O => Ok (cur', flt (Fin torch_h_tol) h', k')
           | S _ => torch_fit m fuel hf opt bnds r' (fadd al (fscale r' h')) h' cur' k'
           end
  end.

(** ** from_numpy *)

(** notears.py:162-175: the bounds of the weights of the first layer. *)
Definition torch_bnds (t : tabu Z) (d m1 : nat) : list bound :=
  flat_map (fun j => flat_map (fun _ => map (fun i => bnd t free i j) (seq 0 d)) (seq 0 m1)) (seq 0 d).

(** pytorch/notears.py:49-57: the arguments of the call *)
Record tparams := mkTp { tp_hidden : option (list nat); tp_bias : bool; tp_threshold : option Qc; tp_max_iter : nat }.

(** notears.py:152-156 *)
Definition hidden_units (p : tparams) : list nat :=
  match tp_hidden p with None => [0] | Some [] => [0] | Some l => l end.

(** pytorch/notears.py:189-225: the graph with its node and graph attributes *)
Record learned := mkLearned {
  l_graph : graph;
  l_bias : list (label * option Qc);
  l_dist : list (label * dtype);
  l_dims : list nat; l_params : list Qc; l_dtypes : list dtype; l_use_bias : bool;
  l_collapsed : graph;
  l_warned : bool }.

(** pytorch/notears.py:189, 223: the array as a vector *)
Definition flatten (d : nat) (M : qmat) : list Qc := flat_map (fun i => map (M i) (seq 0 d)) (seq 0 d).

(** The key of a node of the array graph. (pytorch/notears.py:201, 209) *)
Definition index_of_node (u : label) : nat := match u with LInt z => Z.to_nat z | LStr _ => 0 end.

(** notears.py:193-202: every edge is added again, with the origin, its weight and its mean effect. *)
Definition add_effects (eff : qmat) (g : graph) : res graph :=
  foldM (fun g' e => match weight_of (snd e) with
                     | ANone => Err KeyError
                     | w => sm_result (add_edge g' (fst (fst e)) (snd (fst e)) "learned"
                              [("weight", w); ("mean_effect", ANum (eff (index_of_node (fst (fst e))) (index_of_node (snd (fst e)))))])
                     end) (edges_data g) g.

(** notears.py:121-138: the kinds of the columns in the order of the schema. *)
Definition schema_kinds (d : nat) (schema : option (list (nat * string))) : res (list (nat * kind)) :=
  match schema with
  | None => Ok (map (fun i => (i, Cont)) (seq 0 d))
  | Some s =>
      if forallb (fun i => existsb (Nat.eqb i) (map fst s)) (seq 0 d) && forallb (fun i => i <? d) (map fst s)
      then mapM (fun ia => match alias_kind (snd ia) with Some k => Ok (fst ia, k) | None => Err KeyError end) s
      else Err ValueError
  end.

(** The loss of an ordinal column with a single category raises IndexError (ordinal.py:117). *)
Definition loss_raises (dts : list dtype) : bool :=
  existsb (fun t => match dt_kind t with Ord => List.length (dt_cats t) <? 2 | _ => false end) dts.

(** pytorch/notears.py:119: after the check every value is finite *)
Definition finite_part (x : fl) : Qc := match x with Fin q => q | _ => 0%Qc end.

(** notears.py:49-225 from_numpy.  [rnd] are the initial values of the local layers. *)
Definition torch_numpy (fuel : nat) (opt : optimiser) (eh : tpenalty) (act : activation) (grad : autograd) (rnd : list Qc)
  (X : mat) (schema : option (list (nat * string))) (p : tparams) (t : tabu Z) : res learned :=
  if m_size X =? 0 then Err ValueError
  else if negb (all_finite X) then Err ValueError
  else
    let d_orig := m_cols X in
    do ks <- schema_kinds d_orig schema;
    do pr <- prepare ks (mkData d_orig (map (map finite_part) (m_rows X))) t;
    let '(dts, X', t') := pr in
    let d := width X' in
    let hu := hidden_units p in
    let hb := if hd 0 hu =? 0 then 1 else hd 0 hu in
    let dims := net_dims d hu in
    let m1 := nth 1 dims 0 in
    let bnds := torch_bnds t' d hb ++ repeat free (n_params d (tp_bias p) dims - n_weights d m1) in
    if existsb (fun io => fst io =? 0) (net_layers dims) then Err ZeroDivisionError
    else if loss_raises dts && negb (tp_max_iter p =? 0) then Err IndexError
    else
      do r <- torch_fit (tp_max_iter p) fuel (fun v => eh (h_size dts) (h_matrix dts d m1 v)) opt bnds 1%Qc (Fin 0%Qc) PInf
                (repeat 0%Qc (n_weights d m1 + n_bias (tp_bias p) (d * m1)) ++ rnd) 0;
      let v := fst (fst r) in
      let adj := adjacency act grad (tp_bias p) dims v X' false in
      do g0 <- sm_of_matrix d (flatten d adj);
      do g1 <- match tp_threshold p with
               | Some th => if qnz th then sm_result (remove_edges_below_threshold g0 th) else Ok g0
               | None => Ok g0
               end;
      do g2 <- add_effects (adjacency act grad (tp_bias p) dims v X' true) g1;
      do gc <- sm_of_matrix d_orig (flatten d_orig (fold_left (fun M dt => collapse_adj dt M) dts adj));
      Ok (mkLearned g2
            (map (fun i => (node i, if tp_bias p then Some (dag_b d m1 v i) else None)) (seq 0 d))
            (flat_map (fun dt => map (fun i => (node i, dt)) (dt_columns dt)) dts)
            dims v dts (tp_bias p) gc (snd (fst r))).

(** ** from_pandas *)

(** categorical.py:264-281 make_node_name *)
Definition make_node_name (c : label) (catidx : nat) : label :=
  if catidx =? 0 then c else LStr (str_of c ++ dec catidx).

(** dist_type/categorical.py:295 *)
Definition enumerate {A} (l : list A) : list (nat * A) := combine (seq 0 (List.length l)) l.

(** categorical.py:283-297 update_idx_col; _base.py:125-135 *)
Definition update_idx_col (t : dtype) (ic : list (nat * label)) : res (list (nat * label)) :=
  match dt_kind t, dt_group t with
  | Cat, o :: _ =>
      match dget Nat.eqb ic o with
      | None => Err KeyError
      | Some c => Ok (dupdate Nat.eqb (ddel Nat.eqb ic o) (map (fun ci => (snd ci, make_node_name c (fst ci))) (enumerate (dt_group t))))
      end
  | _, _ => Ok ic
  end.

(** [X.columns.get_loc(col)] for distinct column names (pytorch/notears.py:308) *)
Definition get_loc (cols : list label) (c : label) : res nat :=
  match dget label_eqb (col_idx cols) c with Some i => Ok i | None => Err KeyError end.

(** notears.py:304-309: the schema with the names replaced by column numbers. *)
Definition schema_index (cols : list label) (schema : option (list (label * string))) : res (option (list (nat * string))) :=
  match schema with
  | None => Ok None
  | Some s => do l <- mapM (fun ca => do i <- get_loc cols (fst ca); Ok (i, snd ca)) s; Ok (Some l)
  end.

(** pytorch/notears.py:361-362, 374, 379, 387-388 *)
Definition name_of_node (ic : list (nat * label)) (u : label) : res label :=
  match dget Nat.eqb ic (index_of_node u) with Some c => Ok c | None => Err KeyError end.

(** notears.py:230-394 from_pandas.  [order] is the order in which Python enumerates the set of distribution
    types. *)
Definition torch_pandas (fuel : nat) (opt : optimiser) (eh : tpenalty) (act : activation) (grad : autograd) (rnd : list Qc) (order : list dtype -> list dtype)
  (X : frame) (schema : option (list (label * string))) (p : tparams) (t : tabu label) : res learned :=
  let cols := map fst (f_cols X) in
  do sz <- schema_index cols schema;
  if negb (forallb snd (f_cols X)) then Err ValueError
  else
    let ci := col_idx cols in
    let ic := map (fun ci => (snd ci, fst ci)) ci in
    do tz <- tabu_index ci t;
    do l <- torch_numpy fuel opt eh act grad rnd (mkMat (List.length cols) (f_rows X)) sz p tz;
    do icx <- foldM (fun m dt => update_idx_col dt m) (order (l_dtypes l)) ic;
    do g <- foldM (fun g e =>
              do u <- name_of_node icx (fst (fst e));
              do v <- name_of_node icx (snd (fst e));
              match dget String.eqb (snd e) "weight", dget String.eqb (snd e) "mean_effect" with
              | Some w, Some m => sm_result (add_edge g u v "learned" [("weight", w); ("mean_effect", m)])
              | _, _ => Err KeyError
              end) (edges_data (l_graph l)) (fold_left add_node (map snd icx) []);
    do bs <- mapM (fun b => do u <- name_of_node icx (fst b); Ok (u, snd b)) (l_bias l);
    do ds <- mapM (fun b => do u <- name_of_node icx (fst b); Ok (u, snd b)) (l_dist l);
    do gc <- foldM (fun g e =>
               do u <- name_of_node ic (fst (fst e));
               do v <- name_of_node ic (snd (fst e));
               match dget String.eqb (snd e) "weight" with
               | Some w => sm_result (add_edge g u v "learned" [("weight", w)])
               | None => Err KeyError
               end) (edges_data (l_collapsed l)) (fold_left add_node (map snd ic) []);
    Ok (mkLearned g (dupdate label_eqb [] bs) (dupdate label_eqb [] ds) (l_dims l) (l_params l) (l_dtypes l) (l_use_bias l) gc (l_warned l)).
