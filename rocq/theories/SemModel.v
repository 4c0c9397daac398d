(** * SemModel: model of the tabular data generators, causalnex/structure/data_generators/core.py:138-845 and
    wrappers.py:49-371.

    Random draws are arguments, keyed by the node (or edge) they are drawn for: every node and every edge is
    visited once, so this is the same as one stream.  A draw with scale s is s times the draw with scale 1, as
    for all numpy distributions used here.  Floats are rational numbers; only the rates of count variables
    need real numbers.  The array that np.empty returns is an argument. *)
From Coq Require Import List Bool Arith ZArith Lia String QArith Qcanon Reals.
From Verif Require Import Base Digraph SmModel QcX NotearsModel TorchModel DiscModel MapperModel AcycLink PoisModel GenModel.
Import ListNotations.
Local Open Scope string_scope.
Local Open Scope list_scope.
Local Open Scope nat_scope.

(** ** Arguments *)

(** A value of the dictionary [distributions]. (core.py:144) *)
Inductive dist := DName (s : string) | DNum (q : Qc).

(** core.py:363, 509 *)
Definition pct5 : Qc := Q2Qc (1 # 20).

(** core.py:500-516 _set_default_distributions *)
Definition default_distributions : list (string * dist) :=
  [("continuous", DName "gaussian"); ("binary", DName "logit"); ("categorical", DName "logit");
   ("weight", DName "uniform"); ("intercept", DName "uniform"); ("count", DNum pct5)].
(** core.py:500-516 *)
Definition set_distributions (d : option (list (string * dist))) : list (string * dist) :=
  match d with
  | None => default_distributions
  | Some l => fold_left (fun acc kv => dset String.eqb acc (fst kv) (snd kv)) l default_distributions
  end.
(** [distributions[k]] (core.py:240-241, 270, 281, 290, 300) *)
Definition dist_of (d : list (string * dist)) (k : string) : res dist :=
  match dget String.eqb d k with Some v => Ok v | None => Err KeyError end.

(** The draws of one call of sem_generator:
    weights of edges without weight, the numbers that choose the category of a weight, the intercepts, the
    noise with scale 1 of row i and feature k of a node, and for counts the uniform numbers of a root node,
    of the zero inflation and of the Poisson sampler. (core.py:310-326, 416-418, 452, 543-578) *)
Record sdraws := mkSdraws {
  sd_weight : label -> label -> nat -> nat -> Qc;
  sd_mask : label -> label -> nat -> nat -> Qc;
  sd_intercept : nat -> Qc;
  sd_noise : label -> nat -> nat -> Qc;
  sd_root : label -> nat -> Qc;
  sd_zero : label -> nat -> Qc;
  sd_poisson : label -> nat -> R }.

(** ** Noise *)

(** core.py:49-57 __distribution_mapper *)
Definition known_distributions : list string :=
  ["gaussian"; "normal"; "student-t"; "gumbel"; "exponential"; "probit"; "logit"].

(** core.py:310-326 _handle_distribution_sampling: the factor of the noise.  numpy rejects a negative scale;
    the Student distribution is multiplied afterwards. *)
Definition noise_scale (d : dist) (noise_std : Qc) (root : bool) : res Qc :=
  match d with
  | DName s =>
      if smem s known_distributions then
        let sc := if root then 1%Qc else noise_std in
        if String.eqb s "student-t" then Ok sc
        else if qlt sc 0 then Err ValueError else Ok sc
      else Err ValueError
  | DNum _ => Err ValueError
  end.

(** core.py:382-383 *)
Definition qcount (p : Qc -> bool) (l : list Qc) : nat := List.length (filter p l).
(** core.py:382-383 *)
Definition ratio (a b : nat) : Qc := (Q2Qc (inject_Z (Z.of_nat a)) / Q2Qc (inject_Z (Z.of_nat b)))%Qc.
(** core.py:385-388 *)
Definition above (t : Qc) (l : list Qc) : list Qc := map (fun x => indicator (qlt t x)) l.

(** core.py:381-388, max_imbalance = 0.05; the mean of no labels is NaN and compares false. *)
Definition binary_labels (l : list Qc) : list Qc :=
  match l with
  | [] => []
  | _ =>
      let share := ratio (qcount (qlt 0) l) (List.length l) in
      if qlt share pct5 then above (quantile1 (qsort l) pct5) l
      else if qlt (1 - pct5)%Qc share then above (quantile1 (qsort l) (1 - pct5)%Qc) l
      else above 0%Qc l
  end.

(** np.argmax of a row: the first largest (core.py:492) *)
Fixpoint qargmax_from (best : nat) (bv : Qc) (i : nat) (l : list Qc) : nat :=
  match l with
  | [] => best
  | x :: r => if qlt bv x then qargmax_from i x (S i) r else qargmax_from best bv (S i) r
  end.
(** core.py:492 *)
Definition qargmax (l : list Qc) : nat := match l with [] => 0 | x :: r => qargmax_from 0 x 1 r end.

(** core.py:329-355 _add_continuous_noise, 358-388 _sample_binary_from_latent; [z] is the noise of scale 1. *)
Definition add_noise (d : dist) (noise_std : Qc) (root : bool) (mean z : list Qc) : res (list Qc) :=
  do sc <- noise_scale d noise_std root;
  Ok (map (fun mz => fst mz + sc * snd mz)%Qc (combine mean z)).
(** core.py:358-388 *)
Definition sample_binary (d : dist) (noise_std : Qc) (root : bool) (mean z : list Qc) : res (list Qc) :=
  do l <- add_noise d noise_std root mean z; Ok (binary_labels l).

(** core.py:391-423 _sample_count_from_latent; [ur], [uz], [up] are the three arrays of uniform numbers. *)
Definition MAX_COUNT : nat := Z.to_nat 5000.
(** core.py:391-423 *)
Definition sample_count (d : dist) (root : bool) (eta ur uz : list Qc) (up : list R) : res (list Qc) :=
  match d with
  | DName _ => Err ValueError
  | DNum pct =>
      if qlt pct 0 || qlt 1 pct then Err ValueError
      else
        let eta := if root then map (fun p => fst p + snd p)%Qc (combine eta ur) else eta in
        do c <- sample_poisson MAX_COUNT (combine (map (fun e => exp_relu (realq e)) eta) up);
        Ok (map (fun zc => if qlt (fst zc) pct then 0%Qc else Q2Qc (inject_Z (Z.of_nat (snd zc)))) (combine uz c))
  end.

(** core.py:466-497 _sample_categories_from_latent; one list per category, [n] rows.  Without categories
    numpy cannot take the argmax. *)
Definition sample_categories (d : dist) (noise_std : Qc) (root : bool) (n : nat) (means zs : list (list Qc)) : res (list (list Qc)) :=
  do ls <- mapM (fun mz => add_noise d noise_std root (fst mz) (snd mz)) (combine means zs);
  match ls with
  | [] => Err ValueError
  | _ =>
      let cat := map (fun i => qargmax (map (fun l => nth i l 0%Qc) ls)) (seq 0 n) in
      Ok (map (fun k => map (fun c => indicator (c =? k)) cat) (seq 0 (List.length ls)))
  end.

(** ** Weights *)

(** [w_mat[np.ix_(ix_from, ix_to)] = vals] (core.py:537-539) *)
Definition position (x : nat) (l : list nat) : option nat := find (fun k => nth k l 0 =? x) (seq 0 (List.length l)).
(** core.py:546, 550, 560, 566 *)
Definition set_block (w : qmat) (from to : list nat) (vals : nat -> nat -> Qc) : qmat :=
  fun a b => match position a from, position b to with Some i, Some j => vals i j | _, _ => w a b end.

(** [np.min] of a block (core.py:564-565) *)
Definition block_min (r c : nat) (vals : nat -> nat -> Qc) : Qc :=
  let l := flat_map (fun i => map (vals i) (seq 0 c)) (seq 0 r) in
  fold_left (fun m x => if qlt x m then x else m) l (nth 0 l 0%Qc).

(** core.py:544-556, 568-578 *)
Definition weight_name (d : dist) : bool :=
  match d with DName s => smem s ["uniform"; "gaussian"; "normal"] | DNum _ => false end.

(** core.py:519-580 _create_weight_matrix, one edge.  Weights that are strings are rejected although numpy
    accepts strings of digits. *)
Definition edge_block (dr : sdraws) (wd : dist) (m : mapper) (w : qmat) (e : label * label * aval) : res qmat :=
  let '(u, v, wt) := e in
  do f <- lget (var_indices_dict m) u;
  do t <- lget (var_indices_dict m) v;
  let r := List.length f in
  let c := List.length t in
  match wt with
  | ANone => if weight_name wd then Ok (set_block w f t (sd_weight dr u v)) else Err ValueError
  | ANum q =>
      if r * c =? 1 then Ok (set_block w f t (fun _ _ => q))
      else if 1 <? r * c then
        let mask := sd_mask dr u v in
        Ok (set_block w f t (fun i j => indicator (Qc_eq_bool (mask i j) (block_min r c mask)) * q)%Qc)
      else Ok w
  | _ => Err ValueError
  end.

(** [graph.edges(data="weight")] (core.py:238) *)
Definition edges_weight (g : graph) : list (label * label * aval) :=
  map (fun e => (fst e, weight_of (snd e))) (edges_data g).

(** core.py:519-580 *)
Definition weight_matrix (dr : sdraws) (wd id : dist) (intercept : bool) (m : mapper) (g : graph) : res qmat :=
  do w <- foldM (edge_block dr wd m) (edges_weight g) (fun _ _ => 0%Qc);
  if intercept then
    let ncol := list_sum (map (fun kv => List.length (snd kv)) (var_indices_dict m)) in
    if weight_name id then Ok (fun a b => if a =? ncol then sd_intercept dr b else w a b) else Err ValueError
  else Ok w.

(** ** The loop over the nodes *)

(** [graph.predecessors(v)] (core.py:259, 711) *)
Definition preds (g : graph) (v : label) : list label :=
  map fst (filter (fun e => label_eqb (snd e) v) (edges g)).

(** [x_mat[:, js] = cols] for [n] rows (core.py:268, 277, 288, 296) *)
Definition set_cols (n : nat) (x : qmat) (js : list nat) (cols : list (list Qc)) : qmat :=
  fold_left (fun x jc => fun i j => if (j =? fst jc) && (i <? n) then nth i (snd jc) 0%Qc else x i j) (combine js cols) x.

(** core.py:268, 277, 288 *)
Definition first_index (js : list nat) : res nat := match js with j :: _ => Ok j | [] => Err IndexError end.

(** core.py:268, 277, 288 *)
Definition one_col (r : res (list Qc)) : res (list (list Qc)) := do c <- r; Ok [c].

(** core.py:253-303, one node.  [means x v ps js] are the latent means of the columns [js] of the node [v]
    with the parent columns [ps].  (nonlinear_sem_generator tests the types in two groups; for the documented
    types this makes no difference.) *)
Definition node_columns (dr : sdraws) (d : list (string * dist)) (noise_std : Qc) (n : nat)
    (means : qmat -> label -> list nat -> list nat -> res (list (list Qc))) (g : graph) (m : mapper) (extra : list nat)
    (x : qmat) (v : label) : res (list nat * list (list Qc)) :=
  let rows (f : nat -> Qc) := map f (seq 0 n) in
  do js <- get_indices m v;
  do ps0 <- get_indices_list m (preds g v);
  let ps := ps0 ++ extra in
  let root := List.length ps <=? List.length extra in
  do cont <- is_var_of_type m v "continuous";
  if cont then
    do j <- first_index js; do mu <- means x v ps [j]; do di <- dist_of d "continuous";
    do c <- one_col (add_noise di noise_std root (nth 0 mu []) (rows (fun i => sd_noise dr v i 0)));
    Ok ([j], c)
  else
  do bin <- is_var_of_type m v "binary";
  if bin then
    do j <- first_index js; do mu <- means x v ps [j]; do di <- dist_of d "binary";
    do c <- one_col (sample_binary di noise_std root (nth 0 mu []) (rows (fun i => sd_noise dr v i 0)));
    Ok ([j], c)
  else
  do cnt <- is_var_of_type m v "count";
  if cnt then
    do j <- first_index js; do mu <- means x v ps [j]; do di <- dist_of d "count";
    do c <- one_col (sample_count di root (nth 0 mu []) (rows (sd_root dr v)) (rows (sd_zero dr v)) (map (sd_poisson dr v) (seq 0 n)));
    Ok ([j], c)
  else
  do cat <- is_var_of_type m v "categorical";
  if cat then
    do mu <- means x v ps js; do di <- dist_of d "categorical";
    do c <- sample_categories di noise_std root n mu (map (fun k => rows (fun i => sd_noise dr v i k)) (seq 0 (List.length js)));
    Ok (js, c)
  else Ok ([], []).

(** core.py:254-303 *)
Definition node_step (dr : sdraws) (d : list (string * dist)) (noise_std : Qc) (n : nat)
    (means : qmat -> label -> list nat -> list nat -> res (list (list Qc))) (g : graph) (m : mapper) (extra : list nat)
    (x : qmat) (v : label) : res qmat :=
  do jc <- node_columns dr d noise_std n means g m extra x v;
  Ok (set_cols n x (fst jc) (snd jc)).

(** [x_mat[:, parents_idx].dot(w_mat[parents_idx, j])] (core.py:269, 278-280, 289, 297-299) *)
Definition dot_means (n : nat) (w : qmat) (x : qmat) (v : label) (ps js : list nat) : res (list (list Qc)) :=
  Ok (map (fun j => map (fun i => Qsum (fun p => x i p * w p j)%Qc ps) (seq 0 n)) js).

(** A data frame: column names and rows (core.py:305-307) *)
Record sframe := mkSframe { s_cols : list label; s_rows : list (list Qc) }.
(** core.py:305-307 *)
Definition to_frame (m : mapper) (n : nat) (x : qmat) : sframe :=
  mkSframe (feature_list m) (map (fun i => map (x i) (seq 0 (n_features m))) (seq 0 n)).

(** core.py:592-615 _init_sem_data_gen; [order] is the iteration order of the set of types. *)
Definition init_sem (order : list string) (g : graph) (s : schema) (default : string) : res mapper :=
  if negb (is_dag label_eqb (edges g)) then Err ValueError
  else do vs <- validate_schema (nodes g) default s; mapper_init order vs.

(** core.py:138-307 sem_generator; [topo] is what nx.topological_sort yields, [junk] what np.empty returns.
    With an intercept a column of ones is appended. *)
Definition sem_generator (order : list string) (topo : list label) (junk : qmat) (dr : sdraws)
    (g : graph) (s : schema) (default : string) (noise_std : Qc) (n : nat) (ds : option (list (string * dist)))
    (intercept : bool) : res sframe :=
  do m <- init_sem order g s default;
  let d := set_distributions ds in
  do wd <- dist_of d "weight"; do id <- dist_of d "intercept";
  do w <- weight_matrix dr wd id intercept m g;
  let nf := n_features m in
  let x := if intercept then (fun i j => if j =? nf then 1%Qc else junk i j) else junk in
  let extra := if intercept then [nf] else [] in
  do x' <- foldM (node_step dr d noise_std n (dot_means n w) g m extra) topo x;
  Ok (to_frame m n x').

(** ** Nonlinear data *)

(** The draws of one Gaussian process: values of the multivariate normal distribution for the first rows, and
    for further rows given the rows and values before; the standard deviation of an array; np.argsort.
    (core.py:759-782, 843-845) *)
Record gp_oracle := mkGp {
  gp_first : list (list Qc) -> list Qc;
  gp_next : list (list Qc) -> list (list Qc) -> list Qc -> list Qc;
  gp_std : list Qc -> Qc;
  gp_sort : list Qc -> list nat }.

(** np.array_split(l, k): the first (length mod k) pieces are one longer. (core.py:821-822) *)
Fixpoint split_sizes {A} (sizes : list nat) (l : list A) : list (list A) :=
  match sizes with [] => [] | s :: r => firstn s l :: split_sizes r (skipn s l) end.
(** core.py:822 *)
Definition array_split {A} (l : list A) (k : nat) : list (list A) :=
  let n := List.length l in
  split_sizes (map (fun i => if i <? n mod k then S (n / k) else n / k) (seq 0 k)) l.

(** np.argsort of a permutation of 0, ..., n - 1: where each number is. (core.py:818, 840) *)
Definition inverse (ix : list nat) : list nat :=
  map (fun i => match position i ix with Some k => k | None => 0 end) (seq 0 (List.length ix)).

(** core.py:843-845 _scale_y *)
Definition scale_y (o : gp_oracle) (y : list Qc) : list Qc := map (fun v => v / gp_std o y)%Qc y.

(** core.py:785-840 _gp_index; [x] has a row per sample and [nc] columns.  For a single sample with parents
    the result is a scalar and the caller fails.  Singular covariance matrices, no samples at all and a zero
    standard deviation (NaN) are not modelled. *)
Definition gp_index (o : gp_oracle) (max_chunk_size nc : nat) (x : list (list Qc)) : res (list Qc) :=
  let n := List.length x in
  if nc =? 0 then Ok (map (fun _ => 0%Qc) x)
  else if n <=? max_chunk_size then
    if n =? 1 then Err IndexError else Ok (scale_y o (gp_first o x))
  else
    let ix := gp_sort o (map (fun r => nth 0 r 0%Qc) x) in
    let back := inverse ix in
    let n_splits := n / max_chunk_size + 1 in
    match array_split (map (fun i => nth i x []) ix) n_splits with
    | [] => Err IndexError
    | x0 :: rest =>
        let y0 := gp_first o x0 in
        let outs := fold_left (fun (s : list (list Qc) * (list (list Qc) * list Qc)) xn =>
                      let y := gp_next o xn (fst (snd s)) (snd (snd s)) in
                      (fst s ++ [y], (xn, y))) rest ([y0], (x0, y0)) in
        let y := scale_y o (List.concat (fst outs)) in
        Ok (map (fun k => nth k y 0%Qc) back)
    end.

(** The latent means of a node: one process per column. (core.py:719, 728, 737, 745-751) *)
Definition gp_means (n : nat) (gp : label -> nat -> gp_oracle) (x : qmat) (v : label) (ps js : list nat) : res (list (list Qc)) :=
  mapM (fun k => gp_index (gp v k) 100 (List.length ps) (map (fun i => map (x i) ps) (seq 0 n))) (seq 0 (List.length js)).

(** core.py:618-756 nonlinear_sem_generator *)
Definition nonlinear_sem_generator (order : list string) (topo : list label) (junk : qmat) (dr : sdraws) (gp : label -> nat -> gp_oracle)
    (g : graph) (s : schema) (default : string) (noise_std : Qc) (n : nat) (ds : option (list (string * dist))) : res sframe :=
  do m <- init_sem order g s default;
  do x' <- foldM (node_step dr (set_distributions ds) noise_std n (gp_means n gp) g m []) topo junk;
  Ok (to_frame m n x').

(** ** Wrappers *)

(** [df[list(sm.nodes())].values] (wrappers.py:100, 157) *)
Definition select_columns (f : sframe) (names : list label) : res (list (list Qc)) :=
  mapM (fun row => mapM (fun v => match dget label_eqb (combine (s_cols f) row) v with Some q => Ok q | None => Err KeyError end) names) (s_rows f).

(** wrappers.py:49-100 generate_continuous_data and 103-159 generate_binary_data without a kernel; [default]
    is "continuous" or "binary", both the type and the entry of the distributions. *)
Definition generate_plain_data (default : string) (order : list string) (topo : list label) (junk : qmat) (dr : sdraws)
    (g : graph) (n : nat) (distribution : dist) (noise_std : Qc) (intercept : bool) : res (list (list Qc)) :=
  do f <- sem_generator order topo junk dr g [] default noise_std n (Some [(default, distribution)]) intercept;
  select_columns f (nodes g).
