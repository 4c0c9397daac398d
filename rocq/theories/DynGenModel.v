(** * DynGenModel: model of the dynamic generators, causalnex/structure/data_generators/wrappers.py:374-712.

    Random draws are arguments.  Floats are rational numbers; what only floats can do (overflow, NaN) is an
    argument of the last function.  The number of lags, of samples and of discarded samples are not negative. *)
From Coq Require Import List Bool Arith ZArith Lia String QArith Qcanon.
From Verif Require Import Base Names Digraph SmModel QcX NetModel NotearsModel TorchModel MapperModel GenModel.
Import ListNotations.
Local Open Scope string_scope.
Local Open Scope list_scope.
Local Open Scope nat_scope.

(** ** Structures *)

(** The draws of _generate_inter_structure: np.random.rand for the edges, and for each lag the uniform numbers
    (between 0 and 1) of the weights and np.random.rand for the signs. (wrappers.py:481, 491, 494) *)
Record idraws := mkIdraws { id_edge : qmat; id_weight : nat -> qmat; id_sign : nat -> qmat }.

(** "{var}_lag{l_val}".format(...) of an integer (wrappers.py:503, 508) *)
Definition slice_name (v l : nat) : label := LStr (lag_name (dec v) l).
(** wrappers.py:502-506: the rows *)
Definition past_names (n p : nat) : list label := flat_map (fun l => map (fun v => slice_name v l) (seq 0 n)) (seq 1 p).
(** wrappers.py:507-509: the columns *)
Definition present_names (n : nat) : list label := map (fun v => slice_name v 0) (seq 0 n).

(** wrappers.py:443-518 _generate_inter_structure.  [w_decay] is not zero.  The frame is padded with zeros to a
    square one whose index is the rows followed by the columns, so these are the nodes of StructureModel(df)
    and the non-zero entries, row by row, its edges.  [neg] is never passed: 0.5. *)
Definition generate_inter (rn : idraws) (n p : nat) (degree : Qc) (graph_type : string) (w_min w_max w_decay : Qc) : res graph :=
  if qlt w_max w_min then Err ValueError
  else
    do b <-
      (if String.eqb graph_type "erdos-renyi" then
         Ok (fun r j => indicator (qlt (id_edge rn r j) (degree / Q2Qc (inject_Z (Z.of_nat n)))%Qc))
       else if String.eqb graph_type "full" then Ok (fun _ _ => 1%Qc)
       else Err ValueError);
    let u (r j : nat) : Qc :=
      let i := r / n in
      let k := r mod n in
      let x := ((w_min + (w_max - w_min) * id_weight rn i k j) / Qcpower w_decay i)%Qc in
      if qlt (id_sign rn i k j) half then (x * - (1))%Qc else x in
    let a (r j : nat) : Qc := (indicator (qnz (b r j)) * u r j)%Qc in
    let rows := past_names n p in
    let cols := present_names n in
    sm_new (rows ++ cols)
           (map (fun rj => E3 (nth (fst rj) rows (LStr "")) (nth (snd rj) cols (LStr "")) [("weight", ANum (a (fst rj) (snd rj)))])
                (filter (fun rj => qnz (a (fst rj) (snd rj))) (list_prod (seq 0 (p * n)) (seq 0 n))))
           "unknown".

(** [edges.data("weight")]: None when there is none. (wrappers.py:433, 437) *)
Definition weight_data (a : attrs) : aval := match aget a "weight" with Some w => w | None => ANone end.

(** wrappers.py:414-440 generate_structure_dynamic *)
Definition generate_structure_dynamic (rn : draws) (ri : idraws) (num_nodes : Z) (p : nat) (degree_intra degree_inter : Qc)
  (type_intra type_inter : string) (w_min_intra w_max_intra w_min_inter w_max_inter w_decay : Qc) : res graph :=
  do intra <- generate_structure rn num_nodes degree_intra type_intra w_min_intra w_max_intra;
  do inter <- generate_inter ri (Z.to_nat num_nodes) p degree_inter type_inter w_min_inter w_max_inter w_decay;
  let now (u : label) : label := LStr (lag_name (str_of u) 0) in
  let g0 := fold_left add_node (map now (nodes intra)) (fold_left add_node (nodes inter) []) in
  do g1 <- sm_result (add_weighted_edges_from g0 (map (fun e => W3 (fst (fst e)) (snd (fst e)) (weight_data (snd e))) (edges_data inter)) "weight" "unknown" []);
  sm_result (add_weighted_edges_from g1 (map (fun e => W3 (now (fst (fst e))) (now (snd (fst e))) (weight_data (snd e))) (edges_data intra)) "weight" "unknown" []).

(** ** Data *)

(** A data frame with string column names. (wrappers.py:586-592) *)
Record dframe := mkDframe { df_cols : list string; df_rows : list (list Qc) }.

(** ["_lag0" in el]: only strings can be searched. (wrappers.py:550-551) *)
Definition node_text (l : label) : res string := match l with LStr s => Ok s | LInt _ => Err TypeError end.
(** wrappers.py:550 *)
Definition current (s : string) : bool := contains "_lag0" s.

(** An entry of nx.to_numpy_array: zero without an edge, one for an edge without a weight. (wrappers.py:552-555) *)
Definition wnum (g : graph) (u v : string) : Qc :=
  match edge_attrs g (LStr u) (LStr v) with
  | None => 0%Qc
  | Some a => match aget a "weight" with Some (ANum q) => q | _ => 1%Qc end
  end.
(** to_numpy_array fails on a weight that is not a number. (wrappers.py:552-553) *)
Definition numeric (a : attrs) : res unit :=
  match aget a "weight" with None | Some (ANum _) => Ok tt | _ => Err TypeError end.

(** [l[-n:]]; the whole list when n is 0 (wrappers.py:588-589) *)
Definition last_rows {A} (n : nat) (l : list A) : list A := if n =? 0 then l else skipn (List.length l - n) l.

(** wrappers.py:569-582: one row; [lags] is the row of Xlags, [x] the row of X. *)
Definition dyn_row (d : nat) (order : list nat) (w a : qmat) (parents prev : nat -> list nat) (drift noise : nat -> Qc) (lags : list Qc) : list Qc :=
  map (fold_left (fun x j i => if i =? j then (drift j + Qsum (fun k => x k * w k j) (parents j) + Qsum (fun k => nth k lags 0 * a k j) (prev j) + noise j)%Qc else x i)
         order (fun _ => 0%Qc)) (seq 0 d).

(** wrappers.py:563-585: the rows of X and Xlags from time [t] on; [m] is d * p. *)
Fixpoint simulate (row : nat -> list Qc -> list Qc) (m n t : nat) (lags : list Qc) : list (list Qc * list Qc) :=
  match n with
  | O => []
  | S k => let x := row t lags in (x, lags) :: simulate row m k (S t) (firstn m (x ++ lags))
  end.

(** The edges of nx.DiGraph(w_mat). (wrappers.py:556) *)
Definition mat_edges (d : nat) (w : qmat) : list (nat * nat) := filter (fun ij => qnz (w (fst ij) (snd ij))) (cells d).

(** wrappers.py:521-592 generate_dataframe_dynamic.  [order] is the topological order networkx finds for the
    intra-slice matrix and [noise t j] the draw at time t for variable j.  With a number of lagged nodes that is
    not a multiple of the number of current ones the last DataFrame call fails (an IndexError may come first). *)
Definition generate_dataframe_dynamic (order : qmat -> nat -> list nat) (noise : qmat) (g : graph) (n_samples burn_in : nat)
  (sem_type : string) (noise_scale : Qc) (drift : option (list Qc)) : res dframe :=
  if negb (smem sem_type ["linear-gauss"; "linear-exp"; "linear-gumbel"]) then Err ValueError
  else
    do names <- mapM node_text (nodes g);
    let intra := ssort (filter current names) in
    let inter := ssort (filter (fun s => negb (current s)) names) in
    do _ <- mapM (fun e => numeric (snd e)) (edges_data g);
    let d := List.length intra in
    let r := List.length inter in
    let w (i j : nat) : Qc := wnum g (nth i intra "") (nth j intra "") in
    let a (i j : nat) : Qc := wnum g (nth i inter "") (nth j intra "") in
    if d =? 0 then Err ZeroDivisionError
    else
      let p := r / d in
      let total := n_samples + burn_in in
      if negb (is_dag Nat.eqb (mat_edges d w)) then Err NetworkXError
      else if (0 <? total) && match drift with Some l => List.length l <? d | None => false end then Err IndexError
      else if (0 <? total) && qlt noise_scale 0 then Err ValueError
      else if negb (r =? p * d) then Err ValueError
      else
        let parents (j : nat) : list nat := filter (fun i => qnz (w i j)) (seq 0 d) in
        let prev (j : nat) : list nat := filter (fun i => qnz (a i j)) (seq 0 r) in
        let dr (j : nat) : Qc := match drift with Some l => nth j l 0%Qc | None => 0%Qc end in
        let row (t : nat) (lags : list Qc) : list Qc := dyn_row d (order w d) w a parents prev dr (fun j => (noise_scale * noise t j)%Qc) lags in
        let rows := simulate row (d * p) total 0 (repeat 0%Qc (p * d)) in
        Ok (mkDframe (intra ++ inter) (map (fun xl => fst xl ++ snd xl) (last_rows n_samples rows))).

(** ** The stationary generator *)

(** The bound 1e3. (wrappers.py:701) *)
Definition thousand : Qc := Q2Qc 1000.
(** [df.abs().max().max() < 1e3]; the maximum of nothing is NaN. (wrappers.py:701) *)
Definition moderate (df : dframe) : bool :=
  match df_rows df with [] => false | rows => forallb (forallb (fun x => qlt (Qcabs x) thousand)) rows end.

(** wrappers.py:672-673 *)
Definition intra_names (g : graph) : res (list string) := do names <- mapM node_text (nodes g); Ok (ssort (filter current names)).
(** wrappers.py:673 *)
Definition inter_names (g : graph) : res (list string) := do names <- mapM node_text (nodes g); Ok (ssort (filter (fun s => negb (current s)) names)).

(** [u in names] (wrappers.py:677-678) *)
Definition starts_in (names : list string) (e : label * label) : bool := match fst e with LStr s => smem s names | LInt _ => false end.

(** wrappers.py:656-683: the inner loop; [gen k] is what the k-th call of generate_structure_dynamic gives. *)
Fixpoint find_graph (fuel : nat) (gen : nat -> res graph) (degree_intra degree_inter : Qc) (k : nat) : res (graph * list string * list string) :=
  match fuel with
  | O => Err OutOfFuel
  | S f =>
      do g <- gen k;
      do intra <- intra_names g;
      do inter <- inter_names g;
      if (existsb (starts_in intra) (edges g) && existsb (starts_in inter) (edges g)) || negb (qnz degree_intra) || negb (qnz degree_inter)
      then Ok (g, intra, inter)
      else find_graph f gen degree_intra degree_inter (S k)
  end.

(** [df.loc[burn_in:, ...]]; the columns are selected in the order they have. (wrappers.py:693-694) *)
Definition drop_rows (n : nat) (df : dframe) : dframe := mkDframe (df_cols df) (skipn n (df_rows df)).

(** wrappers.py:650-702: the outer loop.  [budget] is max_data_gen_trials, [gen i k] the k-th structure of trial i,
    [data i g] the frame generated from g in trial i, [broken i] says that floats overflow or are NaN in trial i. *)
Fixpoint trials (fuel inner : nat) (gen : nat -> nat -> res graph) (data : nat -> graph -> res dframe) (broken : nat -> bool)
  (degree_intra degree_inter : Qc) (burn_in : nat) (budget : Z) (i : nat) : res (graph * list string * list string * dframe * Z) :=
  match fuel with
  | O => Err OutOfFuel
  | S f =>
      let remaining := (budget - 1)%Z in
      do found <- find_graph inner (gen i) degree_intra degree_inter 0;
      let '(g, intra, inter) := found in
      do df0 <- data i g;
      let df := drop_rows burn_in df0 in
      if (remaining <=? 0)%Z || (negb (broken i) && moderate df) then Ok (g, intra, inter, df, remaining)
      else trials f inner gen data broken degree_intra degree_inter burn_in remaining (S i)
  end.

(** wrappers.py:595-712 gen_stationary_dyn_net_and_df *)
Definition gen_stationary (fuel inner : nat) (order : qmat -> nat -> list nat) (rn : nat -> nat -> draws) (ri : nat -> nat -> idraws) (noise : nat -> qmat) (broken : nat -> bool)
  (num_nodes : Z) (n_samples p : nat) (degree_intra degree_inter : Qc) (type_intra type_inter : string)
  (w_min_intra w_max_intra w_min_inter w_max_inter w_decay : Qc) (sem_type : string) (noise_scale : Qc) (max_trials : Z)
  : res (graph * dframe * list string * list string) :=
  let burn_in := Nat.max (n_samples / 10) 50 in
  let gen i k := generate_structure_dynamic (rn i k) (ri i k) num_nodes p degree_intra degree_inter type_intra type_inter w_min_intra w_max_intra w_min_inter w_max_inter w_decay in
  let data i g := generate_dataframe_dynamic order (noise i) g (n_samples + burn_in) 100 sem_type noise_scale None in
  do out <- trials fuel inner gen data broken degree_intra degree_inter burn_in max_trials 0;
  let '(g, intra, inter, df, budget) := out in
  if (budget <=? 0)%Z then
    if Z.to_nat num_nodes * (1 + p) =? List.length (intra ++ inter)
    then Ok (g, mkDframe (intra ++ inter) (repeat (repeat 1%Qc (Z.to_nat num_nodes * (1 + p))) n_samples), intra, inter)
    else Err ValueError
  else Ok (g, df, intra, inter).
