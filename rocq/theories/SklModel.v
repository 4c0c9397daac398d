(** * SklModel: model of causalnex/structure/pytorch/sklearn/ and of reconstruction with the network.

    - Structure learning is [torch_pandas] of TorchModel.v with the same oracles.
    - Network outputs are exact rationals, probabilities are real numbers.
    - The scale of scikit-learn's StandardScaler (a square root) is an oracle [sd] of the column.
    - The plotting method is modelled in FigModel.v. *)
From Coq Require Import List Bool Arith ZArith Lia String QArith Qcanon Reals.
From Verif Require Import Base Names Digraph SmModel QcX NetModel NotearsModel AcycLink TorchModel.
Import ListNotations.
Local Open Scope string_scope.
Local Open Scope list_scope.
Local Open Scope nat_scope.

(** ** Inverse link functions *)
(** dist_type/binary.py:76, ordinal.py:110: [torch.sigmoid] *)
Definition sigmoid (x : R) : R := (/ (1 + exp (- x)))%R.
(** dist_type/categorical.py:249-262: the sum of a vector *)
Definition rsum (l : list R) : R := fold_right Rplus 0%R l.
(** dist_type/categorical.py:249-262 *)
Definition softmax (l : list R) : list R := map (fun x => (exp x / rsum (map exp l))%R) l.

(** ordinal.py:83-87: the share of the data in each category, summed up, without the last sum.  [vals] is the
    column before encoding; the encoder numbers its distinct values in order. *)
Definition share (vals : list Qc) (c : Qc) : Qc :=
  (Q2Qc (inject_Z (Z.of_nat (List.length (filter (fun x => Qc_eq_bool x c) vals)))) / Q2Qc (inject_Z (Z.of_nat (List.length vals))))%Qc.
(** np.cumsum (ordinal.py:85) *)
Fixpoint cumsum (acc : Qc) (l : list Qc) : list Qc :=
  match l with [] => [] | x :: r => (acc + x)%Qc :: cumsum (acc + x)%Qc r end.
(** ordinal.py:83-87 *)
Definition cum_class_probs (vals : list Qc) : list Qc := removelast (cumsum 0%Qc (map (share vals) (categories vals))).
(** ordinal.py:90 *)
Definition log_cum_odds (vals : list Qc) : list R := map (fun c => ln (realq c / (1 - realq c))%R) (cum_class_probs vals).

(** ordinal.py:94-122 _get_probs for one row with output [z]; the first and last entries of an empty tensor do
    not exist. *)
Definition get_probs (odds : list R) (z : R) : res (list R) :=
  let cum := map (fun o => sigmoid (o - z)%R) odds in
  match cum with
  | [] => Err IndexError
  | c0 :: _ => Ok (c0 :: map (fun ab => (snd ab - fst ab)%R) (combine cum (tl cum)) ++ [(1 - last cum 0)%R])
  end.

(** A matrix of reals. (core.py:207-214: the reconstruction) *)
Record rmat := mkRm { r_width : nat; r_rows : list (list R) }.

(** dist_type/categorical.py:249-262: assignment to the columns of the group *)
Definition set_many (r : list R) (is : list nat) (xs : list R) : list R := fold_left (fun r ix => set_nth (fst ix) (snd ix) r) (combine is xs) r.

(** binary.py:64-77, categorical.py:249-262, continuous.py:58-70, ordinal.py:148-160, poisson.py:86-99
    inverse_link_function; [odds] are the log_cum_odds of an ordinal type. *)
Definition inverse_link (odds : nat -> list R) (t : dtype) (M : rmat) : res rmat :=
  let i := dt_idx t in
  match dt_kind t with
  | Cont => Ok M
  | Bin => if i <? r_width M then Ok (mkRm (r_width M) (map (fun r => set_nth i (sigmoid (nth i r 0%R)) r) (r_rows M))) else Err IndexError
  | Poiss => if i <? r_width M then Ok (mkRm (r_width M) (map (fun r => set_nth i (exp (nth i r 0%R)) r) (r_rows M))) else Err IndexError
  | Cat => if forallb (fun j => j <? r_width M) (dt_group t)
           then Ok (mkRm (r_width M) (map (fun r => set_many r (dt_group t) (softmax (map (fun j => nth j r 0%R) (dt_group t)))) (r_rows M)))
           else Err IndexError
  | Ord => if i <? r_width M then
             do rs <- mapM (fun r => get_probs (odds i) (nth i r 0%R)) (r_rows M);
             Ok (mkRm (S (List.length (odds i))) rs)
           else Err IndexError
  end.

(** core.py:187-214 reconstruct_data.  A column that does not exist makes the preprocessing raise IndexError, a
    wrong width makes the first layer raise RuntimeError. *)
Definition reconstruct_data (act : activation) (l : learned) (odds : nat -> list R) (X : data) : res rmat :=
  do X' <- foldM (fun X t => match dt_kind t with
                             | Cat | Ord | Poiss => if dt_idx t <? width X then preprocess t X else Err IndexError
                             | _ => Ok X
                             end) (l_dtypes l) X;
  if negb (width X' =? nth 0 (l_dims l) 0) then Err RuntimeError
  else
    foldM (fun M t => inverse_link odds t M) (l_dtypes l)
      (mkRm (nth 0 (l_dims l) 0) (map (fun r => map realq (forward act (l_use_bias l) (l_dims l) (l_params l) r)) (rows X'))).

(** ** Estimators *)
(** clf.py:46, reg.py:43: the two classes *)
Inductive estimator := Regressor | Classifier.

(** The parameters; [c_iter] is the [max_iter] among the keyword arguments, alpha and beta only go into the
    optimiser. (sklearn/_base.py:64-80, 155-171) *)
Record config := mkCfg {
  c_est : estimator; c_schema : option (list (label * string)); c_bias : bool; c_hidden : option (list nat); c_threshold : Qc;
  c_tabu : tabu label; c_dependent : bool; c_enforce : bool; c_standardize : bool; c_iter : nat }.

(** sklearn/_base.py:234-250: what [graph_] holds *)
Record graphs := mkGr { g_learned : learned; g_edges : graph; g_values : nat -> list Qc }.

(** The state of an estimator: [_target_dist_type], [classes_], [continuous_col_idxs] with [_ss_X], [_ss_y],
    [_features] with [_target], and [graph_].  With [graph_] we keep the columns of the data it was learned from
    (the ordinal types keep their shares). (sklearn/_base.py:155-171, 195-220, 234; clf.py:100) *)
Record est := mkEst {
  e_cfg : config; e_type : option string; e_classes : option (list label);
  e_scale_X : option (list nat * list (Qc * Qc)); e_scale_y : option (Qc * Qc); e_names : option (list label * label); e_graph : option graphs }.

(** clf.py:76 and reg.py:73 _supported_types *)
Definition supported (k : estimator) : list string := match k with Classifier => ["ord"; "bin"; "cat"] | Regressor => ["cont"; "poiss"] end.

(** sklearn/_base.py:64-171 __init__; the booleans say whether alpha, beta, fit_intercept and threshold have the right
    type. *)
Definition dag_init (c : config) (alpha_ok beta_ok bias_ok threshold_ok : bool) (target_type : option string) : res est :=
  if negb alpha_ok then Err TypeError
  else if negb beta_ok then Err TypeError
  else if negb bias_ok then Err TypeError
  else if negb threshold_ok then Err TypeError
  else match target_type with
       | Some a => if smem a (supported (c_est c)) then Ok (mkEst c target_type None None None None None) else Err NotImplementedError
       | None => Ok (mkEst c None None None None None None)
       end.

(** Features as a DataFrame (an array has columns and rows numbered from 0). (sklearn/_base.py:182) *)
Record xdata := mkX { x_cols : list (label * bool); x_index : list label; x_rows : list (list fl) }.
(** A target as a Series; [y_numeric] is whether its dtype is numeric. (sklearn/_base.py:183-185) *)
Record ydata := mkY { y_name : option label; y_index : list label; y_vals : list fl; y_numeric : bool }.

(** sklearn/_base.py:182: [pd.DataFrame] of an array *)
Definition array_X (d : nat) (rows : list (list fl)) : xdata :=
  mkX (map (fun i => (LInt (Z.of_nat i), true)) (seq 0 d)) (map (fun i => LInt (Z.of_nat i)) (seq 0 (List.length rows))) rows.
(** sklearn/_base.py:183: [pd.Series] of an array *)
Definition array_y (vals : list fl) : ydata := mkY None (map (fun i => LInt (Z.of_nat i)) (seq 0 (List.length vals))) vals true.

(** scikit-learn check_X_y(X, y, y_numeric=True); every problem is a ValueError. (sklearn/_base.py:179) *)
Definition check_X_y (X : xdata) (y : ydata) : bool :=
  negb (List.length (x_rows X) =? 0) && negb (List.length (x_cols X) =? 0) && forallb snd (x_cols X) &&
  forallb (forallb is_finite) (x_rows X) && forallb is_finite (y_vals y) && (List.length (x_rows X) =? List.length (y_vals y)).

(** [y.name or "__target"]: None, the empty string and 0 are falsy. (sklearn/_base.py:185) *)
Definition target_name (y : ydata) : label :=
  match y_name y with
  | Some (LInt z) => if Z.eqb z 0 then LStr "__target" else LInt z
  | Some (LStr s) => if String.eqb s "" then LStr "__target" else LStr s
  | None => LStr "__target"
  end.

(** sklearn/_base.py:223: the position of a label of an index *)
Fixpoint find_label (l : list label) (x : label) : option nat :=
  match l with [] => None | y :: r => if label_eqb x y then Some 0 else option_map S (find_label r x) end.

(** sklearn/_base.py:223: whether the labels of an index are distinct *)
Fixpoint labels_nodup (l : list label) : bool := match l with [] => true | x :: r => negb (lmem x r) && labels_nodup r end.
(** clf.py:98: the distinct labels *)
Fixpoint distinct (l : list label) : list label := match l with [] => [] | x :: r => if lmem x r then distinct r else x :: distinct r end.

(** [pd.concat([X, y], axis=1)] (sklearn/_base.py:223): rows by position if the indexes are the same, otherwise by
    label, with missing values; repeated labels are then an error. *)
Definition concat_xy (X : xdata) (y : ydata) : res (list (list fl)) :=
  if list_eqb label_eqb (x_index X) (y_index y) then Ok (map (fun rv => fst rv ++ [snd rv]) (combine (x_rows X) (y_vals y)))
  else if negb (labels_nodup (x_index X) && labels_nodup (y_index y)) then Err ValueError
  else
    let all := x_index X ++ filter (fun i => negb (lmem i (x_index X))) (y_index y) in
    Ok (map (fun i => (match find_label (x_index X) i with Some k => nth k (x_rows X) [] | None => map (fun _ => NaN) (x_cols X) end) ++
                      [match find_label (y_index y) i with Some k => nth k (y_vals y) NaN | None => NaN end]) all).

(** StandardScaler: mean and scale of a column (sklearn/_base.py:204, 212) *)
Definition mean (l : list Qc) : Qc := (Qsum (fun x => x) l / Q2Qc (inject_Z (Z.of_nat (List.length l))))%Qc.
(** sklearn/_base.py:204, 212 *)
Definition scale_fl (ms : Qc * Qc) (x : fl) : fl := match x with Fin q => Fin ((q - fst ms) / snd ms)%Qc | _ => x end.
(** sklearn/_base.py:204, 265 *)
Definition scale_row {A} (f : Qc * Qc -> A -> A) (d : A) (is : list nat) (mss : list (Qc * Qc)) (r : list A) : list A :=
  fold_left (fun r im => set_nth (fst im) (f (snd im) (nth (fst im) r d)) r) (combine is mss) r.

Section Oracles.
  Context (fuel : nat) (opt : optimiser) (eh : tpenalty) (act : activation) (grad : autograd) (rnd : list Qc) (order : list dtype -> list dtype).
  Context (sd : list Qc -> Qc).

  (** sklearn/_base.py:204: a column, whose values are finite after the check *)
  Definition fl_column (i : nat) (rows : list (list fl)) : list Qc := map (fun r => finite_part (nth i r NaN)) rows.

  (** sklearn/_base.py:173-252 DAGBase.fit; the state of the estimator afterwards and the outcome.  A column name that
      occurs twice (among the features, or as feature and target) ends in a TypeError when the schema is turned into
      positions (notears.py:304-309); with standardize it may be another exception.  The target has a type here
      (the fit methods of the two estimators see to it).  Not modelled: with standardize and no continuous
      column the (empty) scaler objects are stored before the ValueError. *)
  Definition base_fit (e : est) (X : xdata) (y : ydata) : est * res unit :=
    let c := e_cfg e in
    if negb (check_X_y X y) then (e, Err ValueError)
    else
      let cols := map fst (x_cols X) in
      let name := target_name y in
      let schema := match c_schema c with Some (x :: r) => x :: r | _ => map (fun u => (u, "cont")) cols end in
      let scaled : res (est * xdata * ydata) :=
        if c_standardize c then
          do is <- mapM (fun ca => get_loc cols (fst ca)) (filter (fun ca => String.eqb (snd ca) "cont") schema);
          match is with
          | [] => Err ValueError
          | _ =>
              let mss := map (fun i => let col := fl_column i (x_rows X) in (mean col, sd col)) is in
              let X' := mkX (x_cols X) (x_index X) (map (scale_row scale_fl NaN is mss) (x_rows X)) in
              let e' := mkEst c (e_type e) (e_classes e) (Some (is, mss)) (e_scale_y e) (e_names e) (e_graph e) in
              match e_type e with
              | Some "cont" =>
                  let col := map finite_part (y_vals y) in
                  let ms := (mean col, sd col) in
                  Ok (mkEst c (e_type e) (e_classes e) (Some (is, mss)) (Some ms) (e_names e) (e_graph e), X',
                      mkY (y_name y) (y_index y) (map (scale_fl ms) (y_vals y)) (y_numeric y))
              | _ => Ok (e', X', y)
              end
          end
        else Ok (e, X, y) in
      match scaled with
      | Err x => (e, Err x)
      | Ok (e1, X1, y1) =>
          let schema' := match e_type e with Some a => dset label_eqb schema name a | None => schema end in
          let e2 := mkEst c (e_type e1) (e_classes e1) (e_scale_X e1) (e_scale_y e1) (Some (cols, name)) (e_graph e1) in
          let parents := if c_dependent c
                         then match t_parents (c_tabu c) with
                              | None => Some [name]
                              | Some l => if lmem name l then Some l else Some (l ++ [name])
                              end
                         else t_parents (c_tabu c) in
          let outcome : res graphs :=
            do rows <- concat_xy X1 y1;
            if negb (labels_nodup (cols ++ [name])) then Err TypeError
            else
              do l <- torch_pandas fuel opt eh act grad rnd order (mkFrame (x_cols X1 ++ [(name, y_numeric y1)]) rows) (Some schema')
                        (mkTp (c_hidden c) (c_bias c) (Some (c_threshold c)) (c_iter c))
                        (mkTabu (t_edges (c_tabu c)) parents (t_children (c_tabu c)));
              do g <- if c_enforce c then (let (g, r) := threshold_till_dag (l_graph l) in do _ <- r; Ok g) else Ok (l_graph l);
              Ok (mkGr l g (fun i => fl_column i rows)) in
          match outcome with
          | Err x => (e2, Err x)
          | Ok gr => (mkEst c (e_type e2) (e_classes e2) (e_scale_X e2) (e_scale_y e2) (e_names e2) (Some gr), Ok tt)
          end
      end.

  (** clf.py:112-113, reg.py:89-90 *)
  Definition with_type (e : est) (a : string) : est :=
    match e_type e with
    | Some _ => e
    | None => mkEst (e_cfg e) (Some a) (e_classes e) (e_scale_X e) (e_scale_y e) (e_names e) (e_graph e)
    end.

  (** reg.py:75-94 DAGRegressor.fit *)
  Definition reg_fit (e : est) (X : xdata) (y : ydata) : est * res unit := base_fit (with_type e "cont") X y.

  (** Class labels: a Series, or an array ([k_array]). (clf.py:92-98) *)
  Record kdata := mkK { k_name : option label; k_index : list label; k_labels : list label; k_array : bool }.

  (** The labels of LabelEncoder: sorted and distinct (clf.py:96-100) *)
  Definition classes_of (l : list label) : list label := isort label_leb (distinct l).

  (** clf.py:98: whether a label is a string *)
  Definition is_str (l : label) : bool := match l with LStr _ => true | LInt _ => false end.

  (** clf.py:79-117 DAGClassifier.fit.  Labels of different kinds cannot be sorted (TypeError).  [y[:] = ...]
      makes a Series numeric but leaves an array of strings an array of strings. *)
  Definition clf_fit (e : est) (X : xdata) (y : kdata) : est * res unit :=
    if existsb is_str (k_labels y) && existsb (fun l => negb (is_str l)) (k_labels y) then (e, Err TypeError)
    else
      let classes := classes_of (k_labels y) in
      let vals := map (fun l => match find_label classes l with Some k => Fin (Q2Qc (inject_Z (Z.of_nat k))) | None => NaN end) (k_labels y) in
      let e1 := mkEst (e_cfg e) (e_type e) (Some classes) (e_scale_X e) (e_scale_y e) (e_names e) (e_graph e) in
      if List.length classes <? 2 then (e1, Err ValueError)
      else base_fit (with_type e1 (if 2 <? List.length classes then "cat" else "bin")) X
             (mkY (k_name y) (k_index y) vals (negb (k_array y && existsb is_str (k_labels y)))).

  (** [np.trunc], which numpy applies to fractions that are assigned to an array of integers (sklearn/_base.py:265) *)
  Definition trunc (q : Qc) : Qc := Q2Qc (inject_Z (Z.quot (Qnum (this q)) (Zpos (Qden (this q))))).

  (** sklearn/_base.py:265 *)
  Definition scale_q (ints : bool) (ms : Qc * Qc) (q : Qc) : Qc := let z := ((q - fst ms) / snd ms)%Qc in if ints then trunc z else z.

  (** The array given to predict: its number of columns, its rows and whether numpy stores it as integers.
      (sklearn/_base.py:262) *)
  Record pdata := mkP { p_cols : nat; p_rows : list (list Qc); p_ints : bool }.

  (** sklearn/_base.py:254-290 DAGBase.predict: one row of columns of the target for each row.  With [standardize] the
      scaled columns are written back into (a copy of) the array. *)
  Definition base_predict (e : est) (X : pdata) : res (kind * list (list R)) :=
    let d := p_cols X in
    do X1 <- (if c_standardize (e_cfg e) then
                match e_scale_X e with
                | None => Err AttributeError
                | Some (is, mss) => if forallb (fun i => i <? d) is then Ok (map (scale_row (scale_q (p_ints X)) 0%Qc is mss) (p_rows X)) else Err IndexError
                end
              else Ok (p_rows X));
    let X2 := mkData (S d) (map (fun r => r ++ [0%Qc]) X1) in
    match e_graph e, e_classes e, e_names e with
    | None, None, _ => Err NotFittedError
    | None, Some _, _ => Err AttributeError
    | Some _, _, None => Err AttributeError
    | Some gr, _, Some (_, name) =>
        let l := g_learned gr in
        do M <- reconstruct_data act l (fun i => log_cum_odds (g_values gr i)) X2;
        match dget label_eqb (l_dist l) name with
        | None => Err KeyError
        | Some t =>
            do ys <- match dt_kind t with
                     | Ord => Ok (r_rows M)
                     | _ => if forallb (fun j => j <? r_width M) (dt_columns t) then Ok (map (fun r => map (fun j => nth j r 0%R) (dt_columns t)) (r_rows M)) else Err IndexError
                     end;
            match e_type e, c_standardize (e_cfg e) with
            | Some "cont", true =>
                match e_scale_y e with
                | None => Err AttributeError
                | Some ms => Ok (dt_kind t, map (map (fun v => (v * realq (snd ms) + realq (fst ms))%R)) ys)
                end
            | _, _ => Ok (dt_kind t, ys)
            end
        end
    end.

  (** clf.py:140-152 predict_proba *)
  Definition predict_proba (e : est) (X : pdata) : res (list (list R)) :=
    do r <- base_predict e X;
    match fst r with
    | Cat | Ord => Ok (snd r)
    | _ => Ok (map (fun v => let y := hd 0%R v in [(1 - y)%R; y]) (snd r))
    end.

  (** numpy argmax: the first largest (clf.py:136) *)
  Fixpoint argmax_from (best : nat) (bv : R) (i : nat) (l : list R) : nat :=
    match l with
    | [] => best
    | x :: r => if Rlt_dec bv x then argmax_from i x (S i) r else argmax_from best bv (S i) r
    end.
  (** clf.py:136 *)
  Definition argmax (l : list R) : nat := match l with [] => 0 | x :: r => argmax_from 0 x 1 r end.

  (** clf.py:119-138 predict; [round] of a number between 0 and 1 is 1 exactly above one half. *)
  Definition clf_predict (e : est) (X : pdata) : res (list label) :=
    do probs <- predict_proba e X;
    match e_classes e with
    | None => Err AttributeError
    | Some cs =>
        mapM (fun p => let k := if List.length cs =? 2 then (if Rlt_dec (/2)%R (nth 1 p 0%R) then 1 else 0) else argmax p in
                       match nth_error cs k with Some l => Ok l | None => Err IndexError end) probs
    end.
End Oracles.

(** ** Coefficients *)

(** pandas [Series.__setitem__]: an integer that is not a label is a position unless all labels are integers;
    otherwise the series grows. (sklearn/_base.py:308, 315) *)
Definition series_set (s : list (label * option Qc)) (k : label) (v : option Qc) : res (list (label * option Qc)) :=
  if lmem k (map fst s) then Ok (map (fun kv => if label_eqb (fst kv) k then (fst kv, v) else kv) s)
  else match k with
       | LInt z =>
           if negb (List.length s =? 0) && forallb (fun kv => negb (is_str (fst kv))) s then Ok (s ++ [(k, v)])
           else let n := Z.of_nat (List.length s) in
                let z' := if (z <? 0)%Z then (z + n)%Z else z in
                if ((0 <=? z') && (z' <? n))%Z then Ok (set_nth (Z.to_nat z') (fst (nth (Z.to_nat z') s (k, None)), v) s) else Err IndexError
       | LStr _ => Ok (s ++ [(k, v)])
       end.

(** sklearn/_base.py:292-320 get_edges_to_node; [data] is the name of the attribute.  The values of the series. *)
Definition get_edges_to_node (e : est) (name : label) (data : string) : res (list (label * Qc)) :=
  match e_graph e, e_classes e, e_names e with
  | None, None, _ => Err NotFittedError
  | None, Some _, None => Err AttributeError
  | None, Some _, Some _ => Err AttributeError
  | Some _, _, None => Err AttributeError
  | Some gr, _, Some (features, _) =>
      do s <- foldM (fun s uva => if label_eqb (snd (fst uva)) name
                                  then series_set s (fst (fst uva)) (match dget String.eqb (snd uva) data with Some (ANum q) => Some q | _ => None end)
                                  else Ok s) (edges_data (g_edges gr)) (map (fun f => (f, None)) features);
      Ok (map (fun kv => (fst kv, match snd kv with Some q => q | None => 0%Qc end)) s)
  end.

(** sklearn/_base.py:322-340 feature_importances_ and coef_ of a regressor (data is "weight" or "mean_effect") *)
Definition reg_coef (e : est) (data : string) : res (list Qc) :=
  match e_names e with
  | None => Err AttributeError
  | Some (_, target) => do s <- get_edges_to_node e target data; Ok (map snd s)
  end.

(** clf.py:154-212 feature_importances_ and coef_ of a classifier; rows of different lengths cannot be stacked. *)
Definition clf_coef (e : est) (data : string) : res (list (list Qc)) :=
  match e_classes e with
  | None => Err AttributeError
  | Some cs =>
      match e_names e with
      | None => Err AttributeError
      | Some (_, target) =>
          if List.length cs =? 2 then do s <- get_edges_to_node e target data; Ok [map snd s]
          else
            do m <- mapM (fun k => do s <- get_edges_to_node e (make_node_name target k) data; Ok (map snd s)) (seq 0 (List.length cs));
            if forallb (fun r => List.length r =? List.length (hd [] m)) m then Ok m else Err ValueError
      end
  end.

(** sklearn/_base.py:345-346, clf.py:224-225, 231-232 *)
Definition bias_of (e : est) (name : label) : res Qc :=
  match e_graph e with
  | None => Err AttributeError
  | Some gr => match dget label_eqb (l_bias (g_learned gr)) name with
               | None => Err KeyError
               | Some None => Ok 0%Qc
               | Some (Some b) => Ok b
               end
  end.

(** sklearn/_base.py:342-346 intercept_ *)
Definition reg_intercept (e : est) : res Qc :=
  match e_names e with None => Err AttributeError | Some (_, target) => bias_of e target end.

(** clf.py:214-234 intercept_ *)
Definition clf_intercept (e : est) : res (list Qc) :=
  match e_classes e, e_names e with
  | Some cs, Some (_, target) =>
      if List.length cs =? 2 then do b <- bias_of e target; Ok [b]
      else mapM (fun k => bias_of e (make_node_name target k)) (seq 0 (List.length cs))
  | _, _ => Err AttributeError
  end.

(** ** Copies *)

(** scikit-learn (0.20 to 0.22, requirements.txt:6) [clone]: the constructor is called with the attributes that are
    called like its named parameters, None where there is no such attribute.  _base.py:165 stores [target_dist_type]
    under another name and _base.py:166 the other keyword arguments, so both are left out; notears.py:237 then uses
    [max_iter=100]. *)
Definition clone (e : est) : res est :=
  let c := e_cfg e in
  dag_init (mkCfg (c_est c) (c_schema c) (c_bias c) (c_hidden c) (c_threshold c) (c_tabu c) (c_dependent c) (c_enforce c) (c_standardize c) 100) true true true true None.
