(** * TransModel: model of causalnex/structure/transformers.py.

    A time series is its column names with their types, whether its index is of an integer type, and its
    rows (time index, values).  Values are exact rationals; column names are strings. *)
From Coq Require Import List Bool Arith ZArith Lia String QArith Qcanon.
From Verif Require Import Base Names.
Import ListNotations.
Local Open Scope string_scope.
Local Open Scope list_scope.
Local Open Scope nat_scope.

(** transformers.py:184, 195 *)
Inductive dtype := DInt | DFloat | DObject.
(** transformers.py:195 *)
Definition dtype_eqb (a b : dtype) : bool :=
  match a, b with DInt, DInt | DFloat, DFloat | DObject, DObject => true | _, _ => false end.

(** transformers.py:67 *)
Record series := mkSeries {
  ts_cols : list (string * dtype);
  ts_int_index : bool;
  ts_rows : list (Z * list Qc) }.

(** transformers.py:91 *)
Definition col_names (t : series) : list string := map fst (ts_cols t).

(** The state of a DynamicDataTransformer; [p] is a natural number. (transformers.py:61-63) *)
Record ddt := mkDdt { d_p : nat; d_columns : option (list string); d_return_df : bool }.

(** transformers.py:54-63 __init__ *)
Definition ddt_init (p : nat) : ddt := mkDdt p None false.

(** transformers.py:194-196 *)
Fixpoint col_list_eqb (a b : list (string * dtype)) : bool :=
  match a, b with
  | [], [] => true
  | x :: a', y :: b' => String.eqb (fst x) (fst y) && dtype_eqb (snd x) (snd y) && col_list_eqb a' b'
  | _, _ => false
  end.

(** transformers.py:199 *)
Fixpoint increasing (l : list Z) : bool :=
  match l with
  | a :: (b :: _) as r => (a <=? b)%Z && increasing r
  | _ => true
  end.

(** transformers.py:156-213 _check_input_from_pandas, for one series; [first] is the first series given.
    Comparing columns of different lengths raises ValueError as well. *)
Definition check_one (columns : option (list string)) (first t : series) : res unit :=
  if existsb (fun c => dtype_eqb (snd c) DObject) (ts_cols t) then Err ValueError
  else if negb (col_list_eqb (ts_cols first) (ts_cols t)) then Err ValueError
  else if negb (increasing (map fst (ts_rows t))) then Err ValueError
  else if negb (ts_int_index t) then Err TypeError
  else match columns with
       | Some cs => if forallb (fun c => smem c (col_names t)) cs then Ok tt else Err ValueError
       | None => Ok tt
       end.

(** transformers.py:156-213 *)
Definition check_input (columns : option (list string)) (l : list series) : res unit :=
  match l with
  | [] => Err ValueError
  | first :: _ => do _ <- mapM (check_one columns first) l; Ok tt
  end.

(** transformers.py:65-93 fit *)
Definition ddt_fit (d : ddt) (l : list series) (return_df : bool) : res ddt :=
  do _ <- check_input (d_columns d) l;
  match l with
  | first :: _ => Ok (mkDdt (d_p d) (Some (col_names first)) return_df)
  | [] => Err ValueError
  end.

(** [t[columns]] on the values of one row; repeated column names are repeated. (transformers.py:131) *)
Definition pick (names : list string) (row : list Qc) (wanted : list string) : list Qc :=
  flat_map (fun n => map snd (filter (fun nx => String.eqb n (fst nx)) (combine names row))) wanted.

(** transformers.py:131 *)
Definition pick_series (columns : list string) (t : series) : list (Z * list Qc) :=
  map (fun r => (fst r, pick (col_names t) (snd r) columns)) (ts_rows t).

(** Python's slice [l[start:stop]]. (transformers.py:262, 283, 285) *)
Definition norm_index (i : Z) (n : nat) : nat :=
  if (i <? 0)%Z then Z.to_nat (Z.max (i + Z.of_nat n) 0) else Nat.min (Z.to_nat i) n.
(** transformers.py:262, 283, 285 *)
Definition slice {A} (start stop : Z) (l : list A) : list A :=
  let a := norm_index start (List.length l) in
  let b := norm_index stop (List.length l) in
  firstn (b - a) (skipn a l).

(** [np.where(np.diff(index) > 1)[0] + 1] (transformers.py:259-260) *)
Fixpoint jumps (i : nat) (index : list Z) : list nat :=
  match index with
  | a :: (b :: _) as r => if (b - a >? 1)%Z then S i :: jumps (S i) r else jumps (S i) r
  | _ => []
  end.

(** transformers.py:215-263 _cut_dataframes_on_discontinuity_points, for one series *)
Definition cut_one (rows : list (Z * list Qc)) : list (list (list Qc)) :=
  let n := List.length rows in
  let cutting_points := 0 :: jumps 0 (map fst rows) ++ [n] in
  map (fun se => map snd (slice (Z.of_nat (fst se)) (Z.of_nat (snd se)) rows))
      (combine (removelast cutting_points) (tl cutting_points)).

(** transformers.py:257-263 *)
Definition cut (l : list (list (Z * list Qc))) : list (list (list Qc)) := flat_map cut_one l.

(** [np.concatenate(blocks, axis=1)]: ValueError without blocks or when the numbers of rows differ.
    (transformers.py:154, 285) *)
Fixpoint zip_rows {A} (a b : list (list A)) : list (list A) :=
  match a, b with
  | x :: a', y :: b' => (x ++ y) :: zip_rows a' b'
  | _, _ => []
  end.
(** transformers.py:285 *)
Definition hcat {A} (blocks : list (list (list A))) : res (list (list A)) :=
  match blocks with
  | [] => Err ValueError
  | b :: bs =>
      if forallb (fun c => List.length c =? List.length b) bs
      then Ok (fold_left zip_rows bs b) else Err ValueError
  end.

(** transformers.py:265-290 _convert_realisations_into_dynotears_format *)
Definition convert (p : nat) (realisations : list (list (list Qc))) : res (list (list Qc) * list (list Qc)) :=
  match realisations with
  | [] => Err ValueError
  | _ =>
      let X := flat_map (fun r => slice (Z.of_nat p) (Z.of_nat (List.length r)) r) realisations in
      do y <- mapM (fun r => hcat (map (fun i => slice (Z.of_nat p - Z.of_nat i - 1) (- Z.of_nat i - 1) r) (seq 0 p))) realisations;
      Ok (X, List.concat y)
  end.

(** transformers.py:142-154 _concat_lags: the column names; the rows of both arrays side by side
    (the arrays always have the same number of rows). *)
Definition lag_columns (p : nat) (columns : list string) : list string :=
  map (fun c => lag_name c 0) columns ++
  flat_map (fun l => map (fun c => lag_name c l) columns) (seq 1 p).

(** transformers.py:137-140 *)
Inductive output := Frame (cols : list string) (rows : list (list Qc)) | Arrays (X Xlags : list (list Qc)).

(** transformers.py:95-140 transform *)
Definition ddt_transform (d : ddt) (l : list series) : res output :=
  match d_columns d with
  | None => Err NotFittedError
  | Some columns =>
      do _ <- check_input (Some columns) l;
      do XY <- convert (d_p d) (cut (map (pick_series columns) l));
      if d_return_df d
      then Ok (Frame (lag_columns (d_p d) columns) (zip_rows (fst XY) (snd XY)))
      else Ok (Arrays (fst XY) (snd XY))
  end.
