(** * DiscModel: model of causalnex/discretiser/discretiser.py.

    Values are exact rationals (numpy floats are not modelled; no NaN or infinity), arrays are given
    flattened.  Of numpy the documented behaviour of sort, min, max, quantile (linear interpolation),
    percentile and digitize is modelled. *)
From Coq Require Import List Bool Arith ZArith Lia String QArith Qround Qcanon.
From Verif Require Import Base QcX.
Import ListNotations.
Local Open Scope string_scope.
Local Open Scope list_scope.
Local Open Scope Qc_scope.

(** discretiser.py:118, 142, the comparison of numbers *)
Definition Qcleb (a b : Qc) : bool := Qle_bool (this a) (this b).
(** discretiser.py:118, the comparison of numbers *)
Definition Qcltb (a b : Qc) : bool := negb (Qcleb b a).
(** discretiser.py:177, 179, 183, 184, an int as a float *)
Definition Qc_of_Z (z : Z) : Qc := Q2Qc (inject_Z z).

(** [sorted] and [ndarray.sort]. (discretiser.py:130, 150, 174) *)
Definition qsort : list Qc -> list Qc := isort Qcleb.
(** discretiser.py:130, 150 *)
Fixpoint qlist_eqb (a b : list Qc) : bool :=
  match a, b with
  | [], [] => true
  | x :: a', y :: b' => Qc_eq_bool x y && qlist_eqb a' b'
  | _, _ => false
  end.
(** [sorted(l) != l] (discretiser.py:130, 150) *)
Definition unsorted (l : list Qc) : bool := negb (qlist_eqb (qsort l) l).

(** discretiser.py:54-61 the constructor's arguments. *)
Record disc_args := mkArgs {
  a_method : string;
  a_num_buckets : option Z;
  a_outlier : option Qc;
  a_numeric : option (list Qc);
  a_percentiles : option (list Qc) }.

(** The attributes of a Discretiser (same names). (discretiser.py:94-98) *)
Record disc := mkDisc {
  method : string;
  num_buckets : option Z;
  outlier_percentile : option Qc;
  numeric_split_points : option (list Qc);
  percentile_split_points : option (list Qc) }.

(** discretiser.py:100 *)
Definition allowed_methods := ["uniform"; "quantile"; "outlier"; "fixed"; "percentiles"].
(** discretiser.py:108, 113, 123, 136 *)
Definition is_none {A} (o : option A) : bool := match o with None => true | _ => false end.
(** discretiser.py:118, 129, 141, 149 *)
Definition on_some {A} (o : option A) (f : A -> bool) : bool := match o with None => false | Some x => f x end.

(** discretiser.py:118 *)
Definition half : Qc := Q2Qc (1 # 2).

(** discretiser.py:54-157 __init__ *)
Definition disc_init (a : disc_args) : res disc :=
  let m := a_method a in
  if negb (smem m allowed_methods) then Err ValueError
  else if smem m ["uniform"; "quantile"] && is_none (a_num_buckets a) then Err ValueError
  else if String.eqb m "outlier" && is_none (a_outlier a) then Err ValueError
  else if on_some (a_outlier a) (fun p => negb (Qcleb 0 p && Qcltb p half)) then Err ValueError
  else if String.eqb m "fixed" && is_none (a_numeric a) then Err ValueError
  else if on_some (a_numeric a) unsorted then Err ValueError
  else if String.eqb m "percentiles" && is_none (a_percentiles a) then Err ValueError
  else if on_some (a_percentiles a) (fun l => negb (forallb (fun p => Qcleb 0 p && Qcleb p 1) l)) then Err ValueError
  else if on_some (a_percentiles a) unsorted then Err ValueError
  else Ok (mkDisc m (a_num_buckets a) (a_outlier a) (a_numeric a) (a_percentiles a)).

(** numpy.min and numpy.max of a sorted array (ValueError when empty). (discretiser.py:177, 179) *)
Definition np_min (x : list Qc) : res Qc := match x with [] => Err ValueError | a :: _ => Ok a end.
(** discretiser.py:177 *)
Definition np_max (x : list Qc) : res Qc := match x with [] => Err ValueError | _ => Ok (last x 0) end.

(** numpy.quantile(x, q), linear interpolation, on a sorted array: position q * (n - 1).
    (discretiser.py:185, 188, inside numpy) *)
Definition quantile1 (x : list Qc) (q : Qc) : Qc :=
  let n := List.length x in
  let h := q * Qc_of_Z (Z.of_nat n - 1) in
  let lo := Z.to_nat (Qfloor (this h)) in
  let hi := Nat.min (lo + 1) (n - 1) in
  let w := h - Qc_of_Z (Z.of_nat lo) in
  nth lo x 0 * (1 - w) + nth hi x 0 * w.

(** discretiser.py:185, 188 *)
Definition np_quantile (x : list Qc) (qs : list Qc) : res (list Qc) :=
  match x with
  | [] => Err IndexError
  | _ => if negb (forallb (fun q => Qcleb 0 q && Qcleb q 1) qs) then Err ValueError
         else Ok (map (quantile1 x) qs)
  end.

(** numpy.percentile(x, p) = quantile(x, p / 100) (discretiser.py:194) *)
Definition np_percentile (x : list Qc) (ps : list Qc) : res (list Qc) :=
  np_quantile x (map (fun p => p / Qc_of_Z 100) ps).

(** Python's [range(k)] for an integer that may be negative. (discretiser.py:179, 184) *)
Definition range (k : Z) : list nat := seq 0 (Z.to_nat k).

(** discretiser.py:178, 185, 188, 194 *)
Definition set_splits (d : disc) (l : list Qc) : disc :=
  mkDisc (method d) (num_buckets d) (outlier_percentile d) (Some l) (percentile_split_points d).

(** discretiser.py:177, 183, 189, 193, arithmetic with None *)
Definition attr {A} (o : option A) : res A := match o with Some x => Ok x | None => Err TypeError end.

(** discretiser.py:159-199 fit; the state is unchanged when it raises. *)
Definition disc_fit (d : disc) (data : list Qc) : res disc :=
  let x := qsort data in
  if String.eqb (method d) "uniform" then
    do k <- attr (num_buckets d);
    do mx <- np_max x; do mn <- np_min x;
    let w := (mx - mn) / Qc_of_Z k in
    Ok (set_splits d (map (fun n => mn + w * Qc_of_Z (Z.of_nat n + 1)) (range (k - 1))))
  else if String.eqb (method d) "quantile" then
    do k <- attr (num_buckets d);
    if Z.eqb k 0 then Err ZeroDivisionError
    else
      let w := 1 / Qc_of_Z k in
      do l <- np_quantile x (map (fun n => w * Qc_of_Z (Z.of_nat n + 1)) (range (k - 1)));
      Ok (set_splits d l)
  else if String.eqb (method d) "outlier" then
    do p <- attr (outlier_percentile d);
    do l <- np_quantile x [p; 1 - p];
    Ok (set_splits d l)
  else if String.eqb (method d) "percentiles" then
    do ps <- attr (percentile_split_points d);
    do l <- np_percentile x (map (fun p => p * Qc_of_Z 100) ps);
    Ok (set_splits d l)
  else Err RuntimeError.

(** numpy.searchsorted(a, v, side="right") on a non-decreasing array. (discretiser.py:213, inside numpy) *)
Fixpoint searchsorted_right (bins : list Qc) (v : Qc) : nat :=
  match bins with
  | [] => 0%nat
  | b :: r => if Qcleb b v then Datatypes.S (searchsorted_right r v) else 0%nat
  end.

(** discretiser.py:213, inside numpy *)
Fixpoint monotone (le : Qc -> Qc -> bool) (l : list Qc) : bool :=
  match l with
  | a :: (b :: _) as r => le a b && monotone le r
  | _ => true
  end.

(** numpy.digitize(data, bins, right=False), including its treatment of decreasing bins. (discretiser.py:213) *)
Definition digitize (data bins : list Qc) : res (list nat) :=
  if monotone Qcleb bins then Ok (map (searchsorted_right bins) data)
  else if monotone (fun a b => Qcleb b a) bins
  then Ok (map (fun v => (List.length bins - searchsorted_right (rev bins) v)%nat) data)
  else Err ValueError.

(** discretiser.py:201-213 transform; without split points (None) numpy raises ValueError. *)
Definition disc_transform (d : disc) (data : list Qc) : res (list nat) :=
  match numeric_split_points d with
  | None => Err ValueError
  | Some l => digitize data l
  end.

(** sklearn's TransformerMixin.fit_transform (discretiser.py:37, the base class) *)
Definition disc_fit_transform (d : disc) (data : list Qc) : res (list nat) :=
  do d' <- disc_fit d data; disc_transform d' data.
