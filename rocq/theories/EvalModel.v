(** * EvalModel: model of causalnex/evaluation/evaluation.py.

    sklearn's metrics are not modelled: the model computes what is handed to them. *)
From Coq Require Import List Bool Arith ZArith Lia String Ascii QArith Qcanon.
From Verif Require Import Base NetModel.
Import ListNotations.
Local Open Scope string_scope.
Local Open Scope list_scope.

(** [s.lstrip(chars)]: drop leading characters that occur in [chars]. (evaluation.py:103, inside str.lstrip) *)
Fixpoint in_chars (c : ascii) (s : string) : bool :=
  match s with EmptyString => false | String d r => Ascii.eqb c d || in_chars c r end.

(** evaluation.py:103 *)
Fixpoint lstrip (chars s : string) : string :=
  match s with
  | EmptyString => EmptyString
  | String c r => if in_chars c chars then lstrip chars r else s
  end.

(** evaluation.py:38-50 _build_ground_truth: the columns and, per row, whether the row has that value.
    [order] is the iteration order of the set of states. *)
Definition is_value (r : list (string * option label)) (v : string) (s : label) : bool :=
  match at_col r v with Some x => label_eqb x s | None => false end.

(** evaluation.py:38-50 *)
Definition ground_truth (order : list label) (b : bn) (d : df) (v : string) : res (list label * list (list bool)) :=
  if negb (smem v (d_cols d)) then Err KeyError
  else
    do present <- sorted_labels (drop_none (unique olabel_eqb (map (fun r => at_col r v) (d_rows d))));
    do sts <- node_states b;
    match dget String.eqb sts v with
    | None => Err KeyError
    | Some _ =>
        do cols <- sorted_labels (present ++ filter (fun s => negb (memb label_eqb s present)) order);
        Ok (cols, map (fun r => map (fun s => memb label_eqb s present && is_value r v s) cols) (d_rows d))
    end.

(** [df[names]] when column names may repeat. (evaluation.py:104) *)
Definition select {A} (names : list string) (row : list A) (wanted : list string) : list A :=
  flat_map (fun n => map snd (filter (fun nx => String.eqb n (fst nx)) (combine names row))) wanted.

(** evaluation.py:53-112 roc_auc up to the call of metrics.roc_curve: the pairs (truth, score) it gets.
    roc_curve raises ValueError when the lengths differ. *)
Definition roc_pairs (order : list label) (pg : prob_predictor) (b : bn) (d : df) (v : string) : res (list (bool * cell)) :=
  do gt <- ground_truth order b d v;
  do pr <- predict_probability order pg b d v;
  let names := map (lstrip (v ++ "_")) (fst pr) in
  let scores := List.concat (map (fun r => select names r (ssort names)) (snd pr)) in
  let truth := List.concat (snd gt) in
  if (List.length truth =? List.length scores)%nat then Ok (combine truth scores) else Err ValueError.

(** evaluation.py:115-205 classification_report: y_true, y_pred, labels and target_names. *)
Definition report_args (pg : predictor) (b : bn) (d : df) (v : string)
  : res (list (option label) * list label * list label * list string) :=
  do pr <- predict pg b d v;
  do sts <- node_states b;
  match dget String.eqb sts v with
  | None => Err KeyError
  | Some l =>
      do labels <- sorted_labels l;
      if negb (smem v (d_cols d)) then Err KeyError
      else Ok (map (fun r => at_col r v) (d_rows d), pr, labels, map (col_name v) labels)
  end.
