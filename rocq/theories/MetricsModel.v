(** * MetricsModel: evaluation.py including the metrics of scikit-learn that it calls.

    scikit-learn is not part of /repo: [roc_curve], [auc] and the report below follow version 0.22 (the
    newest that requirements.txt admits), with exact arithmetic in place of floats.  [None] stands for NaN. *)
From Coq Require Import List Bool Arith ZArith Lia String QArith Qcanon.
From Verif Require Import Base QcX NetModel DiscModel EvalModel.
Import ListNotations.
Local Open Scope string_scope.
Local Open Scope list_scope.

(** ** sklearn.metrics.roc_curve and auc *)

(** evaluation.py:106-108, one pair of arguments of roc_curve *)
Definition observation := (bool * Qc)%type.

(** sklearn _binary_clf_curve: observations by decreasing score. (evaluation.py:106, inside sklearn) *)
Definition by_score : list observation -> list observation := isort (fun a b => Qcleb (snd b) (snd a)).

(** sklearn _binary_clf_curve: the running counts of false and true positives at the last observation
    of each distinct score. (evaluation.py:106, inside sklearn) *)
Fixpoint block_ends (fp tp : nat) (l : list observation) : list (nat * nat) :=
  match l with
  | [] => []
  | (t, s) :: r =>
      let fp' := if t then fp else S fp in
      let tp' := if t then S tp else tp in
      match r with
      | [] => [(fp', tp')]
      | (_, s') :: _ => if Qc_eq_bool s s' then block_ends fp' tp' r else (fp', tp') :: block_ends fp' tp' r
      end
  end.

(** sklearn roc_curve with drop_intermediate=True: a point goes when its second differences are 0, i.e.
    when it is the midpoint of its two neighbours.  The first and the last point stay.
    (evaluation.py:106, inside sklearn) *)
Definition midpoint (p c n : nat * nat) : bool :=
  ((fst p + fst n =? fst c + fst c) && (snd p + snd n =? snd c + snd c))%nat.

(** evaluation.py:106, inside sklearn *)
Fixpoint thin (p : nat * nat) (l : list (nat * nat)) : list (nat * nat) :=
  match l with
  | c :: ((n :: _) as r) => if midpoint p c n then thin c r else c :: thin c r
  | _ => l
  end.

(** evaluation.py:106, inside sklearn *)
Definition drop_intermediate (l : list (nat * nat)) : list (nat * nat) :=
  match l with [] => [] | p :: r => p :: thin p r end.

(** sklearn roc_curve: divide by the last count, NaN when there is nothing to divide by.
    (evaluation.py:106, inside sklearn) *)
Definition rate (n total : nat) : option Qc := if (total =? 0)%nat then None else Some (Qc_of_nat n / Qc_of_nat total)%Qc.

(** ValueError when there are no observations. (evaluation.py:106-108) *)
Definition roc_curve (l : list observation) : res (list (option Qc * option Qc)) :=
  match l with
  | [] => Err ValueError
  | _ => let pts := (0, 0)%nat :: drop_intermediate (block_ends 0 0 (by_score l)) in
         let (F, T) := last pts (0, 0)%nat in
         Ok (map (fun p => (rate (fst p) F, rate (snd p) T)) pts)
  end.

(** numpy.trapz (evaluation.py:110, inside sklearn) *)
Fixpoint trapz (l : list (Qc * Qc)) : Qc :=
  match l with
  | (x, y) :: (((x', y') :: _) as r) => ((x' - x) * (y + y') / (1 + 1) + trapz r)%Qc
  | _ => 0%Qc
  end.

(** evaluation.py:110, inside sklearn *)
Definition numbers (p : option Qc * option Qc) : option (Qc * Qc) :=
  match p with (Some x, Some y) => Some (x, y) | _ => None end.

(** evaluation.py:110 and 198, inside sklearn *)
Fixpoint all_some {A} (l : list (option A)) : option (list A) :=
  match l with
  | [] => Some []
  | None :: _ => None
  | Some x :: r => match all_some r with Some m => Some (x :: m) | None => None end
  end.

(** sklearn.metrics.auc on points that do not go to the left: roc_curve gives no other ones. (evaluation.py:110) *)
Definition auc (l : list (option Qc * option Qc)) : option Qc :=
  match all_some (map numbers l) with Some m => Some (trapz m) | None => None end.

(** evaluation.py:53-112 roc_auc.  A score that is not a number (a value of the user's data under the
    name of a prediction) is a ValueError: simplified, sklearn accepts integers. *)
Definition scored (x : bool * cell) : res observation :=
  match snd x with CNum q => Ok (fst x, q) | CVal _ => Err ValueError end.

(** evaluation.py:53-112 *)
Definition roc_auc (order : list label) (pg : prob_predictor) (b : bn) (d : df) (v : string)
  : res (list (option Qc * option Qc) * option Qc) :=
  do pairs <- roc_pairs order pg b d v;
  do l <- mapM scored pairs;
  do roc <- roc_curve l;
  Ok (roc, auc roc).

(** ** sklearn.metrics.classification_report *)

(** evaluation.py:197-203, an entry of the report *)
Record metric := mkMetric { m_precision : Qc; m_recall : Qc; m_f1 : Qc; m_support : nat }.
(** evaluation.py:197-203, a value of the report *)
Inductive entry := EMetric (m : metric) | ENumber (q : Qc).

(** sklearn _prf_divide with zero_division="warn": 0 when there is nothing to divide by.
    (evaluation.py:197, inside sklearn) *)
Definition ratio (a b : Qc) : Qc := if Qc_eq_bool b 0 then 0%Qc else (a / b)%Qc.

(** evaluation.py:197, inside sklearn *)
Definition tally (f : label * label -> bool) (l : list (label * label)) : nat := List.length (filter f l).

(** sklearn precision_recall_fscore_support, from the counts of hits, predictions and occurrences.
    (evaluation.py:197, inside sklearn) *)
Definition metric_of (hit pred occ : nat) : metric :=
  let p := ratio (Qc_of_nat hit) (Qc_of_nat pred) in
  let r := ratio (Qc_of_nat hit) (Qc_of_nat occ) in
  mkMetric p r (ratio ((1 + 1) * p * r) (p + r))%Qc occ.

(** A pair is (true state, predicted state). (evaluation.py:197, inside sklearn) *)
Definition label_metric (l : list (label * label)) (s : label) : metric :=
  metric_of (tally (fun tp => label_eqb (fst tp) s && label_eqb (snd tp) s) l)
            (tally (fun tp => label_eqb (snd tp) s) l) (tally (fun tp => label_eqb (fst tp) s) l).

(** evaluation.py:197, inside sklearn *)
Definition nsum (l : list nat) : nat := fold_right Nat.add 0%nat l.

(** average="micro": the counts of all labels together. (evaluation.py:197, inside sklearn) *)
Definition micro (l : list (label * label)) (labels : list label) : metric :=
  metric_of (nsum (map (fun s => tally (fun tp => label_eqb (fst tp) s && label_eqb (snd tp) s) l) labels))
            (nsum (map (fun s => tally (fun tp => label_eqb (snd tp) s) l) labels))
            (nsum (map (fun s => tally (fun tp => label_eqb (fst tp) s) l) labels)).

(** average="macro": the plain mean over the labels; average="weighted": weighted by the support.
    (evaluation.py:197, inside sklearn) *)
Definition mean (w : metric -> Qc) (f : metric -> Qc) (ms : list metric) : Qc :=
  ratio (Qsum (fun m => w m * f m)%Qc ms) (Qsum w ms).

(** evaluation.py:197, inside sklearn *)
Definition average (w : metric -> Qc) (ms : list metric) : metric :=
  mkMetric (mean w m_precision ms) (mean w m_recall ms) (mean w m_f1 ms) (nsum (map m_support ms)).

(** sklearn classification_report: the overall row is called accuracy when the labels are those that
    occur, and then it is a single number. (evaluation.py:197-203) *)
Definition sk_report (pairs : list (label * label)) (labels : list label) (names : list string) : list (string * entry) :=
  let ms := map (label_metric pairs) labels in
  let seen := map fst pairs ++ map snd pairs in
  let same := (forallb (fun s => memb label_eqb s seen) labels && forallb (fun s => memb label_eqb s labels) seen)%bool in
  let overall := micro pairs labels in
  combine names (map EMetric ms) ++
  [ if same then ("accuracy", ENumber (m_precision overall)) else ("micro avg", EMetric overall);
    ("macro avg", EMetric (average (fun _ => 1%Qc) ms));
    ("weighted avg", EMetric (average (fun m => Qc_of_nat (m_support m)) ms)) ].

(** evaluation.py:198-199, inside sklearn *)
Definition kind (l : label) : bool := match l with LInt _ => true | LStr _ => false end.

(** evaluation.py:115-205 classification_report.  sklearn raises ValueError for missing values, for a mix
    of integers and strings and for no rows at all.  A dict is a list of pairs: the names are distinct. *)
Definition classification_report (pg : predictor) (b : bn) (d : df) (v : string) : res (list (string * entry)) :=
  do args <- report_args pg b d v;
  match args with
  | (truth, preds, labels, names) =>
      match all_some truth with
      | None => Err ValueError
      | Some [] => Err ValueError
      | Some ((t :: _) as ts) =>
          if forallb (fun s => Bool.eqb (kind s) (kind t)) (ts ++ preds)
          then Ok (sk_report (combine ts preds) labels names) else Err ValueError
      end
  end.
