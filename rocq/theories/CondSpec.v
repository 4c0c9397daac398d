(** * CondSpec: the network that conditional tables describe - independent of the code. *)
From Coq Require Import List Bool String QArith Qcanon Permutation.
From Verif Require Import Base QcX InferSpec.
Import ListNotations.
Local Open Scope list_scope.

(** One row of a table: values of the parents, and the probability of each state under them. *)
Definition row := (list (string * label) * list (label * Qc))%type.

(** The parents and the states of a variable, as its first row writes them. *)
Definition named (rows : list row) : list string := match rows with [] => [] | r :: _ => map fst (fst r) end.
Definition listed (rows : list row) : list label := match rows with [] => [] | r :: _ => map fst (snd r) end.

(** The row gives the parents these values. *)
Definition is_for (rows : list row) (xs : list label) (r : row) : bool := observed (combine (named rows) xs) (fst r).

(** The probability of a state under given values of the parents: looked up in the row for them. *)
Definition stated (rows : list row) (s : label) (xs : list label) : Qc :=
  match find (is_for rows xs) rows with
  | Some r => weight_in (snd r) s
  | None => 0%Qc
  end.

Definition described (conds : list (string * list row)) : net :=
  map (fun vr => (fst vr, mkCpd (listed (snd vr)) (named (snd vr)) (stated (snd vr)))) conds.

(** Every row speaks of the same parents and states, in any order. *)
Definition alike (conds : list (string * list row)) : Prop :=
  forall v rows, In (v, rows) conds ->
    rows <> [] /\
    forall r, In r rows -> Permutation (map fst (fst r)) (named rows) /\ Permutation (map fst (snd r)) (listed rows).

(** There is one row for every combination of states of the parents. *)
Definition covering (conds : list (string * list row)) : Prop :=
  forall v rows xs, In (v, rows) conds ->
    Forall2 (fun p x => In x (states_of (described conds) p)) (named rows) xs ->
    exists r, filter (is_for rows xs) rows = [r].
