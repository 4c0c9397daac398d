(** * PgModel: what pgmpy answers for rows with missing parents.

    network.py:460-488 and 545-582 hand rows to pgmpy's BayesianModel.predict and predict_probability
    (pgmpy 0.1.12).  pgmpy is an external library: its answers are modelled by what its variable
    elimination computes, the product of all tables with the evidence plugged in, over the variables
    that are missing.  In these two calls no variable is left to eliminate, since every variable is
    either in the evidence or asked for.  Simplified: exact arithmetic instead of floating point, and
    0 instead of NaN when the product is zero everywhere. *)
From Coq Require Import List Bool Arith String QArith Qcanon.
From Verif Require Import Base QcX NetModel.
Import ListNotations.
Local Open Scope list_scope.

(** The code of a variable in an assignment. (network.py:484-486, 566-570: the codes handed to pgmpy) *)
Definition code_in (w : list (string * nat)) (v : string) : nat :=
  match dget String.eqb w v with Some i => i | None => 0%nat end.

(** network.py:486, 568-570: comparison of lists of codes, inside pgmpy *)
Fixpoint codes_eqb (u v : list nat) : bool :=
  match u, v with
  | [], [] => true
  | i :: u', j :: v' => Nat.eqb i j && codes_eqb u' v'
  | _, _ => false
  end.

(** The place of a list of codes in the columns of a table. (network.py:486, 568-570, inside pgmpy) *)
Fixpoint place (u : list nat) (l : list (list nat)) : nat :=
  match l with
  | [] => 0%nat
  | x :: l' => if codes_eqb x u then 0%nat else S (place u l')
  end.

(** All combinations of codes of some variables, the last one varies fastest: the C order of an array.
    (network.py:486, 568-570, inside pgmpy) *)
Definition combinations (st : list (string * list (label * nat))) (vs : list string) : list (list nat) :=
  product (map (fun v => seq 0 (card st v)) vs).

(** The entry of a table (network.py:314-379 stores them) at an assignment: DiscreteFactor.reduce. *)
Definition table_at (st : list (string * list (label * nat))) (w : list (string * nat)) (vt : string * table) : Qc :=
  nth (place (map (code_in w) (t_parents (snd vt))) (combinations st (t_parents (snd vt))))
      (nth (code_in w (fst vt)) (t_values (snd vt)) []) 0%Qc.

(** factor_product over all tables. (network.py:486, 568-570, inside pgmpy) *)
Definition weight (st : list (string * list (label * nat))) (ts : list (string * table)) (w : list (string * nat)) : Qc :=
  Qprod (table_at st w) ts.

(** [missing_variables = set(self.nodes()) - set(data.columns)] (network.py:486, 568-570, inside pgmpy) *)
Definition missing (b : bn) (e : list (string * nat)) : list string :=
  filter (fun v => negb (smem v (dkeys e))) (b_nodes b).

(** The cells of the array of the query: the evidence with codes for the missing variables, whose
    axes are in the order [ms]. (network.py:486, 568-570, inside pgmpy) *)
Definition cells (st : list (string * list (label * nat))) (ms : list string) (e : list (string * nat)) : list (list (string * nat)) :=
  map (fun u => e ++ combine ms u) (combinations st ms).

(** network.py:568-570, BayesianModel.predict_probability: query all missing variables, normalise,
    marginalise to the node. *)
Definition pg_probability (axes : list (string * nat) -> list string) (b : bn) : prob_predictor := fun e v =>
  match b_states b with
  | None => []
  | Some st =>
      let ws := cells st (axes e) e in
      let total := Qsum (weight st (b_cpds b)) ws in
      map (fun i => (Qsum (fun w => weight st (b_cpds b) w / total) (filter (fun w => Nat.eqb (code_in w v) i) ws))%Qc)
          (seq 0 (card st v))
  end.

(** np.argmax: the first cell with the largest value. (network.py:486, inside pgmpy) *)
Fixpoint first_best {A} (f : A -> Qc) (x : A) (l : list A) : A :=
  match l with
  | [] => x
  | y :: l' => if Qclt_le_dec (f x) (f y) then first_best f y l' else first_best f x l'
  end.

(** network.py:486, BayesianModel.predict: map_query of all missing variables together, then the
    column of the node. *)
Definition pg_state (axes : list (string * nat) -> list string) (b : bn) : predictor := fun e v =>
  match b_states b with
  | None => 0%nat
  | Some st =>
      match cells st (axes e) e with
      | [] => 0%nat
      | w :: ws => code_in (first_best (weight st (b_cpds b)) w ws) v
      end
  end.
