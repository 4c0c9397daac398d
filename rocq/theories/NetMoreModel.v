(** * NetMoreModel: the rest of causalnex/network/network.py (BayesianNetwork). *)
From Coq Require Import List Bool String QArith Qcanon.
From Verif Require Import Base SmModel NetModel.
Import ListNotations.

(** network.py:165-172 nodes *)
Definition bn_nodes (b : bn) : list string := b_nodes b.

(** network.py:214-221 edges *)
Definition bn_edges (b : bn) : list (string * string) := b_edges b.

(** network.py:381-410 fit_node_states_and_cpds: an exception of the first call is passed on. *)
Definition fit_node_states_and_cpds (b : bn) (d : df) (method : string) (prior : option string) (ess : option Qc) : bn * res unit :=
  match fit_node_states b d with
  | (b1, Ok tt) => fit_cpds b1 d method prior ess
  | (b1, Err x) => (b1, Err x)
  end.
