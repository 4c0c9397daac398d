(** * InferSpec: what the user means - independent of the engine's code.

    A network is a list of variables with their conditional distribution; probabilities are sums
    over all worlds of the product of the conditional probabilities. *)
From Coq Require Import List Bool Arith ZArith Lia String QArith Qcanon Relations.
From Verif Require Import Base QcX Digraph.
Import ListNotations.
Local Open Scope Qc_scope.
Local Open Scope list_scope.

Record cpd := mkCpd {
  states : list label;
  parents : list string;
  prob : label -> list label -> Qc   (* P(state | parent states, in the order of [parents]) *)
}.

Definition net := list (string * cpd).

Definition vars (N : net) : list string := map fst N.

(** A world gives each variable one of its states. *)
Fixpoint all_worlds (N : net) : list (list (string * label)) :=
  match N with
  | [] => [[]]
  | (v, c) :: rest => flat_map (fun s => map (cons (v, s)) (all_worlds rest)) (states c)
  end.

Definition at_ (w : list (string * label)) (v : string) : label :=
  match find (fun e => String.eqb (fst e) v) w with Some e => snd e | None => LInt 0 end.

(** The joint probability of a world: the product of all CPDs. *)
Definition joint (N : net) (w : list (string * label)) : Qc :=
  Qprod (fun vc => prob (snd vc) (at_ w (fst vc)) (map (at_ w) (parents (snd vc)))) N.

(** P(event) as a sum over worlds. *)
Definition Pr (N : net) (event : list (string * label) -> bool) : Qc :=
  Qsum (joint N) (filter event (all_worlds N)).

Definition observed (obs : list (string * label)) (w : list (string * label)) : bool :=
  forallb (fun e => label_eqb (at_ w (fst e)) (snd e)) obs.

Definition is_ (v : string) (s : label) (w : list (string * label)) : bool := label_eqb (at_ w v) s.

(** P(v = s, obs) *)
Definition Pr_and (N : net) (obs : list (string * label)) (v : string) (s : label) : Qc :=
  Pr N (fun w => observed obs w && is_ v s w)%bool.

(** ** Well-formed networks *)

(** The arrows parent -> child. *)
Definition parent_arrows (N : net) : list (string * string) :=
  flat_map (fun vc => map (fun p => (p, fst vc)) (parents (snd vc))) N.

Definition states_of (N : net) (v : string) : list label :=
  match find (fun vc => String.eqb (fst vc) v) N with Some vc => states (snd vc) | None => [] end.

(** Any two variables are joined by a chain of arrows, whatever their directions. *)
Definition joined (N : net) : Prop :=
  forall x y, In x (vars N) -> In y (vars N) ->
    clos_refl_trans string (fun u v => In (u, v) (parent_arrows N) \/ In (v, u) (parent_arrows N)) x y.

Record shape_ok (N : net) : Prop := {
  ok_vars : NoDup (vars N);
  ok_ne : N <> [];
  ok_states : forall v c, In (v, c) N -> states c <> [] /\ NoDup (states c);
  ok_parents : forall v c, In (v, c) N -> NoDup (parents c) /\ incl (parents c) (vars N);
  ok_dag : acyclic (parent_arrows N);
  ok_nonneg : forall v c s ps, In (v, c) N -> In s (states c) ->
    Forall2 (fun p x => In x (states_of N p)) (parents c) ps -> 0 <= prob c s ps
}.

(** Every column of every CPD sums to one. *)
Definition columns_sum_1 (N : net) : Prop :=
  forall v c ps, In (v, c) N -> Forall2 (fun p x => In x (states_of N p)) (parents c) ps ->
    Qsum (fun s => prob c s ps) (states c) = 1.

(** ** Intervention: replace the CPD of one variable by a distribution without parents. *)
Definition weight_in (d : list (label * Qc)) (s : label) : Qc :=
  match find (fun e => label_eqb (fst e) s) d with Some e => snd e | None => 0 end.

Definition fixed (c : cpd) (d : list (label * Qc)) : cpd :=
  mkCpd (states c) [] (fun s _ => weight_in d s).

Definition truncated (N : net) (v : string) (d : list (label * Qc)) : net :=
  map (fun vc => if String.eqb (fst vc) v then (fst vc, fixed (snd vc) d) else vc) N.
