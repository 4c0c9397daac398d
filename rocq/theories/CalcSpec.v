(** * CalcSpec: graphs with arrows taken out, for the rules of the do-calculus (Pearl, Causality, 3.4.2). *)
From Coq Require Import List Bool String QArith Qcanon.
From Verif Require Import Base BbnModel InferModel InferSpec InferEngine.
Import ListNotations.
Local Open Scope list_scope.

(** The graph with the arrows that [keep] accepts.  The tables play no part in d-separation; they are left empty. *)
Definition only (keep : string -> string -> bool) (N : net) : net :=
  map (fun vc => (fst vc, mkCpd (states (snd vc)) (filter (fun p => keep p (fst vc)) (parents (snd vc))) (fun _ _ => 0%Qc))) N.

(** Without the arrows that point to a variable of [X]. *)
Definition without_into (X : list string) : net -> net := only (fun _ y => negb (smem y X)).
(** Without the arrows that leave a variable of [Z]. *)
Definition without_from (Z : list string) : net -> net := only (fun x _ => negb (smem x Z)).

(** The evidence of an answered query can occur: some state of some variable has a probability other than zero. *)
Definition possible (r : qresult) : Prop := exists v s p, answer r v s = Some p /\ p <> 0%Qc.
