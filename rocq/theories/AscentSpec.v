(** * AscentSpec: the augmented Lagrangian method, written down on its own.
    A subproblem is solved for a penalty weight and a multiplier.  If the penalty of the answer is more than a quarter of that of
    the last accepted answer, the weight is multiplied by ten and the same subproblem is solved again, from the same point.
    Otherwise the answer is accepted: the method ends if the penalty is within the tolerance, and else goes on from this answer
    with the multiplier raised by weight times penalty. *)
From Coq Require Import List Arith QArith Qcanon.
Import ListNotations.
Local Open Scope Qc_scope.

(** How the method ended: within the tolerance; out of iterations; or with a weight that may not be raised further. *)
Inductive verdict := Converged | OutOfIterations | WeightLimit.

Section Method.
  (** [solve weight multiplier from k]: the answer to the [k]-th subproblem.  [penalty w x]: [x] is the penalty of [w]. *)
  Context (solve : Qc -> Qc -> list Qc -> nat -> list Qc) (penalty : list Qc -> Qc -> Prop) (tol limit : Qc).

  (** [last]: the penalty of the last accepted answer, if there is one. *)
  Definition not_reduced (last : option Qc) (x : Qc) : Prop := match last with Some y => Q2Qc (1 # 4) * y < x | None => False end.

  (** [method n k weight mult last from out v]: with [n] iterations left and after [k] subproblems, the method ends with [out]. *)
  Inductive method : nat -> nat -> Qc -> Qc -> option Qc -> list Qc -> list Qc -> verdict -> Prop :=
  | raise n k weight mult last from x out v :
      penalty (solve weight mult from k) x -> not_reduced last x -> weight * Q2Qc 10 < limit ->
      method n (S k) (weight * Q2Qc 10) mult last from out v -> method n k weight mult last from out v
  | limit_close n k weight mult last from x :
      penalty (solve weight mult from k) x -> not_reduced last x -> limit <= weight * Q2Qc 10 -> x <= tol ->
      method n k weight mult last from (solve weight mult from k) Converged
  | limit_far n k weight mult last from x :
      penalty (solve weight mult from k) x -> not_reduced last x -> limit <= weight * Q2Qc 10 -> tol < x ->
      method n k weight mult last from (solve weight mult from k) WeightLimit
  | converged n k weight mult last from x :
      penalty (solve weight mult from k) x -> ~ not_reduced last x -> x <= tol ->
      method n k weight mult last from (solve weight mult from k) Converged
  | exhausted k weight mult last from x :
      penalty (solve weight mult from k) x -> ~ not_reduced last x -> tol < x ->
      method 1 k weight mult last from (solve weight mult from k) OutOfIterations
  | next n k weight mult last from x out v :
      penalty (solve weight mult from k) x -> ~ not_reduced last x -> tol < x ->
      method (S n) (S k) weight (mult + weight * x) (Some x) (solve weight mult from k) out v ->
      method (S (S n)) k weight mult last from out v.
End Method.
