(** * AcycModel: the acyclicity functions over the real numbers.

    Matrices are functions of row and column below the dimension [d].  [scipy.linalg.expm] and torch's
    [matrix_power] are the exact functions; rounding is not modelled. *)
From Coq Require Import List Arith Reals Relations.
Import ListNotations.
Local Open Scope R_scope.

(** notears.py:378, 489; dynotears.py:404; pytorch/core.py:448 *)
Definition rmat : Type := nat -> nat -> R.

(** notears.py:379, inside np.trace and slin.expm *)
Fixpoint lsum {A} (f : A -> R) (l : list A) : R := match l with [] => 0 | x :: r => f x + lsum f r end.
(** notears.py:379, inside np.trace and slin.expm *)
Definition rsum (d : nat) (f : nat -> R) : R := lsum f (seq 0 d).

(** notears.py:379, inside slin.expm; pytorch/core.py:449 *)
Definition mid : rmat := fun i j => if Nat.eqb i j then 1 else 0.
(** notears.py:379, inside slin.expm; pytorch/core.py:451, inside matrix_power *)
Definition mmul (d : nat) (A B : rmat) : rmat := fun i j => rsum d (fun k => A i k * B k j).
(** notears.py:379, inside slin.expm; pytorch/core.py:451 *)
Fixpoint mpow (d : nat) (A : rmat) (n : nat) : rmat :=
  match n with O => mid | S m => mmul d A (mpow d A m) end.
(** notears.py:379, 470; dynotears.py:405 *)
Definition tr (d : nat) (A : rmat) : R := rsum d (fun i => A i i).

(** [W * W]: entry by entry (notears.py:379, 470; dynotears.py:405) *)
Definition squared (W : rmat) : rmat := fun i j => W i j * W i j.

(** notears.py:378-379, 469-470; dynotears.py:404-405: [np.trace(slin.expm(W * W)) - d] is [h]. *)
Definition exp_penalty (d : nat) (W : rmat) (h : R) : Prop :=
  infinite_sum (fun k => tr d (mpow d (squared W) k) / INR (fact k)) (h + INR d).

(** pytorch/core.py:444-453: the penalty of a matrix [A] of squared weights. *)
Definition poly_penalty (d : nat) (A : rmat) : R :=
  let M := fun i j => mid i j + A i j / INR d in
  rsum d (fun i => rsum d (fun j => mpow d M (d - 1) j i * M i j)) - INR d.

(** The graph of a matrix: an edge for every entry that is not zero.
    (notears.py:443, 554, StructureModel of the matrix) *)
Definition medge (d : nat) (W : rmat) (i j : nat) : Prop := (i < d)%nat /\ (j < d)%nat /\ W i j <> 0.
(** notears.py:375, what DAGness is about *)
Definition dag (d : nat) (W : rmat) : Prop := forall i, ~ clos_trans nat (medge d W) i i.
