(** * LossSpec: what the losses are compared with. *)
From Coq Require Import List Bool Arith ZArith QArith Qcanon Qround Reals.
From Verif Require Import QcX NetModel AcycLink TorchModel.
Import ListNotations.
Local Open Scope list_scope.
Local Open Scope nat_scope.

Definition is_natural (x : Qc) : Prop := exists n : nat, x = Q2Qc (inject_Z (Z.of_nat n)).
Definition natural (x : Qc) : nat := Z.to_nat (Qfloor (this x)).

(** How many distinct values of a column are smaller than a value: the place of its category. *)
Definition place (col : list Qc) (x : Qc) : nat := List.length (nodup Qc_eq_dec (filter (fun y => if Qclt_le_dec y x then true else false) col)).

(** The likelihood of a value [x] of a column, given what is reported for it: the mean of a normal distribution
    with variance 1, the probability of 1, the mean of a Poisson distribution, or the probabilities of the
    categories in order. *)
Definition likelihood (k : kind) (col : list Qc) (x : Qc) (reported : list R) : R :=
  match k with
  | Cont => (exp (- (realq x - hd 0 reported) ^ 2 / 2) / sqrt (2 * PI))%R
  | Bin => if Qc_eq_dec x 1%Qc then hd 0%R reported else (1 - hd 0 reported)%R
  | Poiss => (exp (- hd 0 reported) * hd 0 reported ^ natural x / INR (fact (natural x)))%R
  | Cat | Ord => nth (place col x) reported 0%R
  end.

(** The part that no parameter changes. *)
Definition constant (k : kind) (x : Qc) : R :=
  match k with Cont => ln (sqrt (2 * PI)) | Poiss => ln (INR (fact (natural x))) | _ => 0%R end.

(** The data a kind is made for: 0 and 1, counts, at least two categories. *)
Definition suitable (k : kind) (col : list Qc) : Prop :=
  match k with
  | Bin => forall x, In x col -> x = 0%Qc \/ x = 1%Qc
  | Poiss => forall x, In x col -> is_natural x
  | Ord => 2 <= List.length (nodup Qc_eq_dec col)
  | _ => True
  end.

(** The mean over the rows. *)
Definition average (l : list R) : R := (fold_right Rplus 0 l / INR (List.length l))%R.
