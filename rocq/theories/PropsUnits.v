(** * PropsUnits: property C104 (discretisation depends on neither units, nor order, nor earlier fits). *)
From Coq Require Import List Bool Arith ZArith Lia String QArith Qcanon Permutation.
From Verif Require Import Base QcX DiscModel DiscThms DiscUnits PropsDisc.
Import ListNotations.
Local Open Scope string_scope.
Local Open Scope list_scope.
Local Open Scope Qc_scope.

(** [fit_then d data test]: fit on [data], then discretise [test]; a failure of either is the result. *)

(** Measuring training data and new data in another unit (a factor above zero and an offset) changes no bucket. *)
Theorem C104_units : forall d a c data test, 0 < a ->
  fit_then d (map (fun x => a * x + c) data) (map (fun x => a * x + c) test) = fit_then d data test.
Proof. intros d a c data test A. exact (units a c A d data test). Qed.
Print Assumptions C104_units.

(** The order in which the training data are listed does not matter. *)
Theorem C104_order : forall d data data' test, Permutation data data' -> fit_then d data test = fit_then d data' test.
Proof. intros d data data' test P. unfold fit_then. rewrite (fit_order d data data' P). reflexivity. Qed.
Print Assumptions C104_order.

(** Fits before the last one leave no trace, whether they succeeded or failed. *)
Theorem C104_refit : forall d calls data test, fit_then (fold_left try_fit calls d) data test = fit_then d data test.
Proof. exact refit. Qed.
Print Assumptions C104_refit.

(** Celsius and Fahrenheit, three buckets of both automatic methods. *)
Definition celsius := zs [20; 5; 35; 15; 30; 10; 25; 0; 100]%Z.
Definition fahrenheit := zs [68; 41; 95; 59; 86; 50; 77; 32; 212]%Z.
Example C104_units_met :
  fahrenheit = map (fun x => Q2Qc (9#5) * x + z 32) celsius /\
  fit_then (quant 3) celsius celsius = Ok [1; 0; 2; 1; 2; 0; 1; 0; 2]%nat /\
  fit_then (quant 3) fahrenheit fahrenheit = Ok [1; 0; 2; 1; 2; 0; 1; 0; 2]%nat /\
  fit_then (unif 3) celsius celsius = Ok [0; 0; 1; 0; 0; 0; 0; 0; 2]%nat /\
  fit_then (unif 3) fahrenheit fahrenheit = Ok [0; 0; 1; 0; 0; 0; 0; 0; 2]%nat /\
  (** a factor below zero does change buckets *)
  fit_then (quant 3) (map Qcopp celsius) (map Qcopp celsius) <> fit_then (quant 3) celsius celsius.
Proof.
  split. { unfold fahrenheit, celsius, zs. rewrite map_map. cbn [map]. repeat f_equal; apply Qc_is_canon; vm_compute; reflexivity. }
  repeat split; try (vm_compute; reflexivity). vm_compute. discriminate.
Qed.
Example C104_refit_met :
  fit_then (fold_left try_fit [zs [1; 2; 3]%Z; []; zs [9; 9; 50; 7]%Z] (unif 3)) celsius celsius = Ok [0; 0; 1; 0; 0; 0; 0; 0; 2]%nat.
Proof. vm_compute. reflexivity. Qed.
