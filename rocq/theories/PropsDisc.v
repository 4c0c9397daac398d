(** * PropsDisc: properties C24 to C26 (discretiser). *)
From Coq Require Import List Bool Arith ZArith Lia String QArith Qcanon Permutation Sorting.Sorted.
From Verif Require Import Base QcX DiscModel DiscProofs DiscThms.
Import ListNotations.
Local Open Scope string_scope.
Local Open Scope list_scope.
Local Open Scope Qc_scope.

Definition z (n : Z) : Qc := Qc_of_Z n.
Definition zs (l : list Z) : list Qc := map z l.

(** ** C24 *)

(** [reached_disc d]: constructed by any accepted arguments and then fitted any number of times. *)
Theorem C24_buckets : forall d splits data, reached_disc d -> numeric_split_points d = Some splits ->
  exists out, disc_transform d data = Ok out /\
    Forall2 (fun v i => i = List.length (filter (fun s => Qcleb s v) splits) /\ forall j, i = j <-> in_bucket splits v j) data out /\
    (forall n m v v' i i', nth_error data n = Some v -> nth_error data m = Some v' ->
       nth_error out n = Some i -> nth_error out m = Some i' -> v <= v' -> (i <= i')%nat).
Proof. exact transform_spec. Qed.
Print Assumptions C24_buckets.

(** The documentation's example. *)
Definition doc_args := mkArgs "fixed" None None (Some (zs [11; 18; 50]%Z)) None.
Definition doc_disc := mkDisc "fixed" None None (Some (zs [11; 18; 50]%Z)) None.
Example doc_reached : reached_disc doc_disc.
Proof. exists doc_args, doc_disc, []. split; vm_compute; reflexivity. Qed.
Example doc_transform : disc_transform doc_disc (zs [7; 12; 13; 18; 19; 22; 60]%Z) = Ok [0; 1; 1; 2; 2; 2; 3]%nat.
Proof. vm_compute. reflexivity. Qed.

(** ** C25 *)

Theorem C25_split_points : forall d data, reached_disc d -> fits d data ->
  exists d' splits, disc_fit d data = Ok d' /\ d' = set_splits d splits /\
    nondecreasing splits /\ split_count d (List.length splits) /\
    (forall s, In s splits -> (exists a, In a data /\ a <= s) /\ (exists a, In a data /\ s <= a)).
Proof. exact fit_spec. Qed.
Print Assumptions C25_split_points.

(** The uniform method divides the range evenly. *)
Theorem C25_uniform : forall d k data mn mx, reached_disc d -> method d = "uniform" -> num_buckets d = Some k -> data <> [] ->
  In mn data -> In mx data -> (forall a, In a data -> mn <= a /\ a <= mx) ->
  exists splits, disc_fit d data = Ok (set_splits d splits) /\ List.length splits = Z.to_nat (k - 1) /\
    forall i s, nth_error splits i = Some s -> s = mn + (mx - mn) * Qc_of_Z (Z.of_nat i + 1) / Qc_of_Z k.
Proof. exact uniform_even. Qed.
Print Assumptions C25_uniform.

(** The other methods: at a split point for quantile [q] of [n] values, fewer than q(n-1)+1 values are
    below, more than q(n-1) are at or below, and on distinct values at least q(n-1) are below. *)
Theorem C25_quantiles : forall d qs data, reached_disc d -> asked_quantiles d qs -> data <> [] ->
  exists splits, disc_fit d data = Ok (set_splits d splits) /\
    Forall2 (fun q s =>
      let pos := q * (Qc_of_Z (Z.of_nat (List.length data)) - 1) in
      Qc_of_Z (Z.of_nat (List.length (filter (fun v => Qcltb v s) data))) < pos + 1 /\
      pos < Qc_of_Z (Z.of_nat (List.length (filter (fun v => Qcleb v s) data))) /\
      (NoDup data -> pos <= Qc_of_Z (Z.of_nat (List.length (filter (fun v => Qcltb v s) data))))) qs splits.
Proof. exact quantile_shares. Qed.
Print Assumptions C25_quantiles.

(** On distinct values the sizes of any two buckets of the quantile method differ by at most one. *)
Theorem C25_quantile_buckets : forall d k data, reached_disc d -> method d = "quantile" -> num_buckets d = Some k -> (1 <= k)%Z ->
  data <> [] -> NoDup data ->
  exists out, disc_fit_transform d data = Ok out /\ List.length out = List.length data /\
    (forall i, In i out -> (Z.of_nat i < k)%Z) /\
    forall i j, (Z.of_nat i < k)%Z -> (Z.of_nat j < k)%Z -> (bucket_size out i <= bucket_size out j + 1)%nat.
Proof. exact quantile_even. Qed.
Print Assumptions C25_quantile_buckets.

Definition quant_args k := mkArgs "quantile" (Some k) None None None.
Definition quant k := mkDisc "quantile" (Some k) None None None.
Example quant_reached : reached_disc (quant 3).
Proof. exists (quant_args 3), (quant 3), []. split; vm_compute; reflexivity. Qed.
Example quant_fits : fits (quant 3) (zs [5; 1; 9; 3; 12; 7; 20; 2]%Z).
Proof. split; [discriminate|]. split; [discriminate|]. intros [_ H]; discriminate H. Qed.
Example quant_out : disc_fit_transform (quant 3) (zs [5; 1; 9; 3; 12; 7; 20; 2]%Z) = Ok [1; 0; 2; 0; 2; 1; 2; 0]%nat.
Proof. vm_compute. reflexivity. Qed.
Definition unif_args k := mkArgs "uniform" (Some k) None None None.
Definition unif k := mkDisc "uniform" (Some k) None None None.
Example unif_reached : reached_disc (unif 3).
Proof. exists (unif_args 3), (unif 3), []. split; vm_compute; reflexivity. Qed.
Example unif_out : disc_fit_transform (unif 3) (zs [0; 1; 2; 3; 30]%Z) = Ok [0; 0; 0; 0; 2]%nat.
Proof. vm_compute. reflexivity. Qed.
Definition out_disc := mkDisc "outlier" None (Some (Q2Qc (1 # 4))) None None.
Example out_reached : reached_disc out_disc.
Proof. exists (mkArgs "outlier" None (Some (Q2Qc (1 # 4))) None None), out_disc, []. split; vm_compute; reflexivity. Qed.
Example out_out : disc_fit_transform out_disc (zs [0; 1; 2; 3; 30]%Z) = Ok [0; 1; 1; 2; 2]%nat.
Proof. vm_compute. reflexivity. Qed.

(** ** C26 *)

Theorem C26_validation : forall a,
  (documented a -> disc_init a = Ok (mkDisc (a_method a) (a_num_buckets a) (a_outlier a) (a_numeric a) (a_percentiles a))) /\
  (~ documented a -> disc_init a = Err ValueError).
Proof. exact init_spec. Qed.
Print Assumptions C26_validation.

Theorem C26_fixed_not_fitted : forall d data, reached_disc d -> method d = "fixed" -> disc_fit d data = Err RuntimeError.
Proof. exact fixed_not_fitted. Qed.
Print Assumptions C26_fixed_not_fitted.

(** Every other accepted discretiser can be fitted on data, except with zero quantile buckets. *)
Theorem C26_fit_outcome : forall d data, reached_disc d ->
  (fits d data -> exists d', disc_fit d data = Ok d') /\ (~ fits d data -> exists e, disc_fit d data = Err e).
Proof.
  intros d data R. split.
  - intros F. destruct (fit_spec d data R F) as (d' & l & E & _). eauto.
  - apply fit_fails; auto.
Qed.
Print Assumptions C26_fit_outcome.

(** The number of buckets is not validated: zero buckets are accepted and [fit] raises an internal
    ZeroDivisionError; negative numbers give one bucket. *)
Theorem C26_bucket_number_refuted :
  (exists a d data, disc_init a = Ok d /\ method d <> "fixed" /\ data <> [] /\ disc_fit d data = Err ZeroDivisionError) /\
  (exists a d data, disc_init a = Ok d /\ a_num_buckets a = Some (-3)%Z /\ disc_fit_transform d data = Ok [0; 0; 0]%nat).
Proof.
  split.
  - exists (quant_args 0), (quant 0), (zs [1; 2]%Z). split; [vm_compute; reflexivity|]. split; [discriminate|]. split; [discriminate|]. vm_compute. reflexivity.
  - exists (unif_args (-3)), (unif (-3)), (zs [1; 2; 3]%Z). split; [vm_compute; reflexivity|]. split; [reflexivity|]. vm_compute. reflexivity.
Qed.
Print Assumptions C26_bucket_number_refuted.

Example documented_case : documented doc_args /\ ~ documented (mkArgs "fixed" None None (Some (zs [18; 11]%Z)) None).
Proof.
  split; [apply init_iff; exists doc_disc; vm_compute; reflexivity|].
  intros H. apply init_iff in H. destruct H as [d H]. revert H. vm_compute. discriminate.
Qed.
