(** * PropsTrans: properties C27 and C28 (time series transformer). *)
From Coq Require Import List Bool Arith ZArith Lia String QArith Qcanon Sorting.Sorted.
From Verif Require Import Base Names TransModel TransProofs TransThms.
Import ListNotations.
Local Open Scope string_scope.
Local Open Scope list_scope.
Local Open Scope nat_scope.

(** ** C27 *)

(** As a data frame, by column name.  [expected p l] lists, series by series, the times that have [p]
    predecessors; there is exactly one row for each of them, in that order. *)
Theorem C27_frame_rows : forall d columns l,
  d_columns d = Some columns -> d_return_df d = true -> NoDup columns -> 1 <= d_p d -> acceptable columns l ->
  (forall t, In t l -> well_formed t /\ strict t) ->
  exists cols rows, ddt_transform d l = Ok (Frame cols rows) /\ NoDup cols /\
    (forall n, In n cols <-> exists c k, In c columns /\ k <= d_p d /\ n = lag_name c k) /\
    Forall2 (fun st row => forall c k, In c columns -> k <= d_p d ->
       dget String.eqb (combine cols row) (lag_name c k) = value (fst st) (snd st - Z.of_nat k) c) (expected (d_p d) l) rows.
Proof. exact frame_aligned. Qed.
Print Assumptions C27_frame_rows.

(** As arrays (and as data frame), by position. *)
Theorem C27_array_rows : forall d columns l, d_columns d = Some columns -> 1 <= d_p d -> acceptable columns l ->
  (forall t, In t l -> well_formed t /\ strict t) ->
  exists X Y, ddt_transform d l = Ok (returned d columns X Y) /\
    Forall2 (fun st row => map Some row = map (value (fst st) (snd st)) columns) (expected (d_p d) l) X /\
    Forall2 (fun st row => map Some row =
       flat_map (fun k => map (value (fst st) (snd st - Z.of_nat k)) columns) (seq 1 (d_p d))) (expected (d_p d) l) Y.
Proof. exact rows_aligned. Qed.
Print Assumptions C27_array_rows.

(** [fit] remembers the columns of the first series. *)
Theorem C27_fit : forall d l b d', ddt_fit d l b = Ok d' ->
  exists first rest, l = first :: rest /\ d_columns d' = Some (col_names first) /\ d_p d' = d_p d /\ d_return_df d' = b.
Proof. exact fit_columns. Qed.
Print Assumptions C27_fit.

(** Everything else is rejected. *)
Theorem C27_validation : forall d columns l, d_columns d = Some columns -> ~ acceptable columns l -> exists e, ddt_transform d l = Err e.
Proof. exact transform_rejects. Qed.
Print Assumptions C27_validation.

Definition z (n : Z) : Qc := Q2Qc (inject_Z n).
Definition row (t a b : Z) : Z * list Qc := (t, [z a; z b]).
Definition cols := [("u", DInt); ("v", DFloat)].
(** A gap between times 3 and 7. *)
Definition s1 := mkSeries cols true [row 1 10 20; row 2 11 21; row 3 12 22; row 7 13 23; row 8 14 24].
Definition s2 := mkSeries cols true [row 5 30 40; row 6 31 41].
Definition fitted := mkDdt 1 (Some ["u"; "v"]) true.

Lemma sorted_dec (l : list Z) : increasing l = true -> StronglySorted Z.le l.
Proof. apply increasing_spec. Qed.

Example fitted_reached : ddt_fit (ddt_init 1) [s1; s2] true = Ok fitted.
Proof. reflexivity. Qed.
Example accept12 : acceptable ["u"; "v"] [s1; s2].
Proof. apply check_input_ok. reflexivity. Qed.
Example wf12 : forall t, In t [s1; s2] -> well_formed t /\ strict t.
Proof.
  intros t [<-|[<-|[]]]; (split; [split; [|intros r H; cbn in H; decompose [or] H; subst; try reflexivity; tauto]|]).
  1,3: apply NoDup_cons; [simpl; intuition discriminate|apply NoDup_cons; [simpl; tauto|constructor]].
  - unfold strict, times. cbn. repeat constructor.
  - unfold strict, times. cbn. repeat constructor.
Qed.
Example expected12 : map snd (expected 1 [s1; s2]) = [2; 3; 8; 6]%Z.
Proof. vm_compute. reflexivity. Qed.
Example rows12 : ddt_transform fitted [s1; s2] = Ok (Frame ["u_lag0"; "v_lag0"; "u_lag1"; "v_lag1"]
  [[z 11; z 21; z 10; z 20]; [z 12; z 22; z 11; z 21]; [z 14; z 24; z 13; z 23]; [z 31; z 41; z 30; z 40]]).
Proof. vm_compute. reflexivity. Qed.

(** With a repeated time index, which is accepted, a lag-1 column holds a value of the same time. *)
Definition s3 := mkSeries cols true [row 1 10 20; row 1 11 21; row 2 12 22].
Theorem C27_repeated_index_refuted :
  exists d columns l X Y, d_columns d = Some columns /\ 1 <= d_p d /\ acceptable columns l /\
    (forall t, In t l -> well_formed t) /\ ddt_transform d l = Ok (returned d columns X Y) /\
    (* no series has a time before 1, yet there is a row with the current values of time 1 *)
    (forall t, In t l -> forall u, In u (times t) -> (1 <= u)%Z) /\
    List.length X = 2 /\ List.length (expected (d_p d) l) = 1.
Proof.
  exists fitted, ["u"; "v"], [s3]. do 2 eexists. split; [reflexivity|]. split; [auto|]. split; [apply check_input_ok; reflexivity|].
  split.
  { intros t [<-|[]]. split; [|intros r H; cbn in H; decompose [or] H; subst; try reflexivity; tauto].
    apply NoDup_cons; [simpl; intuition discriminate|apply NoDup_cons; [simpl; tauto|constructor]]. }
  split; [apply (transform_arrays fitted ["u"; "v"] [s3]); [reflexivity|auto|apply check_input_ok; reflexivity]|]. split.
  { intros t [<-|[]] u H. cbn in H. decompose [or] H; subst; try lia; tauto. }
  split; vm_compute; reflexivity.
Qed.
Print Assumptions C27_repeated_index_refuted.

(** ** C28 *)

(** Each row of the output comes from [p] + 1 neighbouring rows of one series, and the times of
    neighbouring ones differ by at most one, so there is no gap between them. *)
Theorem C28_no_gap : forall d columns l, d_columns d = Some columns -> 1 <= d_p d -> acceptable columns l ->
  exists X Y, ddt_transform d l = Ok (returned d columns X Y) /\ List.length X = List.length Y /\
    forall n x y, nth_error X n = Some x -> nth_error Y n = Some y ->
      exists t i, In t l /\ d_p d <= i /\ i < List.length (ts_rows t) /\
        x = pick (col_names t) (snd (nth i (ts_rows t) (0%Z, []))) columns /\
        y = flat_map (fun k => pick (col_names t) (snd (nth (i - k) (ts_rows t) (0%Z, []))) columns) (seq 1 (d_p d)) /\
        forall k, k < d_p d -> (0 <= fst (nth (i - k) (ts_rows t) (0%Z, [])) - fst (nth (i - k - 1) (ts_rows t) (0%Z, [])) <= 1)%Z.
Proof. exact no_gap. Qed.
Print Assumptions C28_no_gap.

Example gap_not_crossed : ddt_transform fitted [s1] = Ok (Frame ["u_lag0"; "v_lag0"; "u_lag1"; "v_lag1"]
  [[z 11; z 21; z 10; z 20]; [z 12; z 22; z 11; z 21]; [z 14; z 24; z 13; z 23]]).
Proof. vm_compute. reflexivity. Qed.
