(** * PropsWorkDyn: property C121 (from time series to answers through a learned structure). *)
From Coq Require Import List Bool Arith ZArith Lia String QArith Qcanon Permutation Relations.
From Verif Require Import Base Digraph SmModel SmProofs SmHist SmThms Names NotearsModel NotearsProofs NotearsThms.
From Verif Require Import TransModel TransThms DynoModel DynoProofs DynoThms.
From Verif Require Import NetModel NetProofs NetFit NetThms NetBridge Workflow WorkDyn.
From Verif Require DiscModel DiscThms InferModel PropsNotears PropsDyno PropsTrans PropsDisc InferWit InferEngine.
Import ListNotations.
Local Open Scope string_scope.
Local Open Scope list_scope.
Local Open Scope nat_scope.

(** The structure that DYNOTEARS learns from time series: threshold_till_dag and get_largest_subgraph give None exactly if no
    edge is left, and otherwise a structure with allowed edges, from a variable at some lag to a variable at lag 0, that a
    BayesianNetwork accepts, fits on complete data with a column for each variable and lag, and answers queries with. *)
Theorem C121_structure : forall fuel opt eh l p par t g, respects_bounds opt -> NoDup (variables l) ->
  (forall c, In c (variables l) -> InferModel.is_identifier c = true) ->
  from_pandas_dynamic fuel opt eh l p par t = Ok g ->
  exists gd, threshold_till_dag g = (gd, Ok tt) /\
    match get_largest_subgraph gd with
    | None => edges gd = []
    | Some s => edges s <> [] /\
        (forall u v, In (u, v) (edges s) -> In (u, v) (edges g) /\ exists k a b, k <= p /\ In a (variables l) /\ In b (variables l) /\
           u = LStr (lag_name a k) /\ v = LStr (lag_name b 0) /\ ~ (k = 0 /\ a = b) /\ ~ dbanned t k a b) /\
        forall d method prior ess, NetBridge.complete d -> (forall c k, In c (variables l) -> k <= p -> In (lag_name c k) (d_cols d)) -> sound_way method prior ess ->
          answers_from s d method prior ess
    end.
Proof. exact dynamic_workflow. Qed.
Print Assumptions C121_structure.

(** The lagged data frame of the same series, each column discretised: complete data for that network, in which the row of a
    time has the interval of the value k steps earlier in the column of lag k. *)
Theorem C121_lagged_data : forall l p ds, TransThms.acceptable (variables l) l -> NoDup (variables l) -> 1 <= p -> (forall t, In t l -> well_formed t /\ strict t) -> expected p l <> [] ->
  (forall c k, In c (variables l) -> k <= p -> DiscThms.reached_disc (ds (lag_name c k)) /\ forall vals, vals <> [] -> DiscThms.fits (ds (lag_name c k)) vals) ->
  exists tr cols rows d, ddt_fit (ddt_init p) l true = Ok tr /\ ddt_transform tr l = Ok (Frame cols rows) /\
    discretised cols (fun j => ds (nth j cols "")) rows d /\ lagged_intervals (variables l) p l ds d /\ NetBridge.complete d.
Proof. exact lagged_data. Qed.
Print Assumptions C121_lagged_data.

(** All together. *)
Theorem C121_end_to_end : forall fuel opt eh l p par t g ds method prior ess, NoDup (variables l) -> 1 <= p -> (forall t, In t l -> well_formed t /\ strict t) -> expected p l <> [] ->
  (forall c, In c (variables l) -> InferModel.is_identifier c = true) ->
  (forall c k, In c (variables l) -> k <= p -> DiscThms.reached_disc (ds (lag_name c k)) /\ forall vals, vals <> [] -> DiscThms.fits (ds (lag_name c k)) vals) ->
  sound_way method prior ess -> respects_bounds opt -> from_pandas_dynamic fuel opt eh l p par t = Ok g ->
  exists gd tr cols rows d, threshold_till_dag g = (gd, Ok tt) /\ ddt_fit (ddt_init p) l true = Ok tr /\ ddt_transform tr l = Ok (Frame cols rows) /\
    discretised cols (fun j => ds (nth j cols "")) rows d /\ lagged_intervals (variables l) p l ds d /\
    match get_largest_subgraph gd with None => edges gd = [] | Some s => edges s <> [] /\ answers_from s d method prior ess end.
Proof. exact dynamic_end_to_end. Qed.
Print Assumptions C121_end_to_end.

(** The series of C34, with p = 1.  After learning, thresholding, building the lagged data and fitting, the network is asked
    for the present interval of u given that of v a step ago. *)
Definition ex_ds (n : string) : DiscModel.disc := PropsDisc.unif 2.
Definition ex_series := [PropsTrans.s1; PropsTrans.s2].
Definition ex_lagged : df := mkDf ["u_lag0"; "v_lag0"; "u_lag1"; "v_lag1"]
  (map (fun n => map (fun c => (c, Some (LInt n))) ["u_lag0"; "v_lag0"; "u_lag1"; "v_lag1"]) [0; 0; 0; 1]%Z).
Example C121_met : (forall c, In c (variables ex_series) -> InferModel.is_identifier c = true) /\ expected 1 ex_series <> [] /\
  (forall t, In t ex_series -> well_formed t /\ strict t) /\
  (forall c k, In c (variables ex_series) -> k <= 1 -> DiscThms.reached_disc (ex_ds (lag_name c k)) /\ forall vals, vals <> [] -> DiscThms.fits (ex_ds (lag_name c k)) vals) /\
  exists g gd s, from_pandas_dynamic 21 PropsDyno.ex_dopt PropsNotears.ex_eh ex_series 1 PropsNotears.ex_par PropsDyno.ex_dtabu = Ok g /\
    threshold_till_dag g = (gd, Ok tt) /\ get_largest_subgraph gd = Some s /\
    edges s = [(LStr "u_lag1", LStr "u_lag0"); (LStr "u_lag1", LStr "v_lag0"); (LStr "v_lag0", LStr "u_lag0"); (LStr "v_lag1", LStr "v_lag0")] /\
    exists tr cols rows d, ddt_fit (ddt_init 1) ex_series true = Ok tr /\ ddt_transform tr ex_series = Ok (Frame cols rows) /\
    discretised cols (fun j => ex_ds (nth j cols "")) rows d /\
    exists b0 b1 b2 fs e r, bn_init s = Ok b0 /\ fit_node_states b0 d = (b1, Ok tt) /\
      fit_cpds b1 d "BayesianEstimator" (Some "K2") None = (b2, Ok tt) /\ cpds b2 = Ok fs /\
      InferModel.engine_new (as_input b2 fs) = Ok e /\ InferModel.engine_query InferWit.ids e [("v_lag1", LInt 0)] = Ok r /\
      InferEngine.answer r "u_lag0" (LInt 1) = Some (Q2Qc (331 # 900)).
Proof.
  split; [intros c [<-|[<-|[]]]; reflexivity|]. split; [vm_compute; discriminate|]. split; [exact PropsTrans.wf12|]. split.
  { intros c k _ _. split; [exists (PropsDisc.unif_args 2), (PropsDisc.unif 2), []; split; reflexivity|]. intros vals Nv. split; [discriminate|]. split; auto. intros [Q _]. discriminate. }
  eexists. eexists. eexists. split; [vm_compute; reflexivity|]. split; [vm_compute; reflexivity|]. split; [vm_compute; reflexivity|]. split; [vm_compute; reflexivity|].
  eexists. eexists. eexists. exists ex_lagged. split; [vm_compute; reflexivity|]. split; [vm_compute; reflexivity|]. split.
  { split; [reflexivity|]. split; [reflexivity|]. intros j c H. do 4 (destruct j as [|j]; [injection H as <-; (eexists; split; [vm_compute; reflexivity|]);
      intros i r H; do 4 (destruct i as [|i]; [injection H as <-; reflexivity|]); destruct i; discriminate|]). destruct j; discriminate. }
  eexists. eexists. eexists. eexists. eexists. eexists. split; [vm_compute; reflexivity|]. split; [vm_compute; reflexivity|]. split; [vm_compute; reflexivity|].
  split; [vm_compute; reflexivity|]. split; [vm_compute; reflexivity|]. split; [vm_compute; reflexivity|]. vm_compute. f_equal. apply Qc_is_canon. reflexivity.
Qed.
