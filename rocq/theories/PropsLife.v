(** * PropsLife: property C108 (refused calls and fitting again, BayesianNetwork). *)
From Coq Require Import List Bool Arith ZArith Lia String QArith Qcanon.
From Verif Require Import Base QcX Digraph SmModel SmThms NetModel NetProofs NetFit NetThms NetMoreModel NetLife PropsNet.
Import ListNotations.
Local Open Scope string_scope.
Local Open Scope list_scope.

(** [after g cs b0 b]: [b0] is the new network of the structure [g], [b] the object after the calls [cs]. *)
Theorem C108_graph : forall g cs b0 b, after g cs b0 b -> bn_nodes b = bn_nodes b0 /\ bn_edges b = bn_edges b0.
Proof. exact graph_kept. Qed.
Print Assumptions C108_graph.

(** Fitting states and CPDs gives what it would have given at once, or raises what it would have raised. *)
Theorem C108_fit_again : forall g cs b0 b d method prior ess, after g cs b0 b ->
  snd (fit_node_states_and_cpds b d method prior ess) = snd (fit_node_states_and_cpds b0 d method prior ess) /\
  (snd (fit_node_states_and_cpds b d method prior ess) = Ok tt ->
     fst (fit_node_states_and_cpds b d method prior ess) = fst (fit_node_states_and_cpds b0 d method prior ess)).
Proof. intros g cs b0 b d m p e A. destruct (fit_again g cs b0 b d m p e A) as [E F]. split; auto. intros H. rewrite F; auto. Qed.
Print Assumptions C108_fit_again.

(** The same for the CPDs alone, whatever was fitted before with the same states. *)
Theorem C108_fit_cpds_again : forall b d method prior ess b1 d1 method1 prior1 ess1, fit_cpds b d1 method1 prior1 ess1 = (b1, Ok tt) ->
  snd (fit_cpds b1 d method prior ess) = snd (fit_cpds b d method prior ess) /\
  (snd (fit_cpds b1 d method prior ess) = Ok tt -> fst (fit_cpds b1 d method prior ess) = fst (fit_cpds b d method prior ess)).
Proof. intros b d m p e b1 d1 m1 p1 e1 E. destruct (fit_cpds_again b d m p e b1 d1 m1 p1 e1 E) as [A B]. split; auto. intros H. rewrite B; auto. Qed.
Print Assumptions C108_fit_cpds_again.

(** A refused call changes nothing, for each of the three methods that change one thing. *)
Theorem C108_refused_partial : forall b b' x,
  (forall arg, set_node_states b arg = (b', Err x) -> b' = b) /\
  (forall d, fit_node_states b d = (b', Err x) -> b' = b) /\
  (forall d method prior ess, fit_cpds b d method prior ess = (b', Err x) -> b' = b).
Proof.
  intros b b' x. split; [|split].
  - intros arg. exact (step_refused b (SetStates arg) b' x).
  - intros d. exact (step_refused b (FitStates d) b' x).
  - intros d m p e. exact (step_refused b (FitCpds d m p e) b' x).
Qed.
Print Assumptions C108_refused_partial.

Definition rowz (x y z : label) : list (string * option label) := [("a", Some x); ("c", Some z); ("b", Some y)].
Definition data_new : df := mkDf ["a"; "c"; "b"]
  [rowz (LStr "p") (LInt 7) (LInt 0); rowz (LStr "q") (LInt 8) (LInt 1)].
Definition lives : list change := [Change (FitStates data); Change (FitCpds data "MaximumLikelihoodEstimator" None None)].
Example b2_after : after g1 lives b0 b2.
Proof.
  split; [apply g1_reached|]. split; [apply g1_reached|]. split; [exact g1_init|]. split; [|reflexivity].
  apply Forall_cons; [exact data_cols|]. apply Forall_cons; [exact Logic.I|apply Forall_nil].
Qed.

(** fit_node_states_and_cpds with a method that does not exist raises, but the new states stay: the old frequency 1/4
    of "x" and 3/4 of "y" is now reported for "p" and "q", which occur once each in the new data and never in the old. *)
Theorem C108_refused_refuted :
  exists g cs b0 b d method b' fs fs', after g cs b0 b /\ NoDup (d_cols d) /\
    fit_node_states_and_cpds b d method None None = (b', Err ValueError) /\ b' <> b /\
    cpds b = Ok fs /\ cpds b' = Ok fs' /\
    In ("a", mkFrame [LStr "x"; LStr "y"] [] [[]] [[q 1 4]; [q 3 4]]) fs /\
    In ("a", mkFrame [LStr "p"; LStr "q"] [] [[]] [[q 1 4]; [q 3 4]]) fs'.
Proof.
  exists g1, lives, b0, b2, data_new, "MLE". exists (fst (fit_node_states b2 data_new)). exists fs2.
  eexists. split; [exact b2_after|]. split; [exact data_cols|]. split; [vm_compute; reflexivity|]. split; [vm_compute; discriminate|].
  split; [exact b2_cpds|]. split; [vm_compute; reflexivity|]. split; left; reflexivity.
Qed.
Print Assumptions C108_refused_refuted.

(** Fitting the new data with a method that exists forgets the old data. *)
Example b2_again :
  snd (fit_node_states_and_cpds b2 data_new "MaximumLikelihoodEstimator" None None) = Ok tt /\
  (exists fs, cpds (fst (fit_node_states_and_cpds b2 data_new "MaximumLikelihoodEstimator" None None)) = Ok fs /\
     In ("a", mkFrame [LStr "p"; LStr "q"] [] [[]] [[q 1 2]; [q 1 2]]) fs) /\
  snd (fit_cpds b2 data "BayesianEstimator" (Some "K2") None) = Ok tt /\ snd (fit_cpds b2 data "K2" None None) = Err ValueError.
Proof. split; [reflexivity|]. split; [eexists; split; [vm_compute; reflexivity|left; reflexivity]|]. split; reflexivity. Qed.
