(** * PropsBayes: property C101 (the Bayesian estimator). *)
From Coq Require Import List Bool Arith ZArith Lia String QArith Qcanon Permutation.
From Verif Require Import Base QcX Digraph SmModel SmProofs SmHist SmThms NetModel NetProofs NetFit NetThms NetBridge NetEquiv NetBayes PropsNet PropsEquiv.
From Verif Require InferModel InferEngine InferWit Kruskal.
Import ListNotations.
Local Open Scope string_scope.
Local Open Scope list_scope.
Local Open Scope Qc_scope.

(** ** C101 *)

(** [bayes_way]: the K2 prior, or BDeu with a positive equivalent sample size.  An answer is zero only for a state
    that contradicts the observation of the same variable. *)
Theorem C101_nothing_excluded : forall g d prior ess, reached g -> named g ->
  acyclic (edges g) -> all_linked g -> edges g <> [] ->
  (forall x, In (LStr x) (nodes g) -> In x (d_cols d) /\ InferModel.is_identifier x = true /\ x <> "self") ->
  complete d -> bayes_way prior ess ->
  exists e, trained g d "BayesianEstimator" prior ess e /\
    forall sc obs, Kruskal.good_sched sc -> NoDup (map fst obs) ->
      (forall v x, In (v, x) obs -> In (LStr v) (nodes g) /\ exists row, In row (d_rows d) /\ at_col row v = Some x) ->
      exists r, InferModel.engine_query sc e obs = Ok r /\
        forall v s, In (LStr v) (nodes g) -> (exists row, In row (d_rows d) /\ at_col row v = Some s) ->
          exists p, InferEngine.answer r v s = Some p /\ 0 <= p /\ (0 < p <-> forall x, In (v, x) obs -> x = s).
Proof. exact never_excludes. Qed.
Print Assumptions C101_nothing_excluded.

(** The table of the Bayesian estimator is a mixture of the table of maximum likelihood, in proportion to the number
    [k] of rows that show the parents' states, and of the uniform distribution, in proportion to what the prior is
    worth: as many rows as there are states (K2), or the equivalent sample size divided by the number of combinations
    of the parents' states (BDeu). *)
Theorem C101_mixture : forall b d prior ess prior' ess' S b1 b2 fs1 fs2, reached_net b -> node_states b = Ok S ->
  (forall v, In v (b_nodes b) -> declared S v <> []) -> incl (b_nodes b) (d_cols d) -> bayes_way prior ess ->
  fit_cpds b d "MaximumLikelihoodEstimator" prior' ess' = (b1, Ok tt) -> cpds b1 = Ok fs1 ->
  fit_cpds b d "BayesianEstimator" prior ess = (b2, Ok tt) -> cpds b2 = Ok fs2 ->
  map fst fs1 = map fst fs2 /\
  forall v f1 f2, In (v, f1) fs1 -> In (v, f2) fs2 -> f_index f1 = f_index f2 /\ f_names f1 = f_names f2 /\ f_columns f1 = f_columns f2 /\
    forall u s, In u (f_columns f1) -> In s (f_index f1) ->
      let n := List.length (f_index f1) in
      let k := Qc_of_nat (occurrences (filter (usable (declared S) (b_nodes b)) (d_rows d)) (f_names f1) u) in
      let c := prior_rows prior ess n (List.length (f_columns f1)) in
      0 < c /\ 0 < cell_of f2 s u /\ cell_of f2 s u = k / (k + c) * cell_of f1 s u + c / (k + c) * (1 / Qc_of_nat n).
Proof. exact shrinkage. Qed.
Print Assumptions C101_mixture.

(** a = 1 never occurs with b = 0: maximum likelihood answers zero for everything, the Bayesian estimator does not. *)
Example C101_answers :
  told_by (engine_for chain survey mle None None) [("a", LInt 1); ("b", LInt 0)] "c" (LInt 1) = Some 0%Q /\
  told_by (engine_for chain survey mle None None) [("a", LInt 1); ("b", LInt 0)] "c" (LInt 0) = Some 0%Q /\
  told_by (engine_for chain survey bay (Some "K2") None) [("a", LInt 1); ("b", LInt 0)] "c" (LInt 1) = Some (1 # 2)%Q /\
  told_by (engine_for chain survey bay (Some "BDeu") (Some (Q2Qc 4))) [("a", LInt 1)] "b" (LInt 0) = Some (1 # 4)%Q.
Proof. repeat split; vm_compute; reflexivity. Qed.
Example C101_met : bayes_way (Some "K2") None /\ bayes_way (Some "BDeu") (Some (Q2Qc 4)).
Proof. split; [left; auto|]. right. split; auto. exists (Q2Qc 4). split; auto. reflexivity. Qed.

(** Two of three rows with a = "y", c = 1 have b = 10; BDeu with 4 rows is worth one row for each of the four columns:
    5/8 = 3/4 * 2/3 + 1/4 * 1/2. *)
Example C101_mixture_met : reached_net b1 /\ node_states b1 = Ok S1 /\
  exists b2 f, fit_cpds b1 data "BayesianEstimator" (Some "BDeu") (Some (q 4 1)) = (b2, Ok tt) /\ frame_of b2 "b" = Ok f /\
    cell_of f (LInt 10) [LStr "y"; LInt 1] = q 5 8 /\ this (prior_rows (Some "BDeu") (Some (q 4 1)) 2 4) = 1%Q.
Proof.
  split; [exact b1_reached|]. split; [apply b1_states|]. eexists. eexists. split; [vm_compute; reflexivity|]. split; [vm_compute; reflexivity|]. split; vm_compute; reflexivity.
Qed.
