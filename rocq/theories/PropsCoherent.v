(** * PropsCoherent: property C102 (the answers of several queries fit together). *)
From Coq Require Import List Bool Arith ZArith Lia String QArith Qcanon Permutation.
From Verif Require Import Base QcX Digraph BbnModel Kruskal InferModel InferSpec InferEngine InferOps InferMain InferThms InferCheck InferWit InferCoherent.
Import ListNotations.
Local Open Scope string_scope.
Local Open Scope Qc_scope.
Local Open Scope list_scope.

(** [reached bn ops e past]: [e] is an engine for [bn] after the calls [ops] (queries, interventions,
    resets).  [says r v s] is the number that the answer [r] gives to state [s] of [v]. *)

(** The order of the observations and the iteration order of the sets are irrelevant. *)
Theorem C102_order : forall bn ops e past, good_bn bn -> Forall op_ok ops -> reached bn ops e past ->
  forall sc sc' obs obs' r, good_sched sc -> good_sched sc' -> valid_obs (net_of bn) obs -> Permutation obs obs' ->
    engine_query sc e obs = Ok r ->
    exists r', engine_query sc' e obs' = Ok r' /\ forall v s, answer r' v s = answer r v s.
Proof. exact query_order. Qed.
Print Assumptions C102_order.

(** Bayes' rule: P(a | o) P(b | o, a) = P(b | o) P(a | o, b). *)
Theorem C102_bayes : forall bn ops e past, good_bn bn -> Forall op_ok ops -> reached bn ops e past ->
  forall sc1 sc2 sc3 obs r u a v b, good_sched sc1 -> good_sched sc2 -> good_sched sc3 ->
    valid_obs (net_of bn) ((u, a) :: (v, b) :: obs) -> engine_query sc1 e obs = Ok r ->
    exists r2 r3, engine_query sc2 e ((u, a) :: obs) = Ok r2 /\ engine_query sc3 e ((v, b) :: obs) = Ok r3 /\
      says r u a * says r2 v b = says r v b * says r3 u a.
Proof. exact query_bayes. Qed.
Print Assumptions C102_bayes.

(** Total probability: averaging over what could be observed gives the present answer. *)
Theorem C102_total_probability : forall bn ops e past, good_bn bn -> Forall op_ok ops -> reached bn ops e past ->
  forall sc (scs : label -> sched) obs r u a v, good_sched sc -> (forall b, good_sched (scs b)) ->
    valid_obs (net_of bn) obs -> In u (vars (net_of bn)) -> In a (states_of (net_of bn) u) ->
    In v (vars (net_of bn)) -> ~ In v (map fst obs) -> engine_query sc e obs = Ok r ->
    exists rs : label -> qresult,
      (forall b, In b (states_of (net_of bn) v) -> engine_query (scs b) e ((v, b) :: obs) = Ok (rs b)) /\
      Qsum (fun b => says r v b * says (rs b) u a) (states_of (net_of bn) v) = says r u a.
Proof. exact query_total. Qed.
Print Assumptions C102_total_probability.

(** Observing what was certain changes nothing; what was impossible gives zeros; anything else
    becomes certain. *)
Theorem C102_observing : forall bn ops e past, good_bn bn -> Forall op_ok ops -> reached bn ops e past ->
  forall sc sc' obs r v b, good_sched sc -> good_sched sc' -> valid_obs (net_of bn) ((v, b) :: obs) ->
    engine_query sc e obs = Ok r ->
    exists r', engine_query sc' e ((v, b) :: obs) = Ok r' /\
      (says r v b = 1 -> forall u a, answer r' u a = answer r u a) /\
      (says r v b = 0 -> forall u a, says r' u a = 0) /\
      (says r v b <> 0 -> says r' v b = 1).
Proof. exact query_certain. Qed.
Print Assumptions C102_observing.

(** An engine with an intervention in force (C08's [busy] calls on the triangle) on which queries work. *)
Definition numbers (r : res qresult) : option (list (string * list (label * Q))) :=
  match r with
  | Ok r => Some (map (fun vd => (fst vd, map (fun sp => (fst sp, this (snd sp))) (snd vd))) r)
  | Err _ => None
  end.
Definition calls : list iop := [OpQuery [("C", LInt 0)]; OpDo "B" (IvDict [(LInt 0, q 1 5); (LInt 1, q 4 5)])].
Example C102_met : exists e past, good_bn triangle /\ Forall op_ok calls /\ reached triangle calls e past /\
  in_force past "B" = Some (IvDict [(LInt 0, q 1 5); (LInt 1, q 4 5)]) /\
  numbers (engine_query ids e []) =
    Some [("A", [(LInt 0, 1#4); (LInt 1, 3#4)]); ("B", [(LInt 0, 1#5); (LInt 1, 4#5)]); ("C", [(LInt 0, 35#48); (LInt 1, 13#48)])]%Q /\
  numbers (engine_query ids e [("C", LInt 1)]) =
    Some [("A", [(LInt 0, 38#65); (LInt 1, 27#65)]); ("B", [(LInt 0, 33#65); (LInt 1, 32#65)]); ("C", [(LInt 0, 0); (LInt 1, 1)])]%Q.
Proof.
  destruct (run_engine triangle (fun e => in_force (snd (irun_log e calls [])) "B" = Some (IvDict [(LInt 0, q 1 5); (LInt 1, q 4 5)]) /\
     numbers (engine_query ids (fst (irun_log e calls [])) []) =
       Some [("A", [(LInt 0, 1#4); (LInt 1, 3#4)]); ("B", [(LInt 0, 1#5); (LInt 1, 4#5)]); ("C", [(LInt 0, 35#48); (LInt 1, 13#48)])]%Q /\
     numbers (engine_query ids (fst (irun_log e calls [])) [("C", LInt 1)]) =
    Some [("A", [(LInt 0, 38#65); (LInt 1, 27#65)]); ("B", [(LInt 0, 33#65); (LInt 1, 32#65)]); ("C", [(LInt 0, 0); (LInt 1, 1)])]%Q)) as (e & E & H1 & H2 & H3).
  { vm_compute. auto. }
  exists (fst (irun_log e calls [])), (snd (irun_log e calls [])).
  split; [apply good_bn_sound; vm_compute; reflexivity|]. split; [|split; [|auto]].
  - repeat constructor; cbn; intuition discriminate.
  - exists e. split; [exact E|]. apply surjective_pairing.
Qed.
