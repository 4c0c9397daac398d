(** * PropsCalc: property C122 (the rules of the do-calculus). *)
From Coq Require Import List Bool Arith ZArith Lia String QArith Qcanon Permutation Relations.
From Verif Require Import Base QcX Digraph BbnModel Kruskal InferModel InferSpec InferEngine InferOps InferMain InferThms InferCheck InferWit CausalApi DsepSpec DsepCheck CalcSpec CausalCalcApi PropsInfer PropsCausal PropsCoherent PropsOrder.
Import ListNotations.
Local Open Scope string_scope.
Local Open Scope Qc_scope.
Local Open Scope list_scope.

(** In all three: [e] is an engine for [bn] after any calls, [X] the variables with an intervention in force on it, [xs]
    some that are set to a value.  [d_separated] is in DsepSpec.v, [without_into], [without_from] and [possible] in
    CalcSpec.v, [forced_on] and [set_to] at the top of CausalCalcApi.v. *)

(** ** Rule 1: observations that are separated change nothing *)
Theorem C122_observations : forall bn ops e past sc sc' X xs obs extra r r' u s, good_bn bn -> Forall op_ok ops -> reached bn ops e past ->
  good_sched sc -> good_sched sc' -> forced_on past X -> set_to past xs -> valid_obs (net_of bn) (xs ++ extra ++ obs) ->
  engine_query sc e obs = Ok r -> engine_query sc' e (extra ++ obs) = Ok r' -> possible r' ->
  ~ In u (map fst (xs ++ obs)) ->
  (forall t, In t (map fst extra) -> d_separated (without_into X (net_of bn)) (map fst (xs ++ obs)) t u) ->
  answer r' u s = answer r u s.
Proof. exact api_rule1. Qed.
Print Assumptions C122_observations.

(** ** Rule 2: setting the variables of [zs] and seeing them *)
Theorem C122_exchange : forall bn ops e past ops' e' past' sc sc' X xs zs obs r r' u s, good_bn bn ->
  Forall op_ok ops -> reached bn ops e past -> Forall op_ok ops' -> reached bn ops' e' past' -> good_sched sc -> good_sched sc' ->
  forced_on past X -> set_to past xs ->
  (forall v, ~ In v (map fst zs) -> in_force past' v = in_force past v) ->
  (forall z, In z (map fst zs) -> in_force past z = None) -> set_to past' zs ->
  valid_obs (net_of bn) (xs ++ zs ++ obs) ->
  engine_query sc e (zs ++ obs) = Ok r -> engine_query sc' e' obs = Ok r' -> possible r ->
  ~ In u (map fst (xs ++ obs)) ->
  (forall z, In z (map fst zs) -> d_separated (without_from (map fst zs) (without_into X (net_of bn))) (map fst (xs ++ obs)) z u) ->
  answer r' u s = answer r u s.
Proof. exact api_rule2. Qed.
Print Assumptions C122_exchange.

(** ** Rule 3: interventions on [Z], of whatever distribution, change nothing.  [ZW] are those of [Z] that are not
    ancestors of observed variables. *)
Theorem C122_actions : forall bn ops e past ops' e' past' sc sc' X xs Z ZW obs r r' u s, good_bn bn ->
  Forall op_ok ops -> reached bn ops e past -> Forall op_ok ops' -> reached bn ops' e' past' -> good_sched sc -> good_sched sc' ->
  forced_on past X -> set_to past xs ->
  (forall v, ~ In v Z -> in_force past' v = in_force past v) ->
  (forall z, In z Z -> in_force past z = None /\ ~ In z (map fst obs)) ->
  valid_obs (net_of bn) (xs ++ obs) ->
  engine_query sc e obs = Ok r -> engine_query sc' e' obs = Ok r' -> possible r -> possible r' ->
  ~ In u (map fst (xs ++ obs)) ->
  (forall z, In z ZW <-> In z Z /\ ~ exists w, In w (map fst obs) /\ path (parent_arrows (without_into X (net_of bn))) z w) ->
  (forall z, In z Z -> d_separated (without_into (X ++ ZW) (net_of bn)) (map fst (xs ++ obs)) z u) ->
  answer r' u s = answer r u s.
Proof. exact api_rule3. Qed.
Print Assumptions C122_actions.

(** ** A case: W causes X, Z and Y; X causes Z and Y; Z causes Y *)
Definition four : bnet := mkBnet ["W"; "X"; "Y"; "Z"]
  [("W", mkFrame [LInt 0; LInt 1] [] [[]] [[q 1 3]; [q 2 3]]);
   ("X", mkFrame [LInt 0; LInt 1] ["W"] [[LInt 0]; [LInt 1]] [[q 1 4; q 1 2]; [q 3 4; q 1 2]]);
   ("Y", mkFrame [LInt 0; LInt 1] ["W"; "X"; "Z"]
      [[LInt 0; LInt 0; LInt 0]; [LInt 0; LInt 0; LInt 1]; [LInt 0; LInt 1; LInt 0]; [LInt 0; LInt 1; LInt 1];
       [LInt 1; LInt 0; LInt 0]; [LInt 1; LInt 0; LInt 1]; [LInt 1; LInt 1; LInt 0]; [LInt 1; LInt 1; LInt 1]]
      [[q 1 2; q 1 3; q 1 4; q 1 2; q 1 5; q 2 5; q 3 5; q 1 6]; [q 1 2; q 2 3; q 3 4; q 1 2; q 4 5; q 3 5; q 2 5; q 5 6]]);
   ("Z", mkFrame [LInt 0; LInt 1] ["W"; "X"]
      [[LInt 0; LInt 0]; [LInt 0; LInt 1]; [LInt 1; LInt 0]; [LInt 1; LInt 1]]
      [[q 1 2; q 1 3; q 1 4; q 1 2]; [q 1 2; q 2 3; q 3 4; q 1 2]])].
Example four_good : good_bn four.
Proof. apply good_bn_sound. vm_compute. reflexivity. Qed.

Definition do_x : list iop := [OpQuery []; OpDo "X" (IvInt 1)].
Definition do_xz : list iop := [OpDo "Z" (IvDict [(LInt 0, 1); (LInt 1, 0)]); OpDo "X" (IvInt 1)].
Definition do_z : list iop := [OpDo "Z" (IvDict [(LInt 0, q 1 5); (LInt 1, q 4 5)])].
Definition do_zx : list iop := [OpDo "Z" (IvDict [(LInt 0, q 1 5); (LInt 1, q 4 5)]); OpDo "X" (IvDict [(LInt 0, q 1 7); (LInt 1, q 6 7)])].
(** all calls succeed *)
Definition logged (ops : list iop) : log := map (fun o => (o, true)) (List.rev ops).

Definition ready (ops : list iop) (obs : list (string * label)) : Prop :=
  exists e r, reached four ops e (logged ops) /\ Forall op_ok ops /\ engine_query ids e obs = Ok r /\ possible r.
Lemma ready_by ops obs u : Forall op_ok ops ->
  match engine_new four with
  | Ok e => snd (irun_log e ops []) = logged ops /\
      match engine_query ids (fst (irun_log e ops [])) obs with Ok r => match answer r u (LInt 0) with Some p => Qeq_bool p 0 = false | None => False end | Err _ => False end
  | Err _ => False
  end -> ready ops obs.
Proof.
  intros F. destruct (engine_new four) as [e|] eqn:E; [|intros []]. intros [L H]. destruct (engine_query ids (fst (irun_log e ops [])) obs) as [r|] eqn:Q; [|destruct H].
  exists (fst (irun_log e ops [])), r. split; [exists e; split; [exact E|rewrite <- L; apply surjective_pairing]|]. split; auto. split; auto.
  destruct (answer r u (LInt 0)) as [p|] eqn:A; [|destruct H]. exists u, (LInt 0), p. split; auto. intros ->. discriminate H.
Qed.

Lemma two_states (a b : Qc) : NoDup (map fst [(LInt 0, a); (LInt 1, b)]).
Proof. constructor; [intros [|[]]; discriminate|]. constructor; [intros []|constructor]. Qed.
Ltac ops_good := repeat (constructor; [cbn [op_ok arg_dict]; auto using two_states|]); constructor.

(** Rule 1: with X set, W tells nothing about X any more; without, it does. *)
Example C122_observations_met : ready do_x [] /\ ready do_x [("W", LInt 0)] /\ forced_on (logged do_x) ["X"] /\
  valid_obs (net_of four) ([] ++ [("W", LInt 0)] ++ []) /\ d_separated (without_into ["X"] (net_of four)) [] "W" "X" /\
  told (shown ids four [("W", LInt 0)]) "X" <> told (shown ids four []) "X".
Proof.
  split; [apply (ready_by _ _ "W"); [ops_good|vm_compute; auto]|]. split; [apply (ready_by _ _ "W"); [ops_good|vm_compute; auto]|].
  split; [|split; [apply valid_obs_sound; reflexivity|split; [apply dsep_sound; vm_compute; reflexivity|vm_compute; discriminate]]].
  intros v. cbn [logged do_x List.rev app map in_force andb In]. destruct (String.eqb_spec "X" v); intuition discriminate.
Qed.

(** Rule 2: with X set to 1 and W observed, setting Z to 0 and seeing Z = 0 are the same for Y. *)
Example C122_exchange_met : ready do_x ([("Z", LInt 0)] ++ [("W", LInt 1)]) /\ ready do_xz [("W", LInt 1)] /\
  forced_on (logged do_x) ["X"] /\ set_to (logged do_x) [("X", LInt 1)] /\
  (forall v, ~ In v (map fst [("Z", LInt 0)]) -> in_force (logged do_xz) v = in_force (logged do_x) v) /\
  in_force (logged do_x) "Z" = None /\ set_to (logged do_xz) [("Z", LInt 0)] /\
  valid_obs (net_of four) ([("X", LInt 1)] ++ [("Z", LInt 0)] ++ [("W", LInt 1)]) /\
  d_separated (without_from ["Z"] (without_into ["X"] (net_of four))) ["X"; "W"] "Z" "Y" /\
  ~ d_separated (without_into ["X"] (net_of four)) ["X"; "W"] "Z" "Y".
Proof.
  split; [apply (ready_by _ _ "Y"); [ops_good|vm_compute; auto]|]. split; [apply (ready_by _ _ "Y"); [ops_good|vm_compute; auto]|].
  split; [intros v; cbn [logged do_x List.rev app map in_force andb In]; destruct (String.eqb_spec "X" v); intuition discriminate|].
  split; [intros v x [[= <- <-]|[]]; exists (IvInt 1); split; reflexivity|].
  split; [intros v Nv; cbn [logged do_xz do_x List.rev app map in_force andb]; destruct (String.eqb "X" v); auto; destruct (String.eqb_spec "Z" v) as [<-|]; auto; exfalso; apply Nv; left; auto|].
  split; [reflexivity|]. split; [intros v x [[= <- <-]|[]]; eexists; split; [reflexivity|left; reflexivity]|].
  split; [apply valid_obs_sound; reflexivity|]. split; [apply dsep_sound; vm_compute; reflexivity|].
  intros H. apply (H ["Z"; "Y"]); [|cbn; split; [left; vm_compute; tauto|auto]]. split; [|split; reflexivity]. repeat constructor; cbn; intuition discriminate.
Qed.

(** Rule 3: with Z set to a distribution, setting X to one as well does not change W; but X and W are not separated. *)
Example C122_actions_met : ready do_z [] /\ ready do_zx [] /\ forced_on (logged do_z) ["Z"] /\
  (forall v, ~ In v ["X"] -> in_force (logged do_zx) v = in_force (logged do_z) v) /\ in_force (logged do_z) "X" = None /\
  (forall z, In z ["X"] <-> In z ["X"] /\ ~ exists w, In w (map (@fst string label) []) /\ path (parent_arrows (without_into ["Z"] (net_of four))) z w) /\
  d_separated (without_into (["Z"] ++ ["X"]) (net_of four)) [] "X" "W" /\ ~ d_separated (without_into ["Z"] (net_of four)) [] "X" "W".
Proof.
  split; [apply (ready_by _ _ "Y"); [ops_good|vm_compute; auto]|]. split; [apply (ready_by _ _ "Y"); [ops_good|vm_compute; auto]|].
  split; [intros v; cbn [logged do_z List.rev app map in_force andb In]; destruct (String.eqb_spec "Z" v); intuition discriminate|].
  split; [intros v Nv; cbn [logged do_zx do_z List.rev app map in_force andb]; destruct (String.eqb_spec "X" v) as [<-|]; auto; exfalso; apply Nv; left; auto|].
  split; [reflexivity|]. split; [intros z; split; [intros H; split; auto; intros (w & [] & _)|tauto]|]. split; [apply dsep_sound; vm_compute; reflexivity|].
  intros H. apply (H ["X"; "W"]); [|cbn; split; [right; vm_compute; tauto|auto]]. split; [|split; reflexivity]. repeat constructor; cbn; intuition discriminate.
Qed.
