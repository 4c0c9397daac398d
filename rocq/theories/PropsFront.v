(** * PropsFront: property C107 (front-door adjustment). *)
From Coq Require Import List Bool Arith ZArith Lia String QArith Qcanon Permutation Relations.
From Verif Require Import Base QcX Digraph BbnModel Kruskal InferModel InferSpec InferEngine InferOps InferMain InferThms InferCheck InferWit CausalDo CausalApi DsepSpec DsepCheck CausalFront CausalFrontApi PropsInfer PropsCausal.
Import ListNotations.
Local Open Scope string_scope.
Local Open Scope Qc_scope.
Local Open Scope list_scope.

(** [says sc e obs u s]: the probability of [u] = [s] in the answer of [e] to the query [obs].  The right-hand side asks
    only the engine without the intervention, and never about other variables than [v], [m] and [u]. *)
Theorem C107_front_door : forall bn e e' v m c cm arg sc r x, good_bn bn -> engine_new bn = Ok e -> arg_dict arg ->
  do_intervention e v arg = (e', Ok tt) -> In (v, c) (net_of bn) -> In (m, cm) (net_of bn) -> In x (states c) ->
  match arg with IvInt z => x = LInt z | IvDict d => In (x, 1) d | IvOther => False end ->
  good_sched sc -> engine_query sc e' [] = Ok r ->
  says sc e [] v x <> 0 ->
  (forall y x', In y (states cm) -> In x' (states c) -> says sc e [(v, x)] m y <> 0 -> says sc e [] v x' <> 0 -> says sc e [(v, x')] m y <> 0) ->
  forall u s, In u (vars (net_of bn)) -> In s (states_of (net_of bn) u) -> v <> m -> v <> u -> m <> u -> front_door (net_of bn) v m u ->
    answer r u s = Some (Qsum (fun y => says sc e [(v, x)] m y *
      Qsum (fun x' => says sc e [] v x' * says sc e [(m, y); (v, x')] u s) (states c)) (states cm)).
Proof. exact api_front_door. Qed.
Print Assumptions C107_front_door.

(** X -> M -> Y with a common cause U of X and Y. *)
Definition front : bnet := mkBnet ["M"; "U"; "X"; "Y"]
  [("M", mkFrame [LInt 0; LInt 1] ["X"] [[LInt 0]; [LInt 1]] [[q 3 4; q 1 3]; [q 1 4; q 2 3]]);
   ("U", mkFrame [LInt 0; LInt 1] [] [[]] [[q 1 3]; [q 2 3]]);
   ("X", mkFrame [LInt 0; LInt 1] ["U"] [[LInt 0]; [LInt 1]] [[q 1 4; q 1 2]; [q 3 4; q 1 2]]);
   ("Y", mkFrame [LInt 0; LInt 1] ["M"; "U"]
      [[LInt 0; LInt 0]; [LInt 0; LInt 1]; [LInt 1; LInt 0]; [LInt 1; LInt 1]]
      [[q 1 2; q 1 3; q 1 4; q 1 2]; [q 1 2; q 2 3; q 3 4; q 1 2]])].
Example front_good : good_bn front.
Proof. apply good_bn_sound. vm_compute. reflexivity. Qed.

(** No set of other observed variables than U closes the back door X <- U -> Y; M meets the front-door criterion. *)
Example front_met : front_door (net_of front) "X" "M" "Y" /\ ~ back_door (net_of front) [] "X" "Y".
Proof.
  split.
  - split; [|split; apply back_door_sound; vm_compute; reflexivity].
    change (arrows_not_into "M" (net_of front)) with [("U", "X"); ("M", "Y"); ("U", "Y")].
    intros P. inversion P as [a b I|a b z I P']; subst; cbn in I; decompose [or] I; try tauto; congruence.
  - intros [_ H]. apply (H "U" ["Y"]).
    + split; [|split; reflexivity]. repeat constructor; cbn; intuition discriminate.
    + vm_compute. tauto.
    + cbn. split; [right; vm_compute; tauto|]. split; [split; [|intros _ []]; intros [Q _]; exfalso; revert Q; vm_compute; intuition discriminate|]. split; [left; vm_compute; tauto|auto].
Qed.

Definition front_says obs u s : Q := match engine_new front with Ok e => this (says ids e obs u s) | Err _ => 0%Q end.
(** P(Y = 0 | do(X = 1)) = 11/27, while P(Y = 0 | X = 1) = 25/63. *)
Example front_values :
  told (shown_after front "X" (IvInt 1) []) "Y" = Some [(LInt 0, 11 # 27); (LInt 1, 16 # 27)] /\
  front_says [("X", LInt 1)] "Y" (LInt 0) = 25 # 63 /\
  forallb (fun y => forallb (fun x => negb (Qeq_bool (front_says [("X", LInt x)] "M" (LInt y)) 0)) [0; 1]%Z) [0; 1]%Z = true /\
  (forallb (fun x => negb (Qeq_bool (front_says [] "X" (LInt x)) 0)) [0; 1]%Z) = true.
Proof. vm_compute. repeat split. Qed.
