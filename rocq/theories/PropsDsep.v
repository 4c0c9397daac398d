(** * PropsDsep: properties C90-C93 (d-separation, blocked back doors). *)
From Coq Require Import List Bool Arith ZArith Lia String QArith Qcanon Permutation Relations.
From Verif Require Import Base QcX Digraph BbnModel Kruskal InferModel InferSpec InferEngine InferOps InferMain InferThms InferCheck InferWit CausalDo CausalApi DsepSpec DsepCheck CausalBackApi PropsInfer PropsCausal.
Import ListNotations.
Local Open Scope string_scope.
Local Open Scope Qc_scope.
Local Open Scope list_scope.

(** A -> B -> C and A -> D -> C *)
Definition kite : bnet := mkBnet ["A"; "B"; "C"; "D"]
  [("A", mkFrame [LInt 0; LInt 1] [] [[]] [[q 1 4]; [q 3 4]]);
   ("B", mkFrame [LInt 0; LInt 1] ["A"] [[LInt 0]; [LInt 1]] [[q 1 2; q 1 3]; [q 1 2; q 2 3]]);
   ("C", mkFrame [LInt 0; LInt 1] ["B"; "D"]
      [[LInt 0; LInt 0]; [LInt 0; LInt 1]; [LInt 1; LInt 0]; [LInt 1; LInt 1]]
      [[q 1 2; q 1 3; q 1 4; q 1 2]; [q 1 2; q 2 3; q 3 4; q 1 2]]);
   ("D", mkFrame [LInt 0; LInt 1] ["A"] [[LInt 0]; [LInt 1]] [[q 1 5; q 3 5]; [q 4 5; q 2 5]])].
Example kite_good : good_bn kite.
Proof. apply good_bn_sound. vm_compute. reflexivity. Qed.

(** ** C90 *)

(** [d_separated N Z t u]: every trail between [t] and [u] is blocked by [Z] (DsepSpec.v). *)
Theorem C90_d_separation : forall bn e sc sc' obs extra r r' u s, good_bn bn -> engine_new bn = Ok e -> good_sched sc -> good_sched sc' ->
  valid_obs (net_of bn) (extra ++ obs) -> engine_query sc e obs = Ok r -> engine_query sc' e (extra ++ obs) = Ok r' ->
  ~ In u (map fst obs) -> (forall t, In t (map fst extra) -> d_separated (net_of bn) (map fst obs) t u) ->
  Pr (net_of bn) (observed (extra ++ obs)) <> 0 -> answer r' u s = answer r u s.
Proof. exact api_dsep. Qed.
Print Assumptions C90_d_separation.

(** B and D are separated by A, A and C by B and D; the collider C opens the way between B and D. *)
Example kite_separated : d_separated (net_of kite) ["A"] "D" "B" /\ d_separated (net_of kite) ["B"; "D"] "A" "C" /\
  ~ d_separated (net_of kite) ["A"; "C"] "D" "B" /\ ~ d_separated (net_of kite) [] "D" "B".
Proof.
  split; [apply dsep_sound; vm_compute; reflexivity|]. split; [apply dsep_sound; vm_compute; reflexivity|]. split.
  - intros H. apply (H ["D"; "C"; "B"]).
    + split; [|split; reflexivity]. repeat constructor; cbn; intuition discriminate.
    + cbn. split; [left; vm_compute; tauto|]. split; [|split; [right; vm_compute; tauto|auto]]. split; [intros _; exists "C"; cbn; auto|]. intros Q. exfalso. apply Q. split; vm_compute; tauto.
  - intros H. apply (H ["D"; "A"; "B"]).
    + split; [|split; reflexivity]. repeat constructor; cbn; intuition discriminate.
    + cbn. split; [right; vm_compute; tauto|]. split; [|split; [left; vm_compute; tauto|auto]]. split; [|intros _ []]. intros [Q _]. exfalso. revert Q. vm_compute. intuition discriminate.
Qed.
Example kite_irrelevant :
  told (shown ids kite [("D", LInt 0); ("A", LInt 1)]) "B" = told (shown ids kite [("A", LInt 1)]) "B" /\
  told (shown ids kite [("D", LInt 0)]) "B" <> told (shown ids kite []) "B" /\
  told (shown ids kite [("D", LInt 0); ("A", LInt 1); ("C", LInt 0)]) "B" <> told (shown ids kite [("A", LInt 1); ("C", LInt 0)]) "B" /\
  told (shown ids kite [("A", LInt 1); ("B", LInt 0); ("D", LInt 0)]) "C" = told (shown ids kite [("B", LInt 0); ("D", LInt 0)]) "C".
Proof. split; [|split; [|split]]; vm_compute; (reflexivity || discriminate). Qed.

(** ** C91 *)

(** [truncated N v d]: the network with the CPD of [v] replaced by the distribution [d]. *)
Theorem C91_far_intervention : forall bn e e' v c arg sc sc' obs r r', good_bn bn -> engine_new bn = Ok e -> arg_dict arg ->
  do_intervention e v arg = (e', Ok tt) -> In (v, c) (net_of bn) -> good_sched sc -> good_sched sc' -> valid_obs (net_of bn) obs ->
  engine_query sc e obs = Ok r -> engine_query sc' e' obs = Ok r' ->
  exists d, dist_arg (net_of bn) v arg d /\
    forall u s, ~ In u (map fst obs) -> ~ In v (map fst obs) -> d_separated (net_of bn) (map fst obs) v u ->
      Pr (net_of bn) (observed obs) <> 0 -> Pr (truncated (net_of bn) v d) (observed obs) <> 0 -> answer r' u s = answer r u s.
Proof. intros bn e e' v c arg sc sc' obs r r' G E AD ED I. exact (api_far_do bn e e' v c arg G E AD ED I sc sc' obs r r'). Qed.
Print Assumptions C91_far_intervention.

(** A is a cause of C, but with B and D observed changing it does not matter; with B alone it does. *)
Example kite_far :
  told (shown_after kite "A" (IvInt 1) [("B", LInt 0); ("D", LInt 0)]) "C" = told (shown ids kite [("B", LInt 0); ("D", LInt 0)]) "C" /\
  told (shown ids kite [("B", LInt 0); ("D", LInt 0)]) "C" <> None /\
  told (shown_after kite "A" (IvInt 1) [("B", LInt 0)]) "C" <> told (shown ids kite [("B", LInt 0)]) "C".
Proof. split; [|split]; vm_compute; (reflexivity || discriminate). Qed.

(** ** C92 *)

(** Every trail between [v] and [u] with an arrow into [v] is blocked. *)
Theorem C92_given_value : forall bn e e' v c arg sc sc' obs x r r', good_bn bn -> engine_new bn = Ok e -> arg_dict arg ->
  do_intervention e v arg = (e', Ok tt) -> In (v, c) (net_of bn) -> good_sched sc -> good_sched sc' -> valid_obs (net_of bn) ((v, x) :: obs) ->
  engine_query sc e ((v, x) :: obs) = Ok r -> engine_query sc' e' ((v, x) :: obs) = Ok r' ->
  exists d, dist_arg (net_of bn) v arg d /\
    forall u s, u <> v -> ~ In u (map fst obs) ->
      (forall b l, trail (v :: b :: l) v u -> arrow (net_of bn) b v -> ~ active (net_of bn) (map fst obs) (v :: b :: l)) ->
      weight_in d x <> 0 -> Pr (net_of bn) (observed ((v, x) :: obs)) <> 0 -> answer r' u s = answer r u s.
Proof. intros bn e e' v c arg sc sc' obs x r r' G E AD ED I. exact (api_given_value bn e e' v c arg G E AD ED I sc sc' obs x r r'). Qed.
Print Assumptions C92_given_value.

Theorem C92_doing_is_seeing : forall bn e e' v c arg sc sc' obs x r r' u s, good_bn bn -> engine_new bn = Ok e -> arg_dict arg ->
  do_intervention e v arg = (e', Ok tt) -> In (v, c) (net_of bn) ->
  good_sched sc -> good_sched sc' -> valid_obs (net_of bn) ((v, x) :: obs) ->
  match arg with IvInt z => x = LInt z | IvDict d => In (x, 1) d | IvOther => False end ->
  engine_query sc e ((v, x) :: obs) = Ok r -> engine_query sc' e' obs = Ok r' ->
  u <> v -> ~ In u (map fst obs) ->
  (forall b l, trail (v :: b :: l) v u -> arrow (net_of bn) b v -> ~ active (net_of bn) (map fst obs) (v :: b :: l)) ->
  Pr (net_of bn) (observed ((v, x) :: obs)) <> 0 -> answer r' u s = answer r u s.
Proof. intros bn e e' v c arg sc sc' obs x r r' u s G E AD ED I. exact (api_back_door_see bn e e' v c arg G E AD ED I sc sc' obs x r r' u s). Qed.
Print Assumptions C92_doing_is_seeing.

(** D blocks the only back door of B to C, B <- A -> D -> C, though the parent of B is A; nothing blocks it when nothing is observed. *)
Example kite_back_door : back_door (net_of kite) ["D"] "B" "C" /\ ~ back_door (net_of kite) [] "B" "C".
Proof.
  split; [apply back_door_sound; vm_compute; reflexivity|]. intros [_ H]. apply (H "A" ["D"; "C"]).
  - split; [|split; reflexivity]. repeat constructor; cbn; intuition discriminate.
  - vm_compute. tauto.
  - cbn. split; [right; vm_compute; tauto|]. split; [split; [|intros _ []]; intros [Q _]; exfalso; revert Q; vm_compute; intuition discriminate|].
    split; [left; vm_compute; tauto|]. split; [split; [|intros _ []]; intros [_ Q]; exfalso; revert Q; vm_compute; intuition discriminate|]. split; [left; vm_compute; tauto|auto].
Qed.
Example kite_do_see :
  told (shown_after kite "B" (IvInt 1) [("D", LInt 0)]) "C" = told (shown ids kite [("B", LInt 1); ("D", LInt 0)]) "C" /\
  told (shown ids kite [("B", LInt 1); ("D", LInt 0)]) "C" <> None /\
  told (shown_after kite "B" (IvInt 1) []) "C" <> told (shown ids kite [("B", LInt 1)]) "C" /\
  told (shown_after kite "B" (IvDict [(LInt 0, q 1 3); (LInt 1, q 2 3)]) [("B", LInt 1); ("D", LInt 0)]) "C" = told (shown ids kite [("B", LInt 1); ("D", LInt 0)]) "C".
Proof. split; [|split; [|split]]; vm_compute; (reflexivity || discriminate). Qed.

(** ** C93 *)

Theorem C93_back_door : forall bn e e' v c arg sc r Z, good_bn bn -> engine_new bn = Ok e -> arg_dict arg ->
  do_intervention e v arg = (e', Ok tt) -> In (v, c) (net_of bn) -> good_sched sc -> engine_query sc e' [] = Ok r ->
  NoDup Z -> incl Z (vars (net_of bn)) ->
  exists d, dist_arg (net_of bn) v arg d /\
    ((forall x o, In x (states c) -> weight_in d x <> 0 -> In o (settings (net_of bn) Z) ->
        Pr (net_of bn) (observed o) <> 0 -> Pr (net_of bn) (observed ((v, x) :: o)) <> 0) ->
     forall u s, In u (vars (net_of bn)) -> In s (states_of (net_of bn) u) -> u <> v -> ~ In u Z -> back_door (net_of bn) Z v u ->
       answer r u s = Some (Qsum (fun x => weight_in d x *
         Qsum (fun o => Pr (net_of bn) (observed o) * cond_prob (net_of bn) ((v, x) :: o) u s) (settings (net_of bn) Z)) (states c))).
Proof. intros bn e e' v c arg sc r Z G E AD ED I. exact (api_back_door_adjust bn e e' v c arg G E AD ED I sc r Z). Qed.
Print Assumptions C93_back_door.

(** P(D = 0) = 1/2, so P(C = 0 | do(B = 1)) = 1/2 * 1/4 + 1/2 * 1/2 = 3/8. *)
Example kite_adjust :
  told (shown_after kite "B" (IvInt 1) []) "C" = Some [(LInt 0, 3 # 8); (LInt 1, 5 # 8)] /\
  told (shown ids kite []) "D" = Some [(LInt 0, 1 # 2); (LInt 1, 1 # 2)] /\
  told (shown ids kite [("B", LInt 1); ("D", LInt 0)]) "C" = Some [(LInt 0, 1 # 4); (LInt 1, 3 # 4)] /\
  told (shown ids kite [("B", LInt 1); ("D", LInt 1)]) "C" = Some [(LInt 0, 1 # 2); (LInt 1, 1 # 2)] /\
  settings (net_of kite) ["D"] = [[("D", LInt 0)]; [("D", LInt 1)]] /\
  forallb (fun x => forallb (fun o => negb (Qc_eq_bool (Pr (net_of kite) (observed (("B", x) :: o))) 0)) (settings (net_of kite) ["D"])) [LInt 0; LInt 1] = true.
Proof. repeat split; vm_compute; reflexivity. Qed.
