(** * CausalFrontApi: front-door adjustment for InferenceEngine. *)
From Coq Require Import List Bool Arith ZArith Lia String QArith Qcanon Permutation Relations.
From Verif Require Import Base QcX Digraph BbnModel Kruskal JtConv SumOver InferModel InferSpec InferProofs InferEngine InferOps InferMain InferThms CausalCore CausalThms CausalDo CausalSep CausalApi DsepSpec CausalTrail CausalBack CausalBackApi CausalFront.
Import ListNotations.
Local Open Scope Qc_scope.
Local Open Scope list_scope.

(** What the engine says about state [s] of [u] given the observations. *)
Definition says (sc : sched) (e : eng) (obs : list (string * label)) (u : string) (s : label) : Qc :=
  match engine_query sc e obs with
  | Ok r => match answer r u s with Some p => p | None => 0 end
  | Err _ => 0
  end.

Lemma says_cond bn e sc obs u s : good_bn bn -> engine_new bn = Ok e -> good_sched sc -> valid_obs (net_of bn) obs ->
  In u (vars (net_of bn)) -> In s (states_of (net_of bn) u) -> says sc e obs u s = cond_prob (net_of bn) obs u s.
Proof.
  intros G E GS VO Hu Hs. destruct (query_exact bn sc obs G GS VO) as (e2 & r & E2 & Q & _ & A & _). rewrite E in E2. injection E2 as <-.
  unfold says. rewrite Q, (A u s Hu Hs). auto.
Qed.

Lemma api_front_door bn e e' v m c cm arg sc r x : good_bn bn -> engine_new bn = Ok e -> arg_dict arg ->
  do_intervention e v arg = (e', Ok tt) -> In (v, c) (net_of bn) -> In (m, cm) (net_of bn) -> In x (states c) -> all_on arg x ->
  good_sched sc -> engine_query sc e' [] = Ok r ->
  says sc e [] v x <> 0 ->
  (forall y x', In y (states cm) -> In x' (states c) -> says sc e [(v, x)] m y <> 0 -> says sc e [] v x' <> 0 -> says sc e [(v, x')] m y <> 0) ->
  forall u s, In u (vars (net_of bn)) -> In s (states_of (net_of bn) u) -> v <> m -> v <> u -> m <> u -> front_door (net_of bn) v m u ->
    answer r u s = Some (Qsum (fun y => says sc e [(v, x)] m y * Qsum (fun x' => says sc e [] v x' * says sc e [(m, y); (v, x')] u s) (states c)) (states cm)).
Proof.
  intros G E AD ED Iv Im Hx AO GS Q Px Pos u s Hu Hs Nvm Nvu Nmu FD.
  destruct (new_do bn e e' v c arg G E AD ED Iv) as (d & DA & DO & SO' & CS' & An). pose proof G as (_ & SO & CS & NO & _).
  destruct (all_on_weights bn e e' v c arg G AD ED Iv d x DA DO AO Hx) as [W1 W0].
  assert (V0 : valid_obs (net_of bn) []) by (split; [constructor|intros ? ? []]).
  pose proof (in_vars _ v c Iv) as Hv. pose proof (in_vars _ m cm Im) as Hm.
  pose proof (states_of_In _ v c (ok_vars _ SO) Iv) as Sv. pose proof (states_of_In _ m cm (ok_vars _ SO) Im) as Sm.
  assert (V1 : forall x', In x' (states c) -> valid_obs (net_of bn) [(v, x')]).
  { intros x' Hx'. split; [repeat constructor; cbn; tauto|]. intros a b [[= <- <-]|[]]. rewrite Sv. auto. }
  assert (V2 : forall y x', In y (states cm) -> In x' (states c) -> valid_obs (net_of bn) [(m, y); (v, x')]).
  { intros y x' Hy Hx'. split; [cbn; repeat constructor; cbn; intuition|]. intros a b [[= <- <-]|[[= <- <-]|[]]]; rewrite ?Sv, ?Sm; auto. }
  assert (C0 : forall x', In x' (states c) -> says sc e [] v x' = Pr (net_of bn) (observed [(v, x')])).
  { intros x' Hx'. rewrite (says_cond bn) by (auto; rewrite Sv; auto). rewrite cond_prob_nothing by auto. apply Pr_ext. intros w _. unfold is_. cbn [observed forallb fst snd andb]. rewrite andb_true_r. auto. }
  assert (C1 : forall x' y, In x' (states c) -> In y (states cm) -> says sc e [(v, x')] m y = cond_prob (net_of bn) [(v, x')] m y).
  { intros x' y Hx' Hy. apply says_cond; auto. rewrite Sm. auto. }
  destruct (An sc [] r GS V0 Q) as [A _]. rewrite (A u s Hu Hs). f_equal.
  rewrite (front_door_adjust (net_of bn) v m u c cm d x SO CS Iv Im Hu Nvm Nvu Nmu FD DO Hx W1 W0).
  - apply Qsum_ext. intros y Hy. rewrite C1 by auto. f_equal. apply Qsum_ext. intros x' Hx'. rewrite C0 by auto. f_equal. symmetry. apply says_cond; auto.
  - rewrite <- C0; auto.
  - intros y x' Hy Hx' Cy Px'. rewrite <- C1 in Cy by auto. rewrite <- C0 in Px' by auto. pose proof (Pos y x' Hy Hx' Cy Px') as P. rewrite C1 in P by auto. rewrite C0 in Px' by auto.
    intros Z. apply P. unfold cond_prob. destruct (Qc_eq_bool_spec (Pr (net_of bn) (observed [(v, x')])) 0) as [|_]; [congruence|].
    replace (Pr_and (net_of bn) [(v, x')] m y) with (Pr (net_of bn) (observed [(m, y); (v, x')])); [rewrite Z; unfold Qcdiv; ring|].
    apply Pr_ext. intros w _. unfold is_. cbn [observed forallb fst snd]. rewrite !andb_true_r. apply andb_comm.
Qed.
