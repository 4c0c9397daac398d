(** * PropsSample: property C86, the law of the samples of draw_samples. *)
From Coq Require Import List Bool Arith ZArith Lia String QArith Qcanon Permutation.
From Verif Require Import Base QcX Digraph BbnModel Kruskal InferModel InferSpec InferEngine InferOps InferMain InferThms InferCheck SampleModel InferWit PropsInfer SampleLaw.
Import ListNotations.
Local Open Scope string_scope.
Local Open Scope Qc_scope.
Local Open Scope list_scope.

(** [pk] are the choices of [random.choice] for one sample.  They fix the order [ord] in which the free
    variables are drawn.  For every world [w] that agrees with the observations, the random numbers that
    give [w] are those in a box; the volume of the box is the probability of [w] given the observations. *)
Theorem C86_law : forall bn obs (pk : nat -> nat), good_bn bn -> valid_obs (net_of bn) obs -> Pr (net_of bn) (observed obs) <> 0 ->
  exists ord : list string,
  NoDup ord /\ (forall v, In v ord <-> In v (vars (net_of bn)) /\ ~ In v (map fst obs)) /\
  forall w, valid_obs (net_of bn) w -> (forall v, In v (vars (net_of bn)) -> In v (map fst w)) -> incl obs w ->
  exists lo hi : nat -> Qc,
    (forall j, (j < List.length ord)%nat -> 0 <= lo j /\ lo j <= hi j /\ hi j <= 1) /\
    Qprod (fun j => hi j - lo j) (seq 0 (List.length ord)) = Pr (net_of bn) (observed w) / Pr (net_of bn) (observed obs) /\
    (** whatever the draws of the other samples and the iteration orders of sets *)
    forall (D : draws) n k e ss s, (forall i j, good_sched (scheds D i j)) -> (forall i j, 0 < rnd D i j /\ rnd D i j <= 1) ->
      (forall j, pick D k j = pk j) ->
      engine_new bn = Ok e -> draw_samples D (e_bbn e) obs n = Ok ss -> nth_error ss k = Some s ->
      map fst s = map fst obs ++ ord /\
      (Permutation s w <-> forall j, (j < List.length ord)%nat -> lo j < rnd D k j /\ rnd D k j <= hi j).
Proof. exact sample_law. Qed.
Print Assumptions C86_law.

(** The samples exist: [C07_samples_partial].  P(A = 1, C = 0 | B = y) = 3/4. *)
Example C86_run : let obs := [("B", LStr "y")] in let w := [("A", LInt 1); ("B", LStr "y"); ("C", LInt 0)] in
  good_bn collider /\ valid_obs (net_of collider) obs /\ Pr (net_of collider) (observed obs) <> 0 /\
  valid_obs (net_of collider) w /\ (forall v, In v (vars (net_of collider)) -> In v (map fst w)) /\ incl obs w /\
  Pr (net_of collider) (observed w) / Pr (net_of collider) (observed obs) = q 3 4 /\
  match engine_new collider with
  | Ok e => exists s s', draw_samples third (e_bbn e) obs 2 = Ok [s; s'] /\ Permutation s w /\ s <> w
  | Err _ => False end.
Proof.
  cbn zeta. split; [exact collider_good|]. split; [apply valid_obs_sound; reflexivity|]. split; [intros E; apply (f_equal this) in E; vm_compute in E; discriminate|].
  split; [apply valid_obs_sound; reflexivity|]. split; [intros v [<-|[<-|[<-|[]]]]; cbn; auto|]. split; [intros x [<-|[]]; cbn; auto|].
  split; [apply Qc_is_canon; vm_compute; reflexivity|].
  pose proof collider_samples as H. destruct (engine_new collider) as [e|]; [|exact H]. eexists. eexists. split; [exact H|]. split; [|discriminate].
  apply perm_swap.
Qed.
