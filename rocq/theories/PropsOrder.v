(** * PropsOrder: property C111 (only the interventions in force matter). *)
From Coq Require Import List Bool Arith ZArith Lia String QArith Qcanon Permutation Relations.
From Verif Require Import Base QcX Digraph BbnModel Kruskal InferModel InferSpec InferEngine InferOps InferMain InferThms InferCheck InferWit InferOrder.
Import ListNotations.
Local Open Scope string_scope.
Local Open Scope Qc_scope.
Local Open Scope list_scope.

(** Whatever calls two engines of one network went through (interventions, resets, queries; accepted
    or refused, in whatever order): if the interventions in force ask for the same distributions, every
    query has the same answer. *)
Theorem C111_in_force : forall bn ops e past ops' e' past', good_bn bn -> Forall op_ok ops -> Forall op_ok ops' ->
  reached bn ops e past -> reached bn ops' e' past' -> same_force (net_of bn) past past' ->
  forall sc sc' obs r, good_sched sc -> good_sched sc' -> valid_obs (net_of bn) obs ->
    engine_query sc e obs = Ok r ->
    exists r', engine_query sc' e' obs = Ok r' /\ forall v s, answer r' v s = answer r v s.
Proof. exact same_answers. Qed.
Print Assumptions C111_in_force.

(** Two interventions on different variables, accepted one after the other and leaving an engine that
    answers some query, are accepted in the other order as well, and every answer is the same. *)
Theorem C111_commute : forall bn ops e past u a v b e1 e2 sc0 obs0 r0,
  good_bn bn -> Forall op_ok ops -> reached bn ops e past -> u <> v -> arg_dict a -> arg_dict b ->
  do_intervention e u a = (e1, Ok tt) -> do_intervention e1 v b = (e2, Ok tt) ->
  good_sched sc0 -> engine_query sc0 e2 obs0 = Ok r0 ->
  exists e3 e4, do_intervention e v b = (e3, Ok tt) /\ do_intervention e3 u a = (e4, Ok tt) /\
    forall sc sc' obs r, good_sched sc -> good_sched sc' -> valid_obs (net_of bn) obs -> engine_query sc e2 obs = Ok r ->
      exists r', engine_query sc' e4 obs = Ok r' /\ forall x s, answer r' x s = answer r x s.
Proof.
  intros bn ops e past u a v b e1 e2 sc0 obs0 r0 G FA RE.
  exact (do_swap bn ops e past G FA RE u a v b e1 e2 sc0 obs0 r0).
Qed.
Print Assumptions C111_commute.

(** The last intervention on a variable is the one that counts. *)
Theorem C111_last_wins : forall bn ops e past u a b e1 e2 e3,
  good_bn bn -> Forall op_ok ops -> reached bn ops e past -> arg_dict a -> arg_dict b ->
  do_intervention e u a = (e1, Ok tt) -> do_intervention e1 u b = (e2, Ok tt) -> do_intervention e u b = (e3, Ok tt) ->
  forall sc sc' obs r, good_sched sc -> good_sched sc' -> valid_obs (net_of bn) obs -> engine_query sc e2 obs = Ok r ->
    exists r', engine_query sc' e3 obs = Ok r' /\ forall x s, answer r' x s = answer r x s.
Proof.
  intros bn ops e past u a b e1 e2 e3 G FA RE. exact (do_last_wins bn ops e past G FA RE u a b e1 e2 e3).
Qed.
Print Assumptions C111_last_wins.

(** [do_intervention(node, 1)] and [do_intervention(node, {0: 0, 1: 1})] act the same, and the order in
    which a dictionary lists the states does not matter. *)
Theorem C111_state_or_dict : forall bn ops e past u a b e1 e2,
  good_bn bn -> Forall op_ok ops -> reached bn ops e past -> arg_dict a -> arg_dict b ->
  (forall s, In s (states_of (net_of bn) u) -> wish a s = wish b s) ->
  do_intervention e u a = (e1, Ok tt) -> do_intervention e u b = (e2, Ok tt) ->
  forall sc sc' obs r, good_sched sc -> good_sched sc' -> valid_obs (net_of bn) obs -> engine_query sc e1 obs = Ok r ->
    exists r', engine_query sc' e2 obs = Ok r' /\ forall x s, answer r' x s = answer r x s.
Proof.
  intros bn ops e past u a b e1 e2 G FA RE. exact (do_same_wish bn ops e past G FA RE u a b e1 e2).
Qed.
Print Assumptions C111_state_or_dict.

(** Without the query the order decides what is accepted: in A -> B -> C, [do(A)] then [do(B)] are both
    accepted, but after [do(B)] the call [do(A)] raises. *)
Theorem C111_acceptance_refuted : exists bn e u a v b e1 e2 e3,
  good_bn bn /\ engine_new bn = Ok e /\ u <> v /\ arg_dict a /\ arg_dict b /\
  do_intervention e u a = (e1, Ok tt) /\ do_intervention e1 v b = (e2, Ok tt) /\
  do_intervention e v b = (e3, Ok tt) /\ snd (do_intervention e3 u a) = Err ValueError.
Proof.
  destruct (run_engine chain (fun e =>
    let r1 := do_intervention e "A" (IvInt 0) in let r2 := do_intervention (fst r1) "B" (IvInt 1) in
    let r3 := do_intervention e "B" (IvInt 1) in
    snd r1 = Ok tt /\ snd r2 = Ok tt /\ snd r3 = Ok tt /\ snd (do_intervention (fst r3) "A" (IvInt 0)) = Err ValueError))
    as (e & E & H1 & H2 & H3 & H4).
  { vm_compute. auto. }
  exists chain, e, "A", (IvInt 0), "B", (IvInt 1). eexists. eexists. eexists.
  split; [apply good_bn_sound; vm_compute; reflexivity|]. split; [exact E|]. split; [discriminate|].
  split; [exact Logic.I|]. split; [exact Logic.I|].
  split; [rewrite <- H1; apply surjective_pairing|]. split; [rewrite <- H2; apply surjective_pairing|].
  split; [rewrite <- H3; apply surjective_pairing|]. exact H4.
Qed.
Print Assumptions C111_acceptance_refuted.

(** ** Instances *)

(** Two histories over A -> B -> C, A -> C: in one A is set, B is set twice, a query is asked; in the
    other B is set to a distribution listed in another order, a call is refused, B is reset, set again,
    and A is set last. *)
Definition way1 : list iop := [OpDo "A" (IvInt 1); OpDo "B" (IvInt 0); OpQuery []; OpDo "B" (IvDict [(LInt 0, q 1 4); (LInt 1, q 3 4)])].
Definition way2 : list iop := [OpDo "B" (IvDict [(LInt 1, q 1 2); (LInt 0, q 1 2)]); OpDo "B" (IvInt 7); OpReset "B";
  OpDo "B" (IvDict [(LInt 1, q 3 4); (LInt 0, q 1 4)]); OpDo "A" (IvDict [(LInt 0, 0); (LInt 1, 1)])].


Example two_ways : exists e past e' past' r, reached triangle way1 e past /\ reached triangle way2 e' past' /\
  Forall op_ok way1 /\ Forall op_ok way2 /\ same_force (net_of triangle) past past' /\
  map snd past = [true; true; true; true] /\ map snd past' = [true; true; true; false; true] /\
  engine_query ids e [("C", LInt 0)] = Ok r.
Proof.
  destruct (run_engine triangle (fun e =>
    snd (irun_log e way1 []) = combine (List.rev way1) [true; true; true; true] /\
    snd (irun_log e way2 []) = combine (List.rev way2) [true; true; true; false; true] /\
    exists r, engine_query ids (fst (irun_log e way1 [])) [("C", LInt 0)] = Ok r)) as (e & E & P1 & P2 & r & R).
  { split; [vm_compute; reflexivity|]. split; [vm_compute; reflexivity|]. eexists. vm_compute. reflexivity. }
  exists (fst (irun_log e way1 [])), (snd (irun_log e way1 [])), (fst (irun_log e way2 [])), (snd (irun_log e way2 [])), r.
  split; [exists e; split; [exact E|apply surjective_pairing]|]. split; [exists e; split; [exact E|apply surjective_pairing]|].
  assert (N2 : forall a b : Qc, NoDup (map fst [(LInt 0, a); (LInt 1, b)])).
  { intros a b. constructor; [intros [|[]]; discriminate|]. constructor; [intros []|constructor]. }
  assert (N3 : forall a b : Qc, NoDup (map fst [(LInt 1, a); (LInt 0, b)])).
  { intros a b. constructor; [intros [|[]]; discriminate|]. constructor; [intros []|constructor]. }
  split; [repeat (constructor; [cbn [op_ok arg_dict]; auto|]); constructor|].
  split; [repeat (constructor; [cbn [op_ok arg_dict]; auto|]); constructor|].
  rewrite P1, P2. split; [|split; [reflexivity|split; [reflexivity|exact R]]].
  intros v. cbn [in_force combine List.rev app andb way1 way2].
  destruct (String.eqb_spec "B" v) as [<-|nB].
  - cbn [String.eqb Ascii.eqb Bool.eqb]. intros s [<-|[<-|[]]]; apply Qc_is_canon; vm_compute; reflexivity.
  - destruct (String.eqb_spec "A" v) as [<-|nA]; auto.
    intros s [<-|[<-|[]]]; apply Qc_is_canon; vm_compute; reflexivity.
Qed.

(** The refused call and the reset are really there: the same answers again. *)
Example two_ways_answers : forall e past e' past' r, reached triangle way1 e past -> reached triangle way2 e' past' ->
  Forall op_ok way1 -> Forall op_ok way2 -> same_force (net_of triangle) past past' ->
  engine_query ids e [("C", LInt 0)] = Ok r ->
  exists r', engine_query revs e' [("C", LInt 0)] = Ok r' /\ forall v s, answer r' v s = answer r v s.
Proof.
  intros e past e' past' r R1 R2 F1 F2 S E.
  refine (C111_in_force triangle way1 e past way2 e' past' _ F1 F2 R1 R2 S ids revs _ r ids_good revs_good _ E).
  - apply good_bn_sound. vm_compute. reflexivity.
  - apply valid_obs_sound. reflexivity.
Qed.

Example triangle_commute : exists e e1 e2 r, engine_new triangle = Ok e /\
  do_intervention e "A" (IvInt 1) = (e1, Ok tt) /\ do_intervention e1 "B" (IvInt 0) = (e2, Ok tt) /\
  engine_query ids e2 [] = Ok r.
Proof.
  destruct (run_engine triangle (fun e => let r1 := do_intervention e "A" (IvInt 1) in let r2 := do_intervention (fst r1) "B" (IvInt 0) in
    snd r1 = Ok tt /\ snd r2 = Ok tt /\ exists r, engine_query ids (fst r2) [] = Ok r)) as (e & E & H1 & H2 & r & R).
  { split; [vm_compute; auto|]. split; [vm_compute; auto|]. eexists. vm_compute. reflexivity. }
  exists e. eexists. eexists. exists r. split; [exact E|]. split; [rewrite <- H1; apply surjective_pairing|].
  split; [rewrite <- H2; apply surjective_pairing|]. exact R.
Qed.

(** [do(B = 1)] as a state and as a dictionary listing the states backwards. *)
Example triangle_dict : exists e e1 e2, engine_new triangle = Ok e /\
  do_intervention e "B" (IvInt 1) = (e1, Ok tt) /\ do_intervention e "B" (IvDict [(LInt 1, 1); (LInt 0, 0)]) = (e2, Ok tt) /\
  forall s, In s (states_of (net_of triangle) "B") -> wish (IvInt 1) s = wish (IvDict [(LInt 1, 1); (LInt 0, 0)]) s.
Proof.
  destruct (run_engine triangle (fun e => snd (do_intervention e "B" (IvInt 1)) = Ok tt /\
    snd (do_intervention e "B" (IvDict [(LInt 1, 1); (LInt 0, 0)])) = Ok tt)) as (e & E & H1 & H2).
  { vm_compute. auto. }
  exists e. eexists. eexists. split; [exact E|]. split; [rewrite <- H1; apply surjective_pairing|].
  split; [rewrite <- H2; apply surjective_pairing|]. intros s [<-|[<-|[]]]; reflexivity.
Qed.

(** An intervention replaced by another one. *)
Example triangle_last : exists e e1 e2 e3 r, engine_new triangle = Ok e /\
  do_intervention e "B" (IvInt 1) = (e1, Ok tt) /\ do_intervention e1 "B" (IvInt 0) = (e2, Ok tt) /\
  do_intervention e "B" (IvInt 0) = (e3, Ok tt) /\ engine_query ids e2 [("C", LInt 0)] = Ok r.
Proof.
  destruct (run_engine triangle (fun e => let r1 := do_intervention e "B" (IvInt 1) in let r2 := do_intervention (fst r1) "B" (IvInt 0) in
    snd r1 = Ok tt /\ snd r2 = Ok tt /\ snd (do_intervention e "B" (IvInt 0)) = Ok tt /\
    exists r, engine_query ids (fst r2) [("C", LInt 0)] = Ok r)) as (e & E & H1 & H2 & H3 & r & R).
  { split; [vm_compute; auto|]. split; [vm_compute; auto|]. split; [vm_compute; auto|]. eexists. vm_compute. reflexivity. }
  exists e. eexists. eexists. eexists. exists r. split; [exact E|]. split; [rewrite <- H1; apply surjective_pairing|].
  split; [rewrite <- H2; apply surjective_pairing|]. split; [rewrite <- H3; apply surjective_pairing|]. exact R.
Qed.
