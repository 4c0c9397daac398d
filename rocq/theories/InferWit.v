(** * InferWit: example networks and witnesses for PropsInfer. *)
From Coq Require Import List Bool Arith ZArith Lia String QArith Qcanon Permutation Relations.
From Verif Require Import Base QcX Digraph BbnModel Kruskal InferModel InferSpec InferEngine InferOps InferMain InferThms InferCheck SampleModel.
Import ListNotations.
Local Open Scope Qc_scope.
Local Open Scope list_scope.
Local Open Scope string_scope.

(** ** Example networks *)
Definition q (a : Z) (b : positive) : Qc := Q2Qc (a # b).
Definition ids : sched := mkSched (fun l => l) (fun _ _ l => l).
Definition revs : sched := mkSched (fun l => rev l) (fun _ _ l => rev l).
Lemma ids_good : good_sched ids.
Proof. split; intros; apply Permutation_refl. Qed.
Lemma revs_good : good_sched revs.
Proof. split; intros; apply Permutation_rev. Qed.

(** A -> C <- B; C has three states; some entries are zero. *)
Definition collider : bnet := mkBnet ["A"; "B"; "C"]
  [("A", mkFrame [LInt 0; LInt 1] [] [[]] [[q 1 4]; [q 3 4]]);
   ("B", mkFrame [LStr "x"; LStr "y"] [] [[]] [[q 1 3]; [q 2 3]]);
   ("C", mkFrame [LInt 0; LInt 1; LInt 2] ["A"; "B"]
      [[LInt 0; LStr "x"]; [LInt 0; LStr "y"]; [LInt 1; LStr "x"]; [LInt 1; LStr "y"]]
      [[q 1 2; 0; q 1 5; 1]; [q 1 2; q 1 2; q 1 5; 0]; [0; q 1 2; q 3 5; 0]])].

(** A -> B -> C *)
Definition chain : bnet := mkBnet ["A"; "B"; "C"]
  [("A", mkFrame [LInt 0; LInt 1] [] [[]] [[q 1 4]; [q 3 4]]);
   ("B", mkFrame [LInt 0; LInt 1] ["A"] [[LInt 0]; [LInt 1]] [[q 1 2; q 1 3]; [q 1 2; q 2 3]]);
   ("C", mkFrame [LInt 0; LInt 1] ["B"] [[LInt 0]; [LInt 1]] [[q 1 2; q 1 3]; [q 1 2; q 2 3]])].

(** A -> B -> C with A -> C: cutting A -> B leaves it connected. *)
Definition triangle : bnet := mkBnet ["A"; "B"; "C"]
  [("A", mkFrame [LInt 0; LInt 1] [] [[]] [[q 1 4]; [q 3 4]]);
   ("B", mkFrame [LInt 0; LInt 1] ["A"] [[LInt 0]; [LInt 1]] [[q 1 2; q 1 3]; [q 1 2; q 2 3]]);
   ("C", mkFrame [LInt 0; LInt 1] ["A"; "B"]
      [[LInt 0; LInt 0]; [LInt 0; LInt 1]; [LInt 1; LInt 0]; [LInt 1; LInt 1]]
      [[q 1 2; q 1 3; q 1 4; 1]; [q 1 2; q 2 3; q 3 4; 0]])].

Definition zeros : draws := mkDraws (fun i j => 1%nat) (fun _ _ => 0) (fun _ _ => ids).
Definition half : draws := mkDraws (fun i j => 1%nat) (fun _ j => match j with O => 0 | _ => q 1 2 end) (fun _ _ => ids).
Definition third : draws := mkDraws (fun i j => i) (fun _ _ => q 1 3) (fun _ _ => ids).

Lemma run_engine bn (P : eng -> Prop) : match engine_new bn with Ok e => P e | Err _ => False end ->
  exists e, engine_new bn = Ok e /\ P e.
Proof. destruct (engine_new bn); [eauto|tauto]. Qed.

Definition valid_obs_b (N : net) (obs : list (string * label)) : bool :=
  nodupb String.eqb (map fst obs) &&
  forallb (fun vx => smem (fst vx) (vars N) && lmem (snd vx) (states_of N (fst vx))) obs.

Lemma valid_obs_sound N obs : valid_obs_b N obs = true -> valid_obs N obs.
Proof.
  unfold valid_obs_b. rewrite andb_true_iff, forallb_forall. intros [A B]. split.
  - apply (nodupb_sound _ String.eqb_spec); auto.
  - intros v x Hin. specialize (B _ Hin). cbn [fst snd] in B. apply andb_true_iff in B as [B1 B2].
    apply smem_In in B1. apply lmem_In in B2. auto.
Qed.

(** A state of probability zero that comes first in its domain. *)
Definition rare : bnet := mkBnet ["A"; "B"]
  [("A", mkFrame [LInt 0; LInt 1] [] [[]] [[0]; [1]]);
   ("B", mkFrame [LInt 0; LInt 1] ["A"] [[LInt 0]; [LInt 1]] [[q 1 2; q 1 3]; [q 1 2; q 2 3]])].

Lemma rare_good : good_bn rare.
Proof. apply good_bn_sound. vm_compute. reflexivity. Qed.

Lemma zero_draw :
  exists bn D obs e s, good_bn bn /\ (forall i j, good_sched (scheds D i j)) /\
    (forall i j, 0 <= rnd D i j /\ rnd D i j < 1) /\ valid_obs (net_of bn) obs /\
    Pr (net_of bn) (observed obs) <> 0 /\ engine_new bn = Ok e /\
    draw_samples D (e_bbn e) obs 1 = Ok [s] /\ Pr (net_of bn) (observed s) = 0.
Proof.
  exists rare, zeros, [].
  destruct (run_engine rare (fun e => draw_samples zeros (e_bbn e) [] 1 = Ok [[("B", LInt 0); ("A", LInt 0)]])) as (e & E & H).
  { vm_compute. reflexivity. }
  exists e, [("B", LInt 0); ("A", LInt 0)].
  split; [exact rare_good|]. split; [intros; apply ids_good|]. split; [intros; cbn; split; [discriminate|reflexivity]|].
  split; [apply valid_obs_sound; reflexivity|]. split; [|split; [exact E|split; [exact H|]]].
  - intros H'. apply (f_equal this) in H'. vm_compute in H'. discriminate.
  - apply Qc_is_canon. vm_compute. reflexivity.
Qed.

Lemma zero_draw_crash :
  exists bn D obs e, good_bn bn /\ (forall i j, good_sched (scheds D i j)) /\
    (forall i j, 0 <= rnd D i j /\ rnd D i j < 1) /\ valid_obs (net_of bn) obs /\
    Pr (net_of bn) (observed obs) <> 0 /\ engine_new bn = Ok e /\
    draw_samples D (e_bbn e) obs 1 = Err IndexError.
Proof.
  set (D := mkDraws (fun _ _ => 0%nat) (rnd half) (fun _ _ => ids)).
  exists rare, D, [].
  destruct (run_engine rare (fun e => draw_samples D (e_bbn e) [] 1 = Err IndexError)) as (e & E & H).
  { vm_compute. reflexivity. }
  exists e. split; [exact rare_good|]. split; [intros; apply ids_good|].
  split; [intros i [|j]; cbn; split; try discriminate; reflexivity|].
  split; [apply valid_obs_sound; reflexivity|]. split; [|split; [exact E|exact H]].
  intros H'. apply (f_equal this) in H'. vm_compute in H'. discriminate.
Qed.

Lemma busy_reached : let busy := [OpDo "B" (IvInt 1); OpDo "B" (IvInt 7); OpReset "Z"; OpDo "A" (IvDict [(LInt 1, q 1 2); (LInt 0, q 1 2)]);
   OpQuery [("C", LInt 0)]; OpReset "A"; OpDo "B" (IvDict [(LInt 0, q 1 5); (LInt 1, q 4 5)]); OpDo "C" (IvInt 0)] in
  exists e past, reached triangle busy e past /\ Forall op_ok busy /\
  map snd past = [false; true; true; true; true; false; false; true] /\
  in_force past "A" = None /\ in_force past "B" = Some (IvDict [(LInt 0, q 1 5); (LInt 1, q 4 5)]).
Proof.
  intros busy.
  assert (N2 : forall a b : label, a <> b -> NoDup [a; b]).
  { intros a b H. constructor; [intros [->|[]]; auto|]. constructor; [intros []|constructor]. }
  destruct (run_engine triangle (fun e => map snd (snd (irun_log e busy [])) = [false; true; true; true; true; false; false; true]
     /\ in_force (snd (irun_log e busy [])) "A" = None
     /\ in_force (snd (irun_log e busy [])) "B" = Some (IvDict [(LInt 0, q 1 5); (LInt 1, q 4 5)]))) as (e & E & H1 & H2 & H3).
  { vm_compute. auto. }
  exists (fst (irun_log e busy [])), (snd (irun_log e busy [])). split; [|split; [|auto]].
  - exists e. split; [exact E|]. apply surjective_pairing.
  - unfold busy. repeat (constructor; [cbn; auto; try (apply N2; discriminate)|]). constructor.
Qed.

Lemma do_breaks_chain : exists bn e e' v arg, good_bn bn /\ engine_new bn = Ok e /\
  do_intervention e v arg = (e', Ok tt) /\
  forall sc obs, good_sched sc -> forall r, engine_query sc e' obs <> Ok r.
Proof.
  assert (G : good_bn chain) by (apply good_bn_sound; vm_compute; reflexivity).
  destruct (new_ok chain (good_bn_shape _ G)) as (e & E & EO).
  destruct G as (FO & SO & CS & NO & J).
  destruct (do_intervention_spec e (net_of chain) no_do "B" (IvInt 0) SO NO EO I)
    as [(_ & _ & e' & d & Ed & _ & EO' & _)|(Na & _)].
  2:{ exfalso. apply Na. rewrite edited_none. split; [exists "C"; vm_compute; auto|]. vm_compute. auto. }
  exists chain, e, e', "B", (IvInt 0). split; [exact (conj FO (conj SO (conj CS (conj NO J))))|].
  split; auto. split; auto. intros sc obs GS r Er.
  apply (query_joined sc e' (net_of chain) _ obs r GS SO NO EO') in Er.
  assert (H : In "A" (vars (edited (set_do no_do "B" (Some d)) (net_of chain))) /\
              In "B" (vars (edited (set_do no_do "B" (Some d)) (net_of chain)))) by (rewrite edited_vars; cbn; auto).
  specialize (Er "A" "B" (proj1 H) (proj2 H)). clear H.
  apply clos_rt_rt1n in Er.
  assert (Ar : parent_arrows (edited (set_do no_do "B" (Some d)) (net_of chain)) = [("B", "C")]) by reflexivity.
  rewrite Ar in Er. clear Ar.
  assert (K : forall x y, clos_refl_trans_1n string (fun u v => In (u, v) [("B", "C")] \/ In (v, u) [("B", "C")]) x y -> x = "A" -> y = "A").
  { intros x y H. induction H as [|x z y H1 _ IH]; auto. intros ->. destruct H1 as [[[=]|[]]|[[=]|[]]]. }
  apply K in Er; auto. discriminate.
Qed.

Definition digits : bnet := mkBnet ["1a"] [("1a", mkFrame [LInt 0; LInt 1] [] [[]] [[q 1 4]; [q 3 4]])].
Definition selfish : bnet := mkBnet ["self"] [("self", mkFrame [LInt 0; LInt 1] [] [[]] [[q 1 4]; [q 3 4]])].

Lemma bad_names : exists bn1 bn2 e,
  forallb name_matches (bn_nodes bn1) = true /\ frames_ok bn1 /\ shape_ok (net_of bn1) /\
  columns_sum_1 (net_of bn1) /\ joined (net_of bn1) /\ engine_new bn1 = Err ValueError /\
  forallb name_matches (bn_nodes bn2) = true /\ frames_ok bn2 /\ shape_ok (net_of bn2) /\
  columns_sum_1 (net_of bn2) /\ joined (net_of bn2) /\ engine_new bn2 = Ok e /\
  engine_query ids e [] = Err KeyError.
Proof.
  exists digits, selfish.
  destruct (run_engine selfish (fun e => engine_query ids e [] = Err KeyError)) as (e & E & H).
  { vm_compute. reflexivity. }
  exists e. repeat (split; [first [exact E | apply frames_okb_sound; vm_compute; reflexivity
    | apply shape_okb_sound; vm_compute; reflexivity | apply columns_b_sound; vm_compute; reflexivity
    | apply joined_b_sound; vm_compute; reflexivity | vm_compute; reflexivity]|]). exact H.
Qed.
