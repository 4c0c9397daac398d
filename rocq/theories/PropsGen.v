(** * PropsGen: generated structures (C44). *)
From Coq Require Import List Bool Arith ZArith Lia String QArith Qcanon Permutation.
From Verif Require Import Base Digraph SmModel SmProofs NotearsModel TorchModel SklLin GenModel GenProofs.
Import ListNotations.
Local Open Scope string_scope.
Local Open Scope list_scope.
Local Open Scope nat_scope.

(** Either the arguments are acceptable and there is a structure, or there is a ValueError. *)
Theorem C44_outcome : forall rn num degree t w_min w_max,
  (accepted num degree t w_min w_max /\ exists g, generate_structure rn num degree t w_min w_max = Ok g) \/
  (~ accepted num degree t w_min w_max /\ generate_structure rn num degree t w_min w_max = Err ValueError).
Proof. exact generate_outcome. Qed.
Print Assumptions C44_outcome.

(** A weighted DAG on the nodes 0..num-1. *)
Theorem C44_structure : forall rn num degree t w_min w_max g, generate_structure rn num degree t w_min w_max = Ok g -> wf_draws (Z.to_nat num) rn ->
  nodes g = map node (seq 0 (Z.to_nat num)) /\ acyclic (edges g) /\
  forall u v a, edge_attrs g u v = Some a -> exists w, aget a "weight" = Some (ANum w) /\ aget a "origin" = Some (AStr "unknown") /\ w <> 0%Qc /\ (Qcabs w_min <= Qcabs w)%Qc /\ (Qcabs w <= Qcabs w_max)%Qc.
Proof.
  intros rn num degree t w_min w_max g E W. split; [|split].
  - destruct (edge_flags _ _ _ _ _ _ _ E W) as (F & _ & _ & _ & N & _). exact N.
  - exact (generated_acyclic _ _ _ _ _ _ _ E W).
  - exact (generated_weights _ _ _ _ _ _ _ E W).
Qed.
Print Assumptions C44_structure.

(** All pairs of nodes are joined in a full structure, and in a random one of the largest degree. *)
Theorem C44_full : forall rn num degree t w_min w_max g, generate_structure rn num degree t w_min w_max = Ok g -> wf_draws (Z.to_nat num) rn -> w_min <> 0%Qc ->
  t = "full" \/ (t = "erdos-renyi" /\ (Q2Qc (inject_Z (num - 1)) <= degree)%Qc) -> tournament (Z.to_nat num) (edges g).
Proof. intros rn num degree t w_min w_max g E W N [T|[T D]]; [eapply full_tournament|eapply dense_tournament]; eauto. Qed.
Print Assumptions C44_full.

Theorem C44_no_degree : forall rn num degree t w_min w_max g, generate_structure rn num degree t w_min w_max = Ok g -> wf_draws (Z.to_nat num) rn ->
  t = "erdos-renyi" -> (degree <= 0)%Qc -> edges g = [].
Proof. exact sparse_empty. Qed.
Print Assumptions C44_no_degree.

(** A scale-free structure is connected and no node has more than half of the degree (rounded) as children. *)
Theorem C44_scale_free : forall rn num degree w_min w_max g m, generate_structure rn num degree "barabasi-albert" w_min w_max = Ok g -> wf_draws (Z.to_nat num) rn ->
  round_even (degree / Q2Qc 2)%Qc = Z.of_nat m -> 1 <= m -> w_min <> 0%Qc ->
  (forall a b, a < Z.to_nat num -> b < Z.to_nat num -> a <> b -> joined (edges g) (node a) (node b)) /\
  (forall a vs, a < Z.to_nat num -> NoDup vs -> (forall v, In v vs -> In (node a, v) (edges g)) -> List.length vs <= m).
Proof.
  intros rn num degree w_min w_max g m E W Em Hm Nw. split.
  - exact (ba_connected _ _ _ _ _ _ _ E W m eq_refl Em Hm Nw).
  - intros a vs Ha. exact (ba_children _ _ _ _ _ _ _ E W m eq_refl Em a Ha vs).
Qed.
Print Assumptions C44_scale_free.

(** Draws for the examples: node i of three chooses position 2 i - 1 + k of the bag, all edges are drawn. *)
Definition ex_draws : draws := mkDraws (fun _ _ => Q2Qc (1 # 4)) (fun i k => 2 * i - 1 + k) [2; 0; 1] (fun _ _ => half) (fun i j => if i =? 0 then 0%Qc else 1%Qc).
Lemma ex_draws_wf : wf_draws 3 ex_draws.
Proof.
  split; [|split].
  - cbn. apply (perm_trans (l' := [0; 2; 1])); [constructor|]. constructor. constructor.
  - intros i j. split; discriminate.
  - intros i j. split; [discriminate|reflexivity].
Qed.

Example C44_met : let rn := ex_draws in
  (exists g, generate_structure rn 3 (Q2Qc 2) "barabasi-albert" 1%Qc (Q2Qc 2) = Ok g /\ edges g = [(LInt 0, LInt 2); (LInt 1, LInt 2)] /\
     map (fun uva => match aget (snd uva) "weight" with Some (ANum w) => this w | _ => 0%Q end) (edges_data g) = [- 3 # 2; 3 # 2]%Q) /\
  round_even (Q2Qc 2 / Q2Qc 2)%Qc = 1%Z /\
  (exists g, generate_structure rn 3 (Q2Qc 2) "erdos-renyi" 1%Qc (Q2Qc 2) = Ok g /\ edges g = [(LInt 0, LInt 2); (LInt 1, LInt 0); (LInt 1, LInt 2)]).
Proof. cbv zeta. split; [eexists; split; [vm_compute; reflexivity|split; vm_compute; reflexivity]|]. split; [vm_compute; reflexivity|]. eexists. split; vm_compute; reflexivity. Qed.

(** A degree of one is rounded to none: such scale-free structures never have an edge. *)
Theorem C44_degree_refuted : forall rn num w_min w_max g, wf_draws (Z.to_nat num) rn -> generate_structure rn num 1%Qc "barabasi-albert" w_min w_max = Ok g -> edges g = [].
Proof.
  intros rn num w_min w_max g W E. destruct (ba_dests _ _ _ _ _ _ _ E W 0 eq_refl) as (dests & Hd & HE & _); [vm_compute; reflexivity|].
  destruct (edges g) as [|[u v] es]; auto. exfalso. destruct (HE u v (or_introl eq_refl)) as (i & j & Hi & Hj & _). destruct (Hd i Hi) as [L _]. destruct (dests i); [contradiction|discriminate].
Qed.
Print Assumptions C44_degree_refuted.

(** With weights of zero a full structure has no edges. *)
Theorem C44_zero_weights_refuted : forall rn num degree g, wf_draws (Z.to_nat num) rn -> generate_structure rn num degree "full" 0%Qc 0%Qc = Ok g -> edges g = [].
Proof.
  intros rn num degree g W E. pose proof (generated_weights _ _ _ _ _ _ _ E W) as G. destruct (edge_flags _ _ _ _ _ _ _ E W) as (F & _ & _ & Wg & _).
  destruct (edges g) as [|[u v] es] eqn:Ee; auto. exfalso. assert (I : In (u, v) (edges g)) by (rewrite Ee; cbn; auto). apply edges_In in I; auto. destruct I as (a & Ha).
  destruct (G u v a Ha) as (w & _ & _ & N & L1 & L2). apply N. replace (Qcabs 0) with 0%Qc in * by (apply Qc_is_canon; reflexivity). apply SklLin.Qcabs_eq_0, Qcle_antisym; auto.
Qed.
Print Assumptions C44_zero_weights_refuted.
