(** * WorkTorch: the structures of the torch learner as input of the workflow. *)
From Coq Require Import List Bool Arith ZArith Lia String QArith Qcanon Permutation Relations.
From Verif Require Import Base Digraph SmModel SmProofs SmHist SmThms NotearsModel NotearsProofs NotearsThms.
From Verif Require Import TorchModel TorchSpec TorchResult TorchFrame TorchFinal.
From Verif Require Import Workflow.
Import ListNotations.
Local Open Scope string_scope.
Local Open Scope list_scope.

Lemma reached_fold {E} (f : graph -> E -> res graph) : (forall g e g', reached g -> f g e = Ok g' -> reached g') ->
  forall es g g', reached g -> foldM f es g = Ok g' -> reached g'.
Proof.
  intros H. induction es as [|e es IH]; intros g g' R E'; cbn in E'; [injection E' as <-; auto|].
  apply bind_ok in E' as (g1 & E1 & E'). eapply IH; [eapply H; eauto|exact E'].
Qed.

Lemma reached_add g u v o a g' : reached g -> NoDup (dkeys a) -> sm_result (add_edge g u v o a) = Ok g' -> reached g'.
Proof. intros R N E. apply (reached_result g (AddEdge u v o a)); auto. Qed.

Lemma reached_torch fuel opt eh act grad rnd order X schema p t l : torch_pandas fuel opt eh act grad rnd order X schema p t = Ok l ->
  reached (l_graph l) /\ reached (l_collapsed l).
Proof.
  unfold torch_pandas. intros H. apply bind_ok in H as (sz & _ & H). destruct (negb _); [discriminate|].
  apply bind_ok in H as (tz & _ & H). apply bind_ok in H as (l0 & _ & H). apply bind_ok in H as (icx & _ & H). apply bind_ok in H as (g & Eg & H).
  apply bind_ok in H as (bs & _ & H). apply bind_ok in H as (ds & _ & H). apply bind_ok in H as (gc & Ec & H). injection H as <-. cbn [l_graph l_collapsed]. split.
  - refine (reached_fold _ _ _ _ _ (reached_nodes _) Eg). clear. intros g e g' R H. apply bind_ok in H as (u & _ & H). apply bind_ok in H as (v & _ & H).
    destruct (dget String.eqb (snd e) "weight"); [|discriminate]. destruct (dget String.eqb (snd e) "mean_effect"); [|discriminate].
    eapply reached_add; [exact R| |exact H]. cbn. constructor; [|constructor; [intros []|constructor]]. intros [Q|[]]. discriminate.
  - refine (reached_fold _ _ _ _ _ (reached_nodes _) Ec). clear. intros g e g' R H. apply bind_ok in H as (u & _ & H). apply bind_ok in H as (v & _ & H).
    destruct (dget String.eqb (snd e) "weight"); [|discriminate].
    eapply reached_add; [exact R| |exact H]. cbn. constructor; [intros []|constructor].
Qed.

Theorem torch_collapsed_facts fuel opt eh act grad rnd order X schema p t l :
  NoDup (map fst (f_cols X)) -> Forall (fun r => List.length r = List.length (f_cols X)) (f_rows X) ->
  (forall s, schema = Some s -> NoDup (map fst s)) -> (forall ds, Permutation (order ds) ds) ->
  torch_pandas fuel opt eh act grad rnd order X schema p t = Ok l ->
  reached (l_collapsed l) /\ weighted (l_collapsed l) /\ incl (nodes (l_collapsed l)) (map fst (f_cols X)).
Proof.
  intros Nc R Ns Po E. destruct (reached_torch _ _ _ _ _ _ _ _ _ _ _ _ E) as [_ Rc]. split; auto. pose proof (reached_wf _ Rc) as W.
  destruct (torch_pandas_renamed _ _ _ _ _ _ _ _ _ _ _ _ Nc R Ns Po E) as (sz & tz & ks & l0 & name & Es & Et & Ek & Nz & Rm & E0 & Rn).
  destruct (torch_numpy_inv _ _ _ _ _ _ _ _ _ _ _ E0) as (ks' & dts & X' & t' & Ek' & Ep & O).
  pose proof (rn_collapsed _ _ _ _ _ _ Rn _ _ (oc_collapsed _ _ _ _ _ _ _ _ _ _ _ _ _ O)) as (Nn & _ & Ge & Ga). split.
  - intros u v a H. assert (I : In (u, v) (edges (l_collapsed l))) by (apply edges_In; eauto). apply Ge in I as (i & j & Hi & Hj & -> & -> & K).
    destruct (Ga i j Hi Hj K) as (a' & Ea & Ek2). rewrite Ea in H. injection H as <-. eexists. unfold aget. rewrite Ek2. reflexivity.
  - intros u Hu. apply (Permutation_in _ Nn) in Hu. apply in_map_iff in Hu as (i & <- & Hi). apply in_seq in Hi. apply nth_In. lia.
Qed.
