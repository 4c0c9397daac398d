(** * PropsDraws: property C126 (independent draws from a population). *)
From Coq Require Import List Bool Arith ZArith Lia String QArith Qcanon Permutation Reals Lra.
From Verif Require Import Base QcX Digraph SmModel SmProofs SmHist SmThms NetModel NetProofs NetFit NetThms NetBridge NetEquiv NetMoral NetMarkov PropsEquiv PropsMarkov.
From Verif Require Import AcycLink ConsistLim ConsistNet NetConsist NetSample PropsConsist.
From Verif Require InferModel InferSpec InferEngine InferOps InferMain InferWit Kruskal.
Import ListNotations.
Local Open Scope string_scope.
Local Open Scope list_scope.
Local Open Scope R_scope.

(** [draws P n]: all samples of [n] independent draws with their probabilities.  [likely P n p Q]: a sample
    has [Q] with probability at least [p].  [frame order s]: the sample as a data frame. *)
Theorem C126_probably : forall g method prior ess order P dom, reached g -> named g ->
  acyclic (edges g) -> all_linked g -> edges g <> [] ->
  (forall x, In (LStr x) (nodes g) -> InferModel.is_identifier x = true /\ x <> "self") ->
  sound_way method prior ess -> parents_first g order -> weighted P -> structured g P order -> values_in g dom P ->
  (forall v, In v order -> one_kind (dom v)) ->
  forall obs v s eps eta, NoDup (map fst obs) -> (forall u x, In (u, x) obs -> In (LStr u) (nodes g)) -> In (LStr v) (nodes g) ->
  0 < share P obs -> 0 < eps -> 0 < eta ->
  exists n0, forall n, (n0 <= n)%nat -> likely P n (1 - eta) (fun sample =>
    exists e, trained g (frame order sample) method prior ess e /\ forall sc, Kruskal.good_sched sc -> exists r, InferModel.engine_query sc e obs = Ok r /\
      ((exists p, InferEngine.answer r v s = Some p /\ Rabs (realq p - share P ((v, s) :: obs) / share P obs) < eps) \/
       (share P ((v, s) :: obs) = 0 /\ forall row, In row (d_rows (frame order sample)) -> at_col row v <> Some s))).
Proof.
  intros g method prior ess order P dom Rg Nm AC AL NE Ids SW PF WP ST VI OK obs v s eps eta ND HO Hv Pos He Ht.
  destruct (C125_consistent g method prior ess order P dom Rg Nm AC AL NE Ids SW PF WP ST VI obs v s eps ND HO Hv Pos He) as (delta & Hd & H).
  apply (weak_law g order P dom Nm PF WP VI (fun d => exists e, trained g d method prior ess e /\ forall sc, Kruskal.good_sched sc -> exists r, InferModel.engine_query sc e obs = Ok r /\
      ((exists p, InferEngine.answer r v s = Some p /\ Rabs (realq p - share P ((v, s) :: obs) / share P obs) < eps) \/
       (share P ((v, s) :: obs) = 0 /\ forall row, In row (d_rows d) -> at_col row v <> Some s))) delta eta Hd Ht OK).
  intros d C D Nr Mn. apply (H d C D Nr (or_intror Mn)).
Qed.
Print Assumptions C126_probably.

(** The probabilities of the samples sum to one, and nothing impossible is likely. *)
Lemma likely_sound P n p : weighted P -> likely P n p (fun _ => False) -> p <= 0.
Proof.
  intros WP (good & H & Le). eapply Rle_trans; [exact Le|]. rewrite (filter_ext_in _ (fun _ => false)).
  - clear. unfold total. induction (draws P n); cbn; auto; lra.
  - intros su Hs. apply not_true_is_false. intros G. apply (H (fst su)); auto. apply in_map. auto.
Qed.
Example C126_total : total (map snd (draws people 2)) = 1 /\ List.length (draws people 2) = 49%nat.
Proof. split; [unfold people, population_of, total; cbn; field|reflexivity]. Qed.

(** The hypotheses are met by the chain and the population of C125. *)
Example C126_met : weighted people /\ structured chain people ["a"; "b"; "c"] /\ values_in chain bits people /\ parents_first chain ["a"; "b"; "c"] /\
  (forall v, In v ["a"; "b"; "c"] -> one_kind (bits v)) /\ 0 < share people [("c", LInt 1)].
Proof.
  destruct C125_met as (A & B & C & D & _). destruct C103_met as [_ Co]. repeat (split; [assumption|]). split.
  - intros v _. left. intros x [<-|[<-|[]]]; eauto.
  - unfold people. rewrite share_of by (auto; intros u x [[= <- <-]|[]]; cbn; auto). unfold rows_share. cbn. lra.
Qed.
