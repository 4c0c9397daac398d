(** * PropsMarkov: property C103 (when a fitted network reproduces all frequencies). *)
From Coq Require Import List Bool Arith ZArith Lia String QArith Qcanon Permutation.
From Verif Require Import Base QcX Digraph SmModel SmProofs SmHist SmThms NetModel NetProofs NetFit NetThms NetBridge NetEquiv NetMoral NetMarkov PropsEquiv.
From Verif Require InferModel InferSpec InferEngine InferOps InferMain InferWit Kruskal.
Import ListNotations.
Local Open Scope string_scope.
Local Open Scope list_scope.

(** [parents_first g order]: [order] lists the nodes of [g], each after its parents.
    [independent_given_parents g d order]: in the data every node is independent of the nodes before it given
    its parents.  [answers_frequencies g d e]: every query to [e] about a node, given any observations that
    occur together in the data, returns the relative frequency among the matching rows. *)
Theorem C103_exactly : forall g d prior ess order, reached g -> named g ->
  acyclic (edges g) -> all_linked g -> edges g <> [] ->
  (forall x, In (LStr x) (nodes g) -> In x (d_cols d) /\ InferModel.is_identifier x = true /\ x <> "self") ->
  complete d -> parents_first g order ->
  exists e, trained g d "MaximumLikelihoodEstimator" prior ess e /\
    (independent_given_parents g d order <-> answers_frequencies g d e).
Proof. exact markov_exactly. Qed.
Print Assumptions C103_exactly.

(** The chain a -> b -> c with data in which a and c are independent given b. *)
Definition mixed : df := mkDf ["a"; "b"; "c"]
  [row 0 0 0; row 0 0 1; row 1 0 0; row 1 0 1; row 1 1 1; row 1 1 1; row 1 1 0]%Z.

Lemma chain_order : parents_first chain ["a"; "b"; "c"].
Proof.
  split; [repeat constructor; cbn; intuition discriminate|]. split.
  - intros x. cbn. intuition congruence.
  - intros pre v post p E H. cbn in H. 
    destruct pre as [|p1 [|p2 [|p3 pre]]]; cbn in E; try (injection E; intros; subst; cbn in *; intuition congruence).

Qed.

Lemma binary (x : label) : x = LInt 0 \/ x = LInt 1 \/ label_eqb (LInt 0) x = false /\ label_eqb (LInt 1) x = false.
Proof. destruct (label_eqb_spec (LInt 0) x); auto. destruct (label_eqb_spec (LInt 1) x); auto. Qed.

Lemma occurrences_set rows f C D : (forall x, In x C <-> In x D) ->
  occurrences rows C (map f C) = occurrences rows D (map f D).
Proof. intros H. rewrite !occ_agree. apply agree_same; intros x; apply H. Qed.
Lemma occurrences_with_set rows f v C D : (forall x, In x C <-> In x D) ->
  occurrences_with rows v (f v) C (map f C) = occurrences_with rows v (f v) D (map f D).
Proof. intros H. rewrite !occw_agree. apply agree_same; intros x [->|Hx]; cbn; auto; right; apply H; auto. Qed.

Example C103_met : independent_given_parents chain mixed ["a"; "b"; "c"] /\ complete mixed.
Proof.
  split.
  - intros pre v post ps f E ND H.
    assert (K : forall D, (forall x, In x D <-> In (LStr x, LStr v) (edges chain)) ->
      (occurrences_with (d_rows mixed) v (f v) pre (map f pre) * occurrences (d_rows mixed) D (map f D) =
       occurrences_with (d_rows mixed) v (f v) D (map f D) * occurrences (d_rows mixed) pre (map f pre))%nat ->
      (occurrences_with (d_rows mixed) v (f v) pre (map f pre) * occurrences (d_rows mixed) ps (map f ps) =
       occurrences_with (d_rows mixed) v (f v) ps (map f ps) * occurrences (d_rows mixed) pre (map f pre))%nat).
    { intros D HD X. rewrite (occurrences_set _ f ps D), (occurrences_with_set _ f v ps D); auto; intros x; rewrite HD; apply H. }
    destruct pre as [|p1 [|p2 [|p3 pre]]]; cbn in E.
    + injection E as <- <-. apply (K []); [intros x; cbn; intuition congruence|]. reflexivity.
    + injection E as <- <- <-. apply (K ["a"]); [intros x; cbn; intuition congruence|]. reflexivity.
    + injection E as <- <- <- <-. apply (K ["b"]); [intros x; cbn; intuition congruence|].
      unfold occurrences, occurrences_with, all_hold, holds. cbn -[label_eqb].
      destruct (binary (f "a")) as [->|[->|[Ea Ea']]]; destruct (binary (f "b")) as [->|[->|[Eb Eb']]];
        destruct (binary (f "c")) as [->|[->|[Ec Ec']]];
        rewrite ?Ea, ?Ea', ?Eb, ?Eb', ?Ec, ?Ec'; reflexivity.
    + injection E as _ _ _ E. destruct pre; discriminate.
  - split; [repeat constructor; cbn; intuition discriminate|]. split; [discriminate|]. split.
    + intros r c H K. cbn in H, K. decompose [or] H; decompose [or] K; subst; try discriminate; tauto.
    + intros c K. left. intros x H. cbn in K. decompose [or] K; subst; cbn in H; decompose [or] H; subst; eauto; tauto.
Qed.

(** P(a = 0 | c = 1) is 1 of 4 rows; the survey of C95 does not have the independence: there 2 of 3 rows
    with c = 1 have a = 0, but the engine says 5/9. *)
Example C103_run :
  told_by (engine_for chain mixed mle None None) [("c", LInt 1)] "a" (LInt 0) = Some (1 # 4)%Q /\
  occurrences_with (d_rows mixed) "a" (LInt 0) ["c"] [LInt 1] = 1%nat /\ occurrences (d_rows mixed) ["c"] [LInt 1] = 4%nat /\
  told_by (engine_for chain survey mle None None) [("c", LInt 1)] "a" (LInt 0) = Some (5 # 9)%Q /\
  occurrences_with (d_rows survey) "a" (LInt 0) ["c"] [LInt 1] = 2%nat /\ occurrences (d_rows survey) ["c"] [LInt 1] = 3%nat.
Proof. repeat split; vm_compute; reflexivity. Qed.
