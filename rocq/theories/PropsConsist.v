(** * PropsConsist: property C125 (the answers approach the population). *)
From Coq Require Import List Bool Arith ZArith Lia String QArith Qcanon Permutation Reals Lra.
From Verif Require Import Base QcX Digraph SmModel SmProofs SmHist SmThms NetModel NetProofs NetFit NetThms NetBridge NetEquiv NetMoral NetMarkov PropsEquiv PropsMarkov.
From Verif Require Import AcycLink ConsistLim ConsistNet NetConsist.
From Verif Require InferModel InferSpec InferEngine InferOps InferMain InferWit Kruskal.
Import ListNotations.
Local Open Scope string_scope.
Local Open Scope list_scope.
Local Open Scope R_scope.

(** [share P A]: the share of the population [P] that shows the values [A].  [structured]: in the population
    every node is independent of the nodes before it given its parents.  [near g P d delta]: the frequencies
    in the data of every node with its parents, and of the parents, are within [delta] of those in the
    population.  Then, however the network is fitted, every answer is within [eps] of the share of the
    population that has the state among those that show the observations. *)
Theorem C125_consistent : forall g method prior ess order P dom, reached g -> named g ->
  acyclic (edges g) -> all_linked g -> edges g <> [] ->
  (forall x, In (LStr x) (nodes g) -> InferModel.is_identifier x = true /\ x <> "self") ->
  sound_way method prior ess -> parents_first g order -> weighted P -> structured g P order -> values_in g dom P ->
  forall obs v s eps, NoDup (map fst obs) -> (forall u x, In (u, x) obs -> In (LStr u) (nodes g)) -> In (LStr v) (nodes g) -> 0 < share P obs -> 0 < eps ->
  exists delta, 0 < delta /\ forall d, complete d -> data_in g dom d -> near g P d delta ->
    (method = "MaximumLikelihoodEstimator" \/ 1 <= delta * INR (List.length (d_rows d))) ->
    exists e, trained g d method prior ess e /\ forall sc, Kruskal.good_sched sc -> exists r, InferModel.engine_query sc e obs = Ok r /\
      ((exists p, InferEngine.answer r v s = Some p /\ Rabs (realq p - share P ((v, s) :: obs) / share P obs) < eps) \/
       (share P ((v, s) :: obs) = 0 /\ forall row, In row (d_rows d) -> at_col row v <> Some s)).
Proof.
  intros g method prior ess order P dom Rg Nm AC AL NE Ids SW PF WP ST VI obs v s eps ND HO Hv Pos He.
  destruct (bn_init g) as [b0|x] eqn:E0.
  - destruct (consistent g method prior ess order P dom b0 Rg Nm AC AL NE Ids SW PF WP ST VI E0 obs v s eps ND HO Hv Pos He) as (delta & Hd & H).
    exists delta. split; [auto|]. intros d C D. apply H. split; auto.
  - exists 1. split; [lra|]. intros d C [D1 D2]. exfalso.
    destruct (data_to_net g d method prior ess Rg Nm AC AL NE (fun y Hy => conj (D1 y Hy) (Ids y Hy)) C SW) as (b0 & _ & _ & _ & _ & _ & E0' & _). congruence.
Qed.
Print Assumptions C125_consistent.

(** The limit case: if a sequence of data frames approaches the population, so do the answers. *)
Theorem C125_limit : forall g prior ess order P dom (data : nat -> df), reached g -> named g ->
  acyclic (edges g) -> all_linked g -> edges g <> [] ->
  (forall x, In (LStr x) (nodes g) -> InferModel.is_identifier x = true /\ x <> "self") ->
  parents_first g order -> weighted P -> structured g P order -> values_in g dom P ->
  (forall n, complete (data n) /\ data_in g dom (data n)) ->
  (forall delta, 0 < delta -> exists n0, forall n, (n0 <= n)%nat -> near g P (data n) delta) ->
  forall obs v s eps, NoDup (map fst obs) -> (forall u x, In (u, x) obs -> In (LStr u) (nodes g)) -> In (LStr v) (nodes g) -> 0 < share P ((v, s) :: obs) -> 0 < eps ->
  exists n0, forall n, (n0 <= n)%nat ->
    exists e, trained g (data n) "MaximumLikelihoodEstimator" prior ess e /\ forall sc, Kruskal.good_sched sc -> exists r p, InferModel.engine_query sc e obs = Ok r /\
      InferEngine.answer r v s = Some p /\ Rabs (realq p - share P ((v, s) :: obs) / share P obs) < eps.
Proof.
  intros g prior ess order P dom data Rg Nm AC AL NE Ids PF WP ST VI Ok Lim obs v s eps ND HO Hv Pos He.
  assert (Po : 0 < share P obs).
  { eapply Rlt_le_trans; [exact Pos|]. apply share_mono; auto. intros f H. cbn in H. apply andb_true_iff in H. tauto. }
  destruct (C125_consistent g "MaximumLikelihoodEstimator" prior ess order P dom Rg Nm AC AL NE Ids (or_introl eq_refl) PF WP ST VI obs v s eps ND HO Hv Po He) as (delta & Hd & H).
  destruct (Lim delta Hd) as (n0 & Hn). exists n0. intros n Ln. destruct (Ok n) as [C D].
  destruct (H (data n) C D (Hn n Ln) (or_introl eq_refl)) as (e & T & Q). exists e. split; auto. intros sc G. destruct (Q sc G) as (r & Er & [(p & Ea & Cl)|[Z _]]); [|lra].
  exists r, p. auto.
Qed.
Print Assumptions C125_limit.

(** ** The chain a -> b -> c, the population with the frequencies of [mixed] *)
Definition people : population := population_of mixed.
Definition bits (v : string) : list label := [LInt 0; LInt 1].
Definition copies (k : nat) : df := mkDf ["a"; "b"; "c"] (List.concat (repeat (d_rows mixed) (S k))).

Lemma copies_share k A : rows_share (copies k) A = rows_share mixed A.
Proof.
  unfold rows_share. cbn [copies d_rows]. generalize (fun r => forallb (fun ux => holds r (fst ux) (snd ux)) A) as p. intros p. set (l := d_rows mixed).
  assert (E1 : forall n, List.length (List.concat (repeat l n)) = (n * List.length l)%nat) by (intros n; induction n as [|n IH]; auto; cbn [repeat List.concat Nat.mul]; rewrite app_length, IH; auto).
  assert (E2 : forall n, List.length (filter p (List.concat (repeat l n))) = (n * List.length (filter p l))%nat) by (intros n; induction n as [|n IH]; auto; cbn [repeat List.concat Nat.mul]; rewrite filter_app, app_length, IH; auto).
  rewrite E1, E2, !mult_INR. assert (INR (List.length l) <> 0) by (cbn; lra). assert (INR (S k) <> 0) by (apply not_0_INR; lia). field. auto.
Qed.
Lemma copies_rows k r : In r (d_rows (copies k)) <-> In r (d_rows mixed).
Proof.
  cbn [copies d_rows]. rewrite in_concat. split.
  - intros (x & H & K). apply repeat_spec in H. subst. auto.
  - intros H. exists (d_rows mixed). split; auto. left. auto.
Qed.
Lemma copies_complete k : complete (copies k).
Proof.
  destruct C103_met as [_ (A & B & C & D)]. split; auto. split; [|split].
  - intros E. assert (X : In (row 0 0 0) (d_rows (copies k))) by (apply copies_rows; left; auto). rewrite E in X. destruct X.
  - intros r c H. apply C. apply copies_rows in H. auto.
  - intros c Hc. left. intros x Hx. apply drop_none_In, in_map_iff in Hx as (r & E & Hr). apply copies_rows in Hr. cbn in Hr, Hc.
    decompose [or] Hr; decompose [or] Hc; subst; try tauto; cbn in E; injection E as <-; eauto.
Qed.
Lemma chain_col u : In (LStr u) (nodes chain) -> In u (d_cols mixed).
Proof. cbn. intuition congruence. Qed.
Lemma chain_cols f ps v : parents_are chain v ps -> forall u x, In (u, x) (given f ps) -> In u (d_cols mixed).
Proof. intros [_ H] u x I. apply in_map_iff in I as (p & [= <- <-] & Hp). apply H in Hp. cbn in *. intuition congruence. Qed.

Lemma people_structured : structured chain people ["a"; "b"; "c"].
Proof.
  destruct C103_met as [I C]. intros pre v post ps f E Hp.
  assert (Hn : forall u, In u (v :: pre) -> In u (d_cols mixed)).
  { intros u Hu. change (d_cols mixed) with ["a"; "b"; "c"]. rewrite E. apply in_or_app. destruct Hu; cbn; auto. }
  assert (Hq : forall u, In u ps -> In u (d_cols mixed)) by (intros u Hu; apply (chain_cols f ps v Hp u (f u)); apply in_map_iff; eauto).
  assert (K : forall C', incl C' (d_cols mixed) -> forall u x, In (u, x) (given f C') -> In u (d_cols mixed)).
  { intros C' H u x X. apply in_map_iff in X as (p & [= <- <-] & X). auto. }
  unfold people. rewrite !share_of by (auto; apply K; intros u Hu; cbn in Hu; destruct Hu as [<-|Hu] || idtac; auto using in_eq, in_cons).
  rewrite !rows_share_agree. pose proof (I pre v post ps f E (proj1 Hp) (proj2 Hp)) as X. rewrite !occ_agree, !occw_agree in X.
  apply (f_equal INR) in X. rewrite !mult_INR in X. unfold Rdiv.
  transitivity (INR (agree (d_rows mixed) f (v :: pre)) * INR (agree (d_rows mixed) f ps) * (/ INR (Datatypes.length (d_rows mixed)) * / INR (Datatypes.length (d_rows mixed)))); [ring|]. rewrite X. ring.
Qed.

(** All the hypotheses are met, for every [delta], by enough copies of the data. *)
Example C125_met : weighted people /\ structured chain people ["a"; "b"; "c"] /\ values_in chain bits people /\ parents_first chain ["a"; "b"; "c"] /\
  share people [("a", LInt 0); ("c", LInt 1)] / share people [("c", LInt 1)] = 1 / 4 /\
  forall delta, 0 < delta -> exists k, complete (copies k) /\ data_in chain bits (copies k) /\ near chain people (copies k) delta /\ 1 <= delta * INR (List.length (d_rows (copies k))).
Proof.
  destruct C103_met as [I C]. split; [apply weighted_of; auto|]. split; [apply people_structured|]. split; [|split; [apply chain_order|split]].
  - intros f w v H Hv. unfold people, population_of in H. apply in_map_iff in H as (r & [= <- <-] & Hr). cbn in Hr, Hv.
    decompose [or] Hr; decompose [or] Hv; try tauto; subst; match goal with X : LStr _ = LStr _ |- _ => injection X as <- end; cbn; auto.
  - unfold people. rewrite !share_of by (auto; intros u x H; cbn in H; decompose [or] H; try tauto; match goal with X : (_, _) = _ |- _ => injection X as <- <- end; cbn; auto).
    unfold rows_share. cbn. field.
  - intros delta Hd. destruct (archimed_cor1 delta Hd) as (k & Hk & Pk). exists k. split; [apply copies_complete|]. split; [|split].
    + split; [intros x Hx; apply chain_col in Hx; auto|]. intros r v x Hr Hv E. apply copies_rows in Hr. cbn in Hr, Hv.
      decompose [or] Hr; decompose [or] Hv; try tauto; subst; match goal with X : LStr _ = LStr _ |- _ => injection X as <- end; cbn in E; injection E as <-; cbn; auto.
    + intros v ps f Hv Hp. rewrite !copies_share. unfold people.
      rewrite !share_of; auto; [|intros u x [[= <- <-]|H]; [apply chain_col; auto|apply (chain_cols f ps v Hp u x H)]|apply (chain_cols f ps v Hp)].
      replace (rows_share mixed (given f ps) - rows_share mixed (given f ps)) with 0 by ring.
      replace (rows_share mixed (given f (v :: ps)) - rows_share mixed (given f (v :: ps))) with 0 by ring. rewrite Rabs_R0. lra.
    + assert (Le : INR k <= INR (List.length (d_rows (copies k)))).
      { apply le_INR. cbn [copies d_rows]. assert (E1 : forall n, (n <= List.length (List.concat (repeat (d_rows mixed) n)))%nat).
        { intros n. induction n as [|n IH]; [cbn; lia|]. cbn [repeat List.concat]. rewrite app_length. cbn [mixed d_rows List.length] in *. lia. }
        specialize (E1 (S k)). lia. }
      assert (0 < INR k) by (apply (lt_INR 0); auto).
      apply Rle_trans with (delta * INR k); [|apply Rmult_le_compat_l; lra].
      apply (Rmult_le_reg_r (/ INR k)); [apply Rinv_0_lt_compat; auto|]. rewrite Rmult_assoc, Rinv_r by lra. lra.
Qed.

(** P(a = 0 | c = 1) is 1/4 in the population; with the K2 prior the answer is larger, and more data bring it closer. *)
Example C125_run :
  told_by (engine_for chain (copies 0) mle None None) [("c", LInt 1)] "a" (LInt 0) = Some (1 # 4)%Q /\
  (let k2 n := told_by (engine_for chain (copies n) "BayesianEstimator" (Some "K2") None) [("c", LInt 1)] "a" (LInt 0) in
   match k2 0%nat, k2 1%nat with Some x, Some y => (1 # 4 < y)%Q /\ (y < x)%Q | _, _ => False end).
Proof. split; vm_compute; auto. Qed.
