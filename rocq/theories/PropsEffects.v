(** * PropsEffects: property C127 (the estimated effects of interventions approach the population's). *)
From Coq Require Import List Bool Arith ZArith Lia String QArith Qcanon Permutation Reals Lra.
From Verif Require Import Base QcX Digraph SmModel SmProofs SmHist SmThms NetModel NetProofs NetFit NetThms NetBridge NetEquiv NetMoral NetMarkov PropsEquiv PropsMarkov.
From Verif Require Import AcycLink ConsistLim ConsistNet EffectNet NetConsist NetSample PropsConsist.
From Verif Require InferModel InferSpec InferEngine InferOps InferMain InferWit Kruskal.
Import ListNotations.
Local Open Scope string_scope.
Local Open Scope list_scope.
Local Open Scope R_scope.

(** [intervened P v q ps]: the population [P] after the value of [v] is drawn with the probabilities [q] for
    everyone, whatever their causes [ps] are.  [asks arg q]: the argument of do_intervention asks for [q]. *)
Theorem C127_effects : forall g method prior ess order P dom, reached g -> named g ->
  acyclic (edges g) -> all_linked g -> edges g <> [] ->
  (forall x, In (LStr x) (nodes g) -> InferModel.is_identifier x = true /\ x <> "self") ->
  sound_way method prior ess -> parents_first g order -> weighted P -> structured g P order -> values_in g dom P ->
  forall v q ps, In (LStr v) (nodes g) -> parents_are g v ps -> (forall y, (0 <= q y)%Qc) ->
  (forall i w y, In (i, w) P -> 0 < w -> q y <> 0%Qc -> 0 < share P ((v, y) :: given i ps)) ->
  let P' := intervened P v q ps in
  forall obs u s eps, NoDup (map fst obs) -> (forall t x, In (t, x) obs -> In (LStr t) (nodes g)) -> In (LStr u) (nodes g) -> 0 < share P' obs -> 0 < eps ->
  exists delta, 0 < delta /\ forall d, complete d -> data_in g dom d -> near g P d delta ->
    (method = "MaximumLikelihoodEstimator" \/ 1 <= delta * INR (List.length (d_rows d))) ->
    exists e, trained g d method prior ess e /\
      forall arg e', InferOps.arg_dict arg -> asks arg q -> InferModel.do_intervention e v arg = (e', Ok tt) ->
      forall sc r, Kruskal.good_sched sc -> InferModel.engine_query sc e' obs = Ok r ->
      (exists p, InferEngine.answer r u s = Some p /\ Rabs (realq p - share P' ((u, s) :: obs) / share P' obs) < eps) \/
      (share P' ((u, s) :: obs) = 0 /\ forall row, In row (d_rows d) -> at_col row u <> Some s).
Proof.
  intros g method prior ess order P dom Rg Nm AC AL NE Ids SW PF WP ST VI v q ps Hv Hps Qn Cm P' obs u s eps ND HO Hu Pos He.
  destruct (bn_init g) as [b0|x] eqn:E0.
  - destruct (effects g method prior ess order P dom b0 Rg Nm AC AL NE Ids SW PF WP ST VI E0 v q ps Hv Hps Qn Cm obs u s eps ND HO Hu Pos He) as (delta & Hd & H).
    exists delta. split; [auto|]. intros d C D. apply H. split; auto.
  - exists 1. split; [lra|]. intros d C [D1 D2]. exfalso.
    destruct (data_to_net g d method prior ess Rg Nm AC AL NE (fun y Hy => conj (D1 y Hy) (Ids y Hy)) C SW) as (b0 & _ & _ & _ & _ & _ & E0' & _). congruence.
Qed.
Print Assumptions C127_effects.

(** With independent draws, with probability approaching one. *)
Theorem C127_probably : forall g method prior ess order P dom, reached g -> named g ->
  acyclic (edges g) -> all_linked g -> edges g <> [] ->
  (forall x, In (LStr x) (nodes g) -> InferModel.is_identifier x = true /\ x <> "self") ->
  sound_way method prior ess -> parents_first g order -> weighted P -> structured g P order -> values_in g dom P ->
  (forall v, In v order -> one_kind (dom v)) ->
  forall v q ps, In (LStr v) (nodes g) -> parents_are g v ps -> (forall y, (0 <= q y)%Qc) ->
  (forall i w y, In (i, w) P -> 0 < w -> q y <> 0%Qc -> 0 < share P ((v, y) :: given i ps)) ->
  let P' := intervened P v q ps in
  forall obs u s eps eta, NoDup (map fst obs) -> (forall t x, In (t, x) obs -> In (LStr t) (nodes g)) -> In (LStr u) (nodes g) -> 0 < share P' obs -> 0 < eps -> 0 < eta ->
  exists n0, forall n, (n0 <= n)%nat -> likely P n (1 - eta) (fun sample =>
    exists e, trained g (frame order sample) method prior ess e /\
      forall arg e', InferOps.arg_dict arg -> asks arg q -> InferModel.do_intervention e v arg = (e', Ok tt) ->
      forall sc r, Kruskal.good_sched sc -> InferModel.engine_query sc e' obs = Ok r ->
      (exists p, InferEngine.answer r u s = Some p /\ Rabs (realq p - share P' ((u, s) :: obs) / share P' obs) < eps) \/
      (share P' ((u, s) :: obs) = 0 /\ forall row, In row (d_rows (frame order sample)) -> at_col row u <> Some s)).
Proof.
  intros g method prior ess order P dom Rg Nm AC AL NE Ids SW PF WP ST VI OK v q ps Hv Hps Qn Cm P' obs u s eps eta ND HO Hu Pos He Ht.
  destruct (C127_effects g method prior ess order P dom Rg Nm AC AL NE Ids SW PF WP ST VI v q ps Hv Hps Qn Cm obs u s eps ND HO Hu Pos He) as (delta & Hd & H). fold P' in H.
  apply (weak_law g order P dom Nm PF WP VI (fun d => exists e, trained g d method prior ess e /\
      forall arg e', InferOps.arg_dict arg -> asks arg q -> InferModel.do_intervention e v arg = (e', Ok tt) ->
      forall sc r, Kruskal.good_sched sc -> InferModel.engine_query sc e' obs = Ok r ->
      (exists p, InferEngine.answer r u s = Some p /\ Rabs (realq p - share P' ((u, s) :: obs) / share P' obs) < eps) \/
      (share P' ((u, s) :: obs) = 0 /\ forall row, In row (d_rows d) -> at_col row u <> Some s)) delta eta Hd Ht OK).
  intros d C D Nr Mn. apply (H d C D Nr (or_intror Mn)).
Qed.
Print Assumptions C127_probably.

(** [intervened] is what an intervention means: a population again; the causes are distributed as before; the
    value is drawn with the probabilities [q] independently of the causes; and among those with the same value
    and the same causes everything else is as before. *)
Theorem C127_population : forall P v q ps values, weighted P -> NoDup (v :: ps) -> (forall y, (0 <= q y)%Qc) ->
  NoDup values -> (forall i w, In (i, w) P -> In (i v) values) -> Qsum q values = 1%Qc ->
  (forall i w y, In (i, w) P -> 0 < w -> q y <> 0%Qc -> 0 < share P ((v, y) :: given i ps)) ->
  let P' := intervened P v q ps in
  weighted P' /\ map fst P' = map fst P /\
  (forall f C, NoDup C -> incl C ps -> share P' (given f C) = share P (given f C)) /\
  (forall f C, NoDup C -> incl C ps -> share P' (given f (v :: C)) = realq (q (f v)) * share P (given f C)) /\
  (forall f D, incl (v :: ps) D -> share P' (given f D) * share P (given f (v :: ps)) = share P (given f D) * share P' (given f (v :: ps))).
Proof.
  intros P v q ps values WP ND Qn NV HV Q1 Cm P'. split; [apply (intervened_weighted P v q ps values); auto|]. split; [|split; [|split]].
  - unfold P', intervened. rewrite map_map. auto.
  - intros f C NC IC. apply (causes_kept P v q ps values); auto.
  - intros f C NC IC. apply drawn; auto.
  - intros f D I. unfold P'. rewrite !P'_share; [ring|left; auto|intros x Hx; right; auto|apply I; left; auto|intros x Hx; apply I; right; auto].
Qed.
Print Assumptions C127_population.

(** ** Confounding: a -> b, a -> c, b -> c *)
Definition tri : graph := srun [] (arcs [("a", "b"); ("a", "c"); ("b", "c")]).
Definition trial : df := mkDf ["a"; "b"; "c"] [row 0 0 1; row 0 0 1; row 0 0 0; row 0 1 1; row 1 0 0; row 1 1 1; row 1 1 0; row 1 1 0]%Z.
Definition everyone : population := population_of trial.
Definition on_one (y : label) : Qc := if label_eqb y (LInt 1) then 1%Qc else 0%Qc.

Lemma trial_complete : complete trial.
Proof.
  split; [repeat constructor; cbn; intuition discriminate|]. split; [discriminate|]. split.
  - intros r c Hr Hc. cbn in Hr, Hc. decompose [or] Hr; decompose [or] Hc; subst; try tauto; discriminate.
  - intros c Hc. left. intros x Hx. apply drop_none_In, in_map_iff in Hx as (r & E & Hr). cbn in Hr, Hc.
    decompose [or] Hr; decompose [or] Hc; subst; try tauto; cbn in E; injection E as <-; eauto.
Qed.
Lemma tri_order : parents_first tri ["a"; "b"; "c"].
Proof.
  split; [repeat constructor; cbn; intuition discriminate|]. split.
  - intros x. cbn. intuition congruence.
  - intros pre v post p E H. cbn in H.
    destruct pre as [|p1 [|p2 [|p3 pre]]]; cbn in E; try (injection E; intros; subst; cbn in *; intuition congruence).
Qed.
Lemma trial_share A : (forall u x, In (u, x) A -> In u ["a"; "b"; "c"]) -> share everyone A = rows_share trial A.
Proof. intros H. apply share_of; [apply trial_complete|auto]. Qed.
Lemma tri_causes f : share everyone (given f ["a"]) = rows_share trial (given f ["a"]) /\ share everyone (given f ["b"; "a"]) = rows_share trial (given f ["b"; "a"]).
Proof. split; apply trial_share; intros u x H; cbn in H; decompose [or] H; try tauto; match goal with X : (_, _) = _ |- _ => injection X as <- <- end; cbn; auto. Qed.

Lemma reweighted (l : list (list (string * option label))) w h A :
  total (map snd (filter (fun i => shows (fst i) A) (map (fun i => (fst i, snd i * h (fst i))) (map (fun r => (individual r, w)) l)))) =
  total (map (fun r => if shows (individual r) A then w * h (individual r) else 0) l).
Proof. induction l as [|r l IH]; auto. cbn [map filter fst snd]. destruct (shows (individual r) A); unfold total in *; cbn [map fold_right snd]; rewrite IH; ring. Qed.

Lemma everyone_structured : structured tri everyone ["a"; "b"; "c"].
Proof.
  intros pre v post ps f E [_ Hp]. assert (I : incl ps pre) by (intros p H; destruct tri_order as (_ & _ & Q); apply (Q pre v post p E), Hp; auto).
  assert (J : incl pre ps).
  { intros p H. apply Hp. clear Hp I. destruct pre as [|p1 [|p2 [|p3 pre]]]; [destruct H| | |].
    - injection E as <- <- _. destruct H as [<-|[]]. vm_compute. auto.
    - injection E as <- <- <- _. destruct H as [<-|[<-|[]]]; vm_compute; auto.
    - destruct pre; discriminate. }
  assert (W : weighted everyone) by apply weighted_of, trial_complete.
  rewrite (share_same everyone W f (v :: pre) (v :: ps)) by (intros x [<-|Hx]; [left|right]; auto).
  rewrite (share_same everyone W f pre ps) by auto. ring.
Qed.

(** All the hypotheses are met, by data at distance zero; c = 1 has 1/2 of those with b = 1, but 2/3 of all once b is set to 1. *)
Example C127_met : weighted everyone /\ structured tri everyone ["a"; "b"; "c"] /\ values_in tri bits everyone /\ parents_first tri ["a"; "b"; "c"] /\
  parents_are tri "b" ["a"] /\ asks (InferModel.IvInt 1) on_one /\ asks (InferModel.IvDict [(LInt 0, 0%Qc); (LInt 1, 1%Qc)]) on_one /\
  (forall i w y, In (i, w) everyone -> 0 < w -> on_one y <> 0%Qc -> 0 < share everyone (("b", y) :: given i ["a"])) /\
  (let P' := intervened everyone "b" on_one ["a"] in share P' [] = 1 /\ share P' [("c", LInt 1)] / share P' [] = 2 / 3) /\
  share everyone [("c", LInt 1); ("b", LInt 1)] / share everyone [("b", LInt 1)] = 1 / 2 /\
  complete trial /\ data_in tri bits trial /\ forall delta, 0 < delta -> near tri everyone trial delta.
Proof.
  assert (W : weighted everyone) by apply weighted_of, trial_complete.
  assert (Pb : parents_are tri "b" ["a"]) by (split; [repeat constructor; cbn; tauto|intros p; cbn; intuition congruence]).
  split; [auto|]. split; [apply everyone_structured|]. split; [|split; [apply tri_order|split; [auto|split; [|split; [|split; [|split; [|split; [|split; [apply trial_complete|split]]]]]]]]].
  - intros f w v H Hv. unfold everyone, population_of in H. apply in_map_iff in H as (r & [= <- <-] & Hr). cbn in Hr, Hv.
    decompose [or] Hr; decompose [or] Hv; try tauto; subst; match goal with X : LStr _ = LStr _ |- _ => injection X as <- end; cbn; auto.
  - intros y. reflexivity.
  - intros y p H. cbn in H. decompose [or] H; try tauto; match goal with X : (_, _) = _ |- _ => injection X as <- <- end; reflexivity.
  - intros i w y H Hw Ny. unfold on_one in Ny. destruct (label_eqb_spec y (LInt 1)) as [->|]; [|congruence].
    unfold everyone, population_of in H. apply in_map_iff in H as (r & [= <- _] & Hr). rewrite trial_share.
    + cbn in Hr. decompose [or] Hr; try tauto; subst; unfold rows_share; cbn; lra.
    + intros u x [[= <- <-]|[[= <- <-]|[]]]; cbn; auto.
  - assert (K : forall A, share (intervened everyone "b" on_one ["a"]) A =
      total (map (fun r => if shows (individual r) A then / 8 * (realq (on_one (individual r "b")) * rows_share trial (given (individual r) ["a"]) / rows_share trial (given (individual r) ["b"; "a"])) else 0) (d_rows trial))).
    { intros A. etransitivity; [exact (reweighted (d_rows trial) (/ INR (List.length (d_rows trial))) (fun h => realq (on_one (h "b")) * share everyone (given h ["a"]) / share everyone (given h ["b"; "a"])) A)|].
      f_equal. apply map_ext. intros r. destruct (tri_causes (individual r)) as [E1 E2]. rewrite E1, E2. replace (/ INR (List.length (d_rows trial))) with (/ 8) by (cbn; lra). auto. }
    cbv zeta. rewrite !K. unfold rows_share. cbn. unfold on_one. cbn. rewrite ?realq_0, ?OrdProofs.realq_1. split; lra.
  - rewrite !trial_share by (intros u x H; cbn in H; decompose [or] H; try tauto; match goal with X : (_, _) = _ |- _ => injection X as <- <- end; cbn; auto).
    unfold rows_share. cbn. field.
  - split; [intros x Hx; cbn in Hx |- *; intuition congruence|]. intros r v x Hr Hv E. cbn in Hr, Hv.
    decompose [or] Hr; decompose [or] Hv; try tauto; subst; match goal with X : LStr _ = LStr _ |- _ => injection X as <- end; cbn in E; injection E as <-; cbn; auto.
  - intros delta Hd v ps f Hv [_ Hp].
    assert (Cp : forall u, In u ps -> In u ["a"; "b"; "c"]) by (intros u Hu; apply Hp in Hu; cbn in *; intuition congruence).
    rewrite !trial_share.
    + rewrite !Rminus_diag_eq by auto. rewrite Rabs_R0. lra.
    + intros u x [[= <- <-]|H]; [cbn in *; intuition congruence|apply in_map_iff in H as (p & [= <- <-] & H); auto].
    + intros u x H. apply in_map_iff in H as (p & [= <- <-] & H). auto.
Qed.

(** The engine trained on these data: observing b = 1 gives 1/2, setting it gives 2/3. *)
Definition after (e : res InferModel.eng) v arg : res InferModel.eng :=
  match e with Ok e => match InferModel.do_intervention e v arg with (e', Ok _) => Ok e' | (_, Err x) => Err x end | Err x => Err x end.
Example C127_run :
  told_by (engine_for tri trial mle None None) [("b", LInt 1)] "c" (LInt 1) = Some (1 # 2)%Q /\
  told_by (after (engine_for tri trial mle None None) "b" (InferModel.IvInt 1)) [] "c" (LInt 1) = Some (2 # 3)%Q /\
  told_by (after (engine_for tri trial mle None None) "b" (InferModel.IvDict [(LInt 0, 0%Qc); (LInt 1, 1%Qc)])) [] "c" (LInt 1) = Some (2 # 3)%Q.
Proof. split; [|split]; vm_compute; reflexivity. Qed.
