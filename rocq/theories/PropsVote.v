(** * PropsVote: properties C129 (predictions are majority votes) and C130 (with enough data they are the best possible). *)
From Coq Require Import List Bool Arith ZArith Lia String QArith Qcanon Permutation Reals Lra.
From Verif Require Import Base QcX Digraph SmModel SmProofs SmHist SmThms NetModel NetProofs NetFit NetThms NetBridge NetEquiv NetMoral NetMarkov PropsEquiv PropsMarkov.
From Verif Require Import AcycLink NetConsist NetSample PropsConsist PropsDraws VoteProofs.
Import ListNotations.
Local Open Scope string_scope.
Local Open Scope list_scope.

(** The votes are the training rows, without missing or undeclared values, that have the parents' values
    of the row; they vote for their own state of [v].  The order among states with equally many votes is that of the declared states. *)
Theorem C129_vote : forall b0 S d method prior ess b v test pg, reached_net b0 -> node_states b0 = Ok S ->
  (forall u, In u (b_nodes b0) -> declared S u <> []) -> incl (b_nodes b0) (d_cols d) -> sound_way method prior ess ->
  fit_cpds b0 d method prior ess = (b, Ok tt) -> In v (b_nodes b0) -> incl (get_parents b0 v) (d_cols test) ->
  (forall r p, In r (d_rows test) -> In p (get_parents b0 v) -> exists x, at_col r p = Some x /\ In x (declared S p)) ->
  exists out, predict pg b test v = Ok out /\
    Forall2 (fun r x => forall ps u, Permutation ps (get_parents b0 v) -> parent_values r ps u ->
      winner (fun s => occurrences_with (filter (usable (declared S) (b_nodes b0)) (d_rows d)) v s ps u) (declared S v) x) (d_rows test) out.
Proof.
  intros b0 S d method prior ess b v test pg Rb NS NE Ic SW E Hv It Rows.
  rewrite (predict_told b0 S d Rb NS NE Ic method prior ess b v test pg SW E Hv It).
  induction (d_rows test) as [|r l IH]; [exists []; split; [auto|constructor]|].
  destruct IH as (out & Eo & F); [intros; apply Rows; auto; right; auto|].
  assert (X : exists u, parent_values r (ssort (get_parents b0 v)) u /\ In u (product (map (declared S) (ssort (get_parents b0 v))))).
  { assert (Il : incl (ssort (get_parents b0 v)) (get_parents b0 v)) by (intros p; apply Permutation_in, ssort_Perm).
    induction (ssort (get_parents b0 v)) as [|p qs IHq]; [exists []; split; [constructor|left; auto]|].
    destruct IHq as (u & A & B); [intros x Hx; apply Il; right; auto|]. destruct (Rows r p (or_introl eq_refl) (Il p (or_introl eq_refl))) as (x & Ex & Dx).
    exists (x :: u). split; [constructor; auto|]. apply product_In. cbn. constructor; auto. apply product_In. auto. }
  destruct X as (u0 & Pv0 & Iu). destruct (told_winner b0 S d Rb NE method prior ess v r u0 SW Hv Pv0 Iu) as (x & Ex & (l1 & l2 & El & A & B)).
  exists (x :: out). cbn [mapM]. rewrite Ex. cbn [bind]. rewrite Eo. split; [auto|]. constructor; auto. intros ps u Hps Pv.
  assert (Same : forall s, occurrences_with (filter (usable (declared S) (b_nodes b0)) (d_rows d)) v s ps u =
    occurrences_with (filter (usable (declared S) (b_nodes b0)) (d_rows d)) v s (ssort (get_parents b0 v)) u0).
  { intros s. unfold occurrences_with. f_equal. apply filter_ext. intros t. f_equal. apply eq_true_iff_eq.
    rewrite (all_hold_key r t ps u Pv), (all_hold_key r t _ u0 Pv0).
    assert (K : forall C, okeqb (map (at_col t) C) (map (at_col r) C) = true <-> forall p, In p C -> at_col t p = at_col r p).
    { intros C. destruct (okeqb_spec (map (at_col t) C) (map (at_col r) C)) as [Q|Q].
      - split; auto. intros _. apply map_agree. auto.
      - split; [discriminate|]. intros H. destruct Q. apply map_ext_in. auto. }
    rewrite !K. split; intros H p Hp; apply H.
    - apply (Permutation_in _ (Permutation_sym Hps)), (Permutation_in _ (ssort_Perm _)). auto.
    - apply (Permutation_in _ (Permutation_sym (ssort_Perm _))), (Permutation_in _ Hps). auto. }
  exists l1, l2. split; auto. split; intros s Hs; rewrite !Same; auto.
Qed.
Print Assumptions C129_vote.

(** So the way the probabilities are estimated does not matter, not even for rows that raise an error. *)
Theorem C129_estimator : forall b0 S d m p e b m' p' e' b' v test pg, reached_net b0 -> node_states b0 = Ok S ->
  (forall u, In u (b_nodes b0) -> declared S u <> []) -> incl (b_nodes b0) (d_cols d) -> sound_way m p e -> sound_way m' p' e' ->
  fit_cpds b0 d m p e = (b, Ok tt) -> fit_cpds b0 d m' p' e' = (b', Ok tt) -> In v (b_nodes b0) -> incl (get_parents b0 v) (d_cols test) ->
  predict pg b test v = predict pg b' test v.
Proof.
  intros b0 S d m p e b m' p' e' b' v test pg Rb NS NE Ic SW SW' E E' Hv It.
  rewrite (predict_told b0 S d Rb NS NE Ic m p e b v test pg SW E Hv It), (predict_told b0 S d Rb NS NE Ic m' p' e' b' v test pg SW' E' Hv It).
  induction (d_rows test) as [|r l IH]; auto. cbn [mapM]. rewrite IH, (told_same b0 S d Rb NE m p e m' p' e' v r SW SW' Hv). auto.
Qed.
Print Assumptions C129_estimator.

(** No rule that looks at the parents of [v] is right for more rows of the training data. *)
Theorem C129_training : forall g d method prior ess v pg, reached g -> named g -> acyclic (edges g) -> all_linked g -> edges g <> [] ->
  (forall x, In (LStr x) (nodes g) -> In x (d_cols d)) -> complete d -> sound_way method prior ess -> In (LStr v) (nodes g) ->
  exists b out, learnt_from g d method prior ess b /\ predict pg b d v = Ok out /\
    forall rule : list (string * option label) -> label,
      (forall r r', (forall p, In (LStr p, LStr v) (edges g) -> at_col r p = at_col r' p) -> rule r = rule r') ->
      (hits (d_rows d) v (map rule (d_rows d)) <= hits (d_rows d) v out)%nat.
Proof. exact training. Qed.
Print Assumptions C129_training.

(** A structure that gives [v] more parents never predicts it worse on the training data, whatever the estimators. *)
Theorem C129_more_parents : forall g g' d m p e m' p' e' v pg, reached g -> named g -> acyclic (edges g) -> all_linked g -> edges g <> [] ->
  reached g' -> named g' -> acyclic (edges g') -> all_linked g' -> edges g' <> [] ->
  (forall x, In (LStr x) (nodes g) \/ In (LStr x) (nodes g') -> In x (d_cols d)) -> complete d -> sound_way m p e -> sound_way m' p' e' ->
  In (LStr v) (nodes g) -> In (LStr v) (nodes g') -> (forall q, In (LStr q, LStr v) (edges g) -> In (LStr q, LStr v) (edges g')) ->
  exists b b' out out', learnt_from g d m p e b /\ learnt_from g' d m' p' e' b' /\ predict pg b d v = Ok out /\ predict pg b' d v = Ok out' /\
    (hits (d_rows d) v out <= hits (d_rows d) v out')%nat.
Proof. exact more_parents. Qed.
Print Assumptions C129_more_parents.

Local Open Scope R_scope.
(** [P]: kinds of individuals with their shares; in [P] every node is independent of the nodes before it given its parents.
    If the data are near the population, no rule that looks at nodes before [v] is right more often in the population
    than the predictions, whichever nodes before [v] it looks at. *)
Theorem C130_best : forall g method prior ess order P dom pre v post cols pg, reached g -> named g -> acyclic (edges g) -> all_linked g -> edges g <> [] ->
  sound_way method prior ess -> parents_first g order -> weighted P -> structured g P order -> values_in g dom P ->
  (forall f w, In (f, w) P -> 0 < w) -> order = pre ++ v :: post -> (forall p, In (LStr p, LStr v) (edges g) -> In p cols) ->
  exists delta, 0 < delta /\ forall d, complete d -> data_in g dom d -> near g P d delta ->
    exists b out, learnt_from g d method prior ess b /\ predict pg b (frame cols (map fst P)) v = Ok out /\
      forall rule, looks_at pre rule -> right P v (map rule (map fst P)) <= right P v out.
Proof. exact best_in_population. Qed.
Print Assumptions C130_best.

(** With enough independent draws the predictions are the best possible, with probability as near to one as wanted. *)
Theorem C130_probably : forall g method prior ess order P dom pre v post cols pg eta, reached g -> named g -> acyclic (edges g) -> all_linked g -> edges g <> [] ->
  sound_way method prior ess -> parents_first g order -> weighted P -> structured g P order -> values_in g dom P ->
  (forall u, In u order -> one_kind (dom u)) ->
  (forall f w, In (f, w) P -> 0 < w) -> order = pre ++ v :: post -> (forall p, In (LStr p, LStr v) (edges g) -> In p cols) -> 0 < eta ->
  exists n0, forall n, (n0 <= n)%nat -> likely P n (1 - eta) (fun sample =>
    exists b out, learnt_from g (frame order sample) method prior ess b /\ predict pg b (frame cols (map fst P)) v = Ok out /\
      forall rule, looks_at pre rule -> right P v (map rule (map fst P)) <= right P v out).
Proof.
  intros g method prior ess order P dom pre v post cols pg eta Rg Nm AC AL NE SW PF WP ST VI OK Pos Eo Hc He.
  destruct (C130_best g method prior ess order P dom pre v post cols pg Rg Nm AC AL NE SW PF WP ST VI Pos Eo Hc) as (delta & Hd & H).
  apply (weak_law g order P dom Nm PF WP VI (fun d => exists b out, learnt_from g d method prior ess b /\ predict pg b (frame cols (map fst P)) v = Ok out /\
      forall rule, looks_at pre rule -> right P v (map rule (map fst P)) <= right P v out) delta eta Hd He OK).
  intros d C D Nr _. apply (H d C D Nr).
Qed.
Print Assumptions C130_probably.

(** ** Cases *)
Definition fit_to (g : graph) (d : df) method prior ess : bn :=
  match bn_init g with Ok b0 => fst (fit_cpds (fst (fit_node_states b0 d)) d method prior ess) | Err _ => mkBn [] [] None [] end.
Definition never : predictor := fun _ _ => 0%nat.

(** Seven training rows for a -> b -> c.  With a = 1, three of five rows have b = 1; with b = 0 there are as many rows with c = 0 as with c = 1. *)
Example C129_run :
  predict never (fit_to chain mixed mle None None) (mkDf ["a"] [[("a", Some (LInt 0))]; [("a", Some (LInt 1))]]) "b" = Ok [LInt 0; LInt 1] /\
  predict never (fit_to chain mixed bay (Some "K2") None) (mkDf ["a"] [[("a", Some (LInt 0))]; [("a", Some (LInt 1))]]) "b" = Ok [LInt 0; LInt 1] /\
  predict never (fit_to chain mixed mle None None) mixed "c" = Ok [LInt 0; LInt 0; LInt 0; LInt 0; LInt 1; LInt 1; LInt 1] /\
  hits (d_rows mixed) "c" [LInt 0; LInt 0; LInt 0; LInt 0; LInt 1; LInt 1; LInt 1] = 4%nat /\
  predict never (fit_to chain mixed mle None None) (mkDf ["a"] [[("a", Some (LInt 5))]]) "b" = Err KeyError.
Proof. repeat split; vm_compute; reflexivity. Qed.


(** With a third arrow a -> c the predictions of c get better. *)
Definition triangle : graph := srun [] (arcs [("a", "b"); ("b", "c"); ("a", "c")]).
Definition survey2 : df := mkDf ["a"; "b"; "c"] [row 0 0 0; row 0 0 0; row 1 0 1; row 1 1 1; row 0 1 0]%Z.
Example C129_better : edges triangle = [(LStr "a", LStr "b"); (LStr "a", LStr "c"); (LStr "b", LStr "c")] /\
  predict never (fit_to chain survey2 mle None None) survey2 "c" = Ok [LInt 0; LInt 0; LInt 0; LInt 0; LInt 0] /\
  predict never (fit_to triangle survey2 bay (Some "K2") None) survey2 "c" = Ok [LInt 0; LInt 0; LInt 1; LInt 1; LInt 0] /\
  hits (d_rows survey2) "c" [LInt 0; LInt 0; LInt 0; LInt 0; LInt 0] = 3%nat /\ hits (d_rows survey2) "c" [LInt 0; LInt 0; LInt 1; LInt 1; LInt 0] = 5%nat.
Proof. repeat split; vm_compute; reflexivity. Qed.

(** The hypotheses of C129_vote are met: the states are those of the data. *)
Example C129_met : exists b0 S b, reached_net b0 /\ node_states b0 = Ok S /\ (forall u, In u (b_nodes b0) -> declared S u <> []) /\
  incl (b_nodes b0) (d_cols mixed) /\ sound_way mle None None /\ fit_cpds b0 mixed mle None None = (b, Ok tt) /\ In "c" (b_nodes b0) /\
  incl (get_parents b0 "c") (d_cols mixed) /\
  (forall r p, In r (d_rows mixed) -> In p (get_parents b0 "c") -> exists x, at_col r p = Some x /\ In x (declared S p)) /\ get_parents b0 "c" = ["b"].
Proof.
  destruct chain_ok as (A & B & C & D & E). destruct C103_met as [_ Co].
  destruct (to_learnt chain mixed mle None None A B C D E chain_col Co (or_introl eq_refl)) as (b0 & b1 & b2 & S & E0 & E1 & E2 & R1 & NS & Ne & Ic & HE & HN & Dec & _).
  exists b1, S, b2. assert (Gp : get_parents b1 "c" = ["b"]).
  { vm_compute in E0. injection E0 as <-. vm_compute in E1. injection E1 as <-. reflexivity. }
  repeat (split; [assumption|]). split; [left; auto|]. split; [auto|]. split; [apply HN; cbn; auto|]. rewrite Gp. split; [intros x [<-|[]]; cbn; auto|]. split; [|auto].
  intros r p Hr [<-|[]]. assert (X : exists x, at_col r "b" = Some x) by (cbn in Hr; decompose [or] Hr; subst; try tauto; cbn; eauto).
  destruct X as (x & Ex). exists x. split; auto. apply Dec; [cbn; auto|eauto].
Qed.

(** The hypotheses of C130 are met by the chain and the population of C125; the best rule for c is right for four of seven. *)
Example C130_met : weighted people /\ structured chain people ["a"; "b"; "c"] /\ values_in chain bits people /\ parents_first chain ["a"; "b"; "c"] /\
  (forall f w, In (f, w) people -> 0 < w) /\ (forall u, In u ["a"; "b"; "c"] -> one_kind (bits u)) /\
  looks_at ["a"; "b"] (fun i => i "a") /\
  predict never (fit_to chain mixed mle None None) (frame ["b"] (map fst people)) "c" = Ok [LInt 0; LInt 0; LInt 0; LInt 0; LInt 1; LInt 1; LInt 1] /\
  right people "c" [LInt 0; LInt 0; LInt 0; LInt 0; LInt 1; LInt 1; LInt 1] = 4 / 7 /\ right people "c" (map (fun i => i "a") (map fst people)) = 4 / 7.
Proof.
  destruct C125_met as (A & B & C & D & _). destruct C126_met as (_ & _ & _ & _ & OK & _). repeat (split; [assumption|]). split.
  - intros f w H. unfold people, population_of in H. apply in_map_iff in H as (r & [= <- <-] & _). cbn. lra.
  - split; [exact OK|]. split; [intros i j H; apply H; cbn; auto|]. split; [vm_compute; reflexivity|].
    unfold right, people, population_of, total. cbn. lra.
Qed.

(** A rule that looks at a child can be better: here b is a copy of a, and a is predicted without looking at b. *)
Definition couple : graph := srun [] (arcs [("a", "b")]).
Definition duo (x y : Z) : list (string * option label) := [("a", Some (LInt x)); ("b", Some (LInt y))].
Definition twins : df := mkDf ["a"; "b"] [duo 0 0; duo 0 0; duo 1 1]%Z.

Theorem C130_children_refuted : exists g P order d b out rule,
  reached g /\ named g /\ acyclic (edges g) /\ all_linked g /\ edges g <> [] /\ parents_first g order /\ weighted P /\ structured g P order /\
  values_in g bits P /\ (forall f w, In (f, w) P -> 0 < w) /\
  complete d /\ data_in g bits d /\ (forall delta, 0 < delta -> near g P d delta) /\
  learnt_from g d mle None None b /\ (forall pg, predict pg b (frame order (map fst P)) "a" = Ok out) /\
  looks_at ["b"] rule /\ right P "a" out < right P "a" (map rule (map fst P)).
Proof.
  assert (Co : complete twins).
  { split; [repeat constructor; cbn; intuition discriminate|]. split; [discriminate|]. split.
    - intros r c H K. cbn in H, K. decompose [or] H; decompose [or] K; subst; try discriminate; tauto.
    - intros c K. left. intros x H. cbn in K. decompose [or] K; subst; cbn in H; decompose [or] H; subst; eauto; tauto. }
  exists couple, (population_of twins), ["a"; "b"], twins, (fit_to couple twins mle None None), [LInt 0; LInt 0; LInt 0], (fun i => i "b").
  assert (Ok : reached couple /\ named couple /\ acyclic (edges couple) /\ all_linked couple /\ edges couple <> []).
  { split; [apply built|]. split; [exists ["a"; "b"]; reflexivity|].
    destruct (fine [("a", "b")]) as [A B]; [reflexivity|vm_compute; lia|]. split; [exact A|]. split; [exact B|discriminate]. }
  destruct Ok as (A & B & C & D & E). repeat (split; [assumption|]).
  assert (Pa : forall v ps, parents_are couple v ps -> incl ps ["a"; "b"]).
  { intros v ps [_ H] p Hp. apply H in Hp. cbn in *. intuition congruence. }
  assert (Gv : forall f C, incl C ["a"; "b"] -> forall u x, In (u, x) (given f C) -> In u (d_cols twins)).
  { intros f C' H u x X. apply in_map_iff in X as (p & [= <- <-] & X). apply H. auto. }
  split.
  { split; [repeat constructor; cbn; intuition discriminate|]. split; [intros x; cbn; intuition congruence|].
    intros pre v post p Eo H. cbn in H. destruct H as [[= <- <-]|[]]. destruct pre as [|x [|y pre]]; cbn in Eo; [discriminate|injection Eo as <- _; left; auto|injection Eo as _ _ Eo; destruct pre; discriminate]. }
  split; [apply weighted_of; auto|]. split.
  { intros pre v post ps f Eo Hp. destruct pre as [|x [|y pre]]; cbn in Eo.
    - injection Eo as <- <-. assert (ps = []) by (destruct ps as [|p l]; auto; exfalso; assert (X : In p (p :: l)) by (left; auto); apply Hp in X; cbn in X; intuition congruence). subst. ring.
    - injection Eo as <- <- <-. assert (S1 : share (population_of twins) (given f ps) = share (population_of twins) (given f ["a"])).
      { apply share_same; [apply weighted_of; auto| |]; intros p X; [apply Hp in X; cbn in X |- *; intuition congruence|apply Hp; destruct X as [<-|[]]; cbn; auto]. }
      assert (S2 : share (population_of twins) (given f ("b" :: ps)) = share (population_of twins) (given f ["b"; "a"])).
      { apply share_same; [apply weighted_of; auto| |]; intros p [<-|X]; try (left; reflexivity); right; [apply Hp in X; cbn in *; intuition congruence|apply Hp; destruct X as [<-|[]]; cbn; auto]. }
      rewrite S1, S2. ring.
    - injection Eo as _ _ Eo. destruct pre; discriminate. }
  split.
  { intros f w v H Hv. unfold population_of in H. apply in_map_iff in H as (r & [= <- <-] & Hr). cbn in Hr, Hv.
    decompose [or] Hr; decompose [or] Hv; try tauto; subst; match goal with X : LStr _ = LStr _ |- _ => injection X as <- end; cbn; auto. }
  split; [intros f w H; unfold population_of in H; apply in_map_iff in H as (r & [= <- <-] & _); cbn; lra|].
  split; [auto|]. split.
  { split; [intros x [H|[H|[]]]; injection H as <-; cbn; auto|]. intros r v x Hr Hv Ex. cbn in Hr, Hv.
    decompose [or] Hr; decompose [or] Hv; try tauto; subst; match goal with X : LStr _ = LStr _ |- _ => injection X as <- end; cbn in Ex; injection Ex as <-; cbn; auto. }
  split.
  { intros delta Hd v ps f Hv Hp. assert (Iv : incl (v :: ps) ["a"; "b"]) by (intros u [<-|X]; [cbn in *; intuition congruence|apply (Pa v ps); auto]).
    rewrite !share_of by (auto; apply Gv; auto; intros u X; apply Iv; right; auto). unfold Rminus. rewrite !Rplus_opp_r, Rabs_R0. lra. }
  split; [unfold learnt_from; eexists; eexists; repeat split; vm_compute; reflexivity|]. split; [intros pg; vm_compute; reflexivity|].
  split; [intros i j H; apply H; cbn; auto|]. unfold right, population_of, total. cbn. lra.
Qed.
Print Assumptions C130_children_refuted.
