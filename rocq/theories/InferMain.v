(** * InferMain: answers are conditional probabilities and distributions. *)
From Coq Require Import List Bool Arith ZArith Lia String QArith Qcanon Permutation Relations.
From Verif Require Import Base QcX Digraph BbnModel SumOver Kruskal Sched BbnTables BbnProofs BbnQuery BbnBuild InferModel InferSpec InferProofs InferEngine InferOps.
Import ListNotations.
Local Open Scope Qc_scope.
Local Open Scope list_scope.

(** ** Facts about probabilities over worlds *)
Lemma all_worlds_keys_fst N w : In w (all_worlds N) -> map fst w = vars N.
Proof.
  revert w. induction N as [|[v c] N IH]; cbn [all_worlds]; intros w H.
  - destruct H as [<-|[]]; auto.
  - apply in_flat_map in H as (s & _ & H). apply in_map_iff in H as (w' & <- & H).
    cbn [map fst vars]. f_equal. apply IH; auto.
Qed.

Lemma all_worlds_state N w v : NoDup (vars N) -> In w (all_worlds N) -> In v (vars N) -> In (at_ w v) (states_of N v).
Proof.
  revert w. induction N as [|[u c] N IH]; cbn [all_worlds]; intros w ND H Hv; [destruct Hv|].
  apply in_flat_map in H as (s & Hs & H). apply in_map_iff in H as (w' & <- & H).
  unfold at_, states_of. cbn [find fst]. cbn [vars map fst] in *. inversion ND; subst.
  destruct (String.eqb_spec u v) as [->|Ne]; auto.
  apply (IH w'); auto. destruct Hv; [congruence|auto].
Qed.

Section Probs.
  Variable N : net.
  Hypothesis SO : shape_ok N.

  Lemma joint_nonneg w : In w (all_worlds N) -> 0 <= joint N w.
  Proof.
    intros Hw. apply Qprod_nonneg. intros [v c] Hin. cbn [fst snd].
    assert (Hv : In v (vars N)) by (apply in_map_iff; exists (v, c); auto).
    apply (ok_nonneg N SO v c); auto.
    - rewrite <- (states_of_In N v c); auto; [|apply ok_vars; auto].
      apply all_worlds_state; auto. apply ok_vars; auto.
    - destruct (ok_parents N SO v c Hin) as [_ I]. clear -Hw I SO.
      induction (parents c) as [|p ps IH]; cbn [map]; constructor.
      + apply all_worlds_state; auto. apply ok_vars; auto. apply I; left; auto.
      + apply IH. intros x Hx. apply I. right; auto.
  Qed.

  Lemma Pr_nonneg P : 0 <= Pr N P.
  Proof. apply Qsum_nonneg. intros w H. apply filter_In in H as [H _]. apply joint_nonneg; auto. Qed.

  Lemma Pr_mono P Q : (forall w, In w (all_worlds N) -> P w = true -> Q w = true) -> Pr N P <= Pr N Q.
  Proof.
    intros H. unfold Pr. rewrite !Qsum_filter. apply Qsum_le. intros w Hw.
    destruct (P w) eqn:E1; destruct (Q w) eqn:E2.
    - apply Qcle_refl'.
    - rewrite (H w Hw E1) in E2. discriminate.
    - apply joint_nonneg; auto.
    - apply Qcle_refl'.
  Qed.

  Lemma Pr_ext P Q : (forall w, In w (all_worlds N) -> P w = Q w) -> Pr N P = Pr N Q.
  Proof. intros H. unfold Pr. rewrite !Qsum_filter. apply Qsum_ext. intros w Hw. rewrite H; auto. Qed.

  Lemma Pr_split P v : In v (vars N) ->
    Qsum (fun s => Pr N (fun w => P w && is_ v s w)%bool) (states_of N v) = Pr N P.
  Proof.
    intros Hv. unfold Pr. rewrite Qsum_filter.
    transitivity (Qsum (fun s => Qsum (fun w => if (P w && is_ v s w)%bool then joint N w else 0) (all_worlds N)) (states_of N v)).
    { apply Qsum_ext. intros s _. apply Qsum_filter. }
    rewrite Qsum_swap. apply Qsum_ext. intros w Hw.
    assert (Hs : In (at_ w v) (states_of N v)) by (apply all_worlds_state; auto; apply ok_vars; auto).
    assert (ND : NoDup (states_of N v)).
    { apply in_map_iff in Hv as ([u c] & <- & Hc). cbn [fst].
      rewrite (states_of_In N u c (ok_vars N SO) Hc). apply (ok_states N SO u c Hc). }
    rewrite (Qsum_single _ (states_of N v) (at_ w v)); auto.
    - unfold is_. destruct (label_eqb_spec (at_ w v) (at_ w v)); [|congruence]. rewrite andb_true_r. auto.
    - intros y _ Ny. unfold is_. destruct (label_eqb_spec (at_ w v) y); [congruence|]. rewrite andb_false_r. auto.
  Qed.

  Lemma Pr_and_sum obs v : In v (vars N) -> Qsum (Pr_and N obs v) (states_of N v) = Pr N (observed obs).
  Proof. intros Hv. apply (Pr_split (observed obs) v Hv). Qed.

  Lemma Pr_and_le obs v s : Pr_and N obs v s <= Pr N (observed obs).
  Proof. apply Pr_mono. intros w _ H. apply andb_true_iff in H. tauto. Qed.

  Lemma Pr_and_zero obs v s : Pr N (observed obs) = 0 -> Pr_and N obs v s = 0.
  Proof.
    intros Z. apply Qcle_antisym; [rewrite <- Z; apply Pr_and_le|apply Pr_nonneg].
  Qed.

  Lemma observed_In obs w v x : observed obs w = true -> In (v, x) obs -> at_ w v = x.
  Proof.
    intros H Hin. unfold observed in H. rewrite forallb_forall in H. specialize (H _ Hin). cbn [fst snd] in H.
    destruct (label_eqb_spec (at_ w v) x); [auto|discriminate].
  Qed.

  Lemma Pr_and_obs_same obs v x : In (v, x) obs -> Pr_and N obs v x = Pr N (observed obs).
  Proof.
    intros Hin. apply Pr_ext. intros w _. destruct (observed obs w) eqn:E; cbn [andb]; auto.
    unfold is_. rewrite (observed_In obs w v x E Hin). destruct (label_eqb_spec x x); [auto|congruence].
  Qed.

  Lemma Pr_and_obs_other obs v x s : In (v, x) obs -> s <> x -> Pr_and N obs v s = 0.
  Proof.
    intros Hin Ne. unfold Pr_and, Pr. rewrite Qsum_filter. apply Qsum_all_zero. intros w _.
    destruct (observed obs w) eqn:E; cbn [andb]; auto. unfold is_.
    rewrite (observed_In obs w v x E Hin). destruct (label_eqb_spec x s); [congruence|auto].
  Qed.
End Probs.

(** ** The total mass of a reachable network is one *)
Section Mass1.
  Variables (e : eng) (N : net) (h : string -> option dist).
  Hypothesis SO : shape_ok N.
  Hypothesis NO : names_ok N.
  Hypothesis EO : eng_ok e N h.
  Hypothesis CS : columns_sum_1 N.
  Hypothesis J : joined (edited h N).

  Lemma Pr_true : Pr (edited h N) (fun _ => true) = 1.
  Proof.
    destruct (built_facts e N h SO NO EO) as (b & Eb & HD & HP & HN & HT).
    assert (SO' : shape_ok (edited h N)) by (apply edited_shape; auto; apply (eo_dists e N h EO)).
    assert (NS' : ~ In "self"%string (vars (edited h N))) by (rewrite edited_vars; apply NO).
    assert (RC : rep_cpds (e_cpds e) (edited h N)) by apply (eo_rep e N h EO).
    assert (WF : wf_bbn b) by (apply (built_wf _ SO' (e_cpds e) RC NS' b HD HP HN HT J)).
    transitivity (total b (fun _ => true)).
    - symmetry. apply (total_Pr (edited h N) SO' (e_cpds e) RC NS' b HD HP WF (fun _ => true)). auto.
    - apply total_mass; auto.
      apply (built_stochastic _ SO' (e_cpds e) RC NS' b HD HP HN).
      apply edited_columns; auto. apply (eo_dists e N h EO).
  Qed.
End Mass1.

(** The conditional probability P(v = s | obs); zero when the observations have probability zero. *)
Definition cond_prob (N : net) (obs : list (string * label)) (v : string) (s : label) : Qc :=
  if Qc_eq_bool (Pr N (observed obs)) 0 then 0 else Pr_and N obs v s / Pr N (observed obs).

Lemma expected_cond N obs v s : shape_ok N -> Pr N (fun _ => true) = 1 -> expected N obs v s = cond_prob N obs v s.
Proof.
  intros SO T. unfold expected, cond_prob. destruct obs as [|o obs].
  - assert (E : Pr N (observed []) = 1) by (exact T). rewrite E.
    destruct (Qc_eq_bool_spec 1 0) as [X|_]; [discriminate X|].
    unfold Qcdiv. change (/ 1) with 1. ring.
  - destruct (Qc_eq_bool_spec (Pr N (observed (o :: obs))) 0) as [Z|_]; auto. apply Pr_and_zero; auto.
Qed.

Theorem query_conditional sc e N h obs : good_sched sc -> shape_ok N -> names_ok N -> eng_ok e N h ->
  columns_sum_1 N -> joined (edited h N) -> valid_obs N obs ->
  exists r, engine_query sc e obs = Ok r /\ map fst r = vars N /\
    (forall v s, In v (vars N) -> In s (states_of N v) -> answer r v s = Some (cond_prob (edited h N) obs v s)) /\
    (forall v s, ~ (In v (vars N) /\ In s (states_of N v)) -> answer r v s = None) /\
    (forall v d, In (v, d) r -> NoDup (map fst d)).
Proof.
  intros GS SO NO EO CS J VO.
  destruct (engine_query_ok sc e N h GS SO NO EO J obs VO) as (r & E & K & A & B & C).
  exists r. split; auto. split; auto. split; auto. intros v s Hv Hs. rewrite (A v s Hv Hs). f_equal.
  apply expected_cond.
  - apply edited_shape; auto. apply (eo_dists e N h EO).
  - apply (Pr_true e N h); auto.
Qed.

(** The sum of the returned numbers of one variable. *)
Lemma answers_sum (d : list (label * Qc)) sts (f : label -> Qc) : NoDup (map fst d) -> NoDup sts ->
  (forall s, In s sts -> dget label_eqb d s = Some (f s)) ->
  (forall s, ~ In s sts -> dget label_eqb d s = None) ->
  Qsum snd d = Qsum f sts.
Proof.
  intros ND NS A B.
  assert (P : Permutation (map fst d) sts).
  { apply NoDup_Permutation; auto. intros s. split; intros H.
    - destruct (in_dec (fun x y => match label_eqb_spec x y with ReflectT _ p => left p | ReflectF _ p => right p end) s sts); auto.
      apply B in n. apply (dget_None _ label_eqb_spec) in n. tauto.
    - apply A in H. apply (dget_Some_key _ label_eqb_spec) in H. auto. }
  rewrite <- (Qsum_perm f _ _ P), Qsum_map. apply Qsum_ext. intros [s q] Hin. cbn [fst snd].
  pose proof (In_dget _ label_eqb_spec d s q ND Hin) as E.
  assert (Hs : In s sts).
  { apply (Permutation_in _ P). apply in_map_iff. exists (s, q). auto. }
  rewrite (A s Hs) in E. congruence.
Qed.

Lemma cond_prob_sum N obs v : shape_ok N -> In v (vars N) ->
  Qsum (cond_prob N obs v) (states_of N v) = if Qc_eq_bool (Pr N (observed obs)) 0 then 0 else 1.
Proof.
  intros SO Hv. unfold cond_prob. destruct (Qc_eq_bool_spec (Pr N (observed obs)) 0) as [Z|NZ].
  - apply Qsum_all_zero. auto.
  - unfold Qcdiv. rewrite Qsum_mul_r, Pr_and_sum by auto. apply Qc_inv_r. auto.
Qed.

Lemma cond_prob_nonneg N obs v s : shape_ok N -> 0 <= cond_prob N obs v s.
Proof.
  intros SO. unfold cond_prob. destruct (Qc_eq_bool _ _); [apply Qcle_refl'|].
  apply Qc_div_nonneg; apply Pr_nonneg; auto.
Qed.
