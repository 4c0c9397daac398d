(** * AcycLink: learned structures are acyclic when the threshold is large enough for the penalty. *)
From Coq Require Import List Bool Arith ZArith Lia String QArith Qcanon Qreals Reals Lra Relations.
From Verif Require Import Base QcX Digraph SmModel SmProofs NotearsModel NotearsProofs NotearsThms AcycModel AcycProofs AcycThms.
Import ListNotations.
Local Open Scope list_scope.
Local Open Scope nat_scope.

(** The real number of a rational *)
Definition realq (x : Qc) : R := Q2R (this x).

Lemma realq_0 : realq 0%Qc = 0%R.
Proof. unfold realq. cbn. unfold Q2R. cbn. lra. Qed.
Lemma realq_le x y : (x <= y)%Qc -> (realq x <= realq y)%R.
Proof. intros H. apply Qle_Rle. exact H. Qed.
Lemma realq_abs x : realq (Qcabs x) = Rabs (realq x).
Proof.
  unfold Qcabs. destruct (Qclt_le_dec x 0) as [L|L].
  - assert (R : (realq x < 0)%R) by (rewrite <- realq_0; apply Qlt_Rlt; exact L). rewrite Rabs_left by auto.
    unfold realq. rewrite <- Q2R_opp. apply Qeq_eqR. unfold Qcopp, Q2Qc. cbn [this]. apply Qred_correct.
  - apply realq_le in L. rewrite realq_0 in L. rewrite Rabs_right; auto. lra.
Qed.

(** The value returned for the penalty of [w] is within [delta] of the exact one. *)
Definition within (delta : R) (eh : penalty) (d : nat) (w : list Qc) : Prop :=
  exists q, eh d w = Fin q /\ forall h, exp_penalty d (fun i j => realq (entry d w i j)) h -> (Rabs (realq q - h) <= delta)%R.

(** The threshold excludes cycles of every length up to [d]. *)
Definition excludes (d : nat) (t tol : R) : Prop :=
  forall L, 0 < L <= d -> (INR (fact (L - 1)) * tol < t ^ (2 * L))%R.

Lemma path_index g d name o w keep (E : nat -> nat -> Prop) : graph_of g d name o w keep ->
  (forall i j, i < d -> j < d -> name i = name j -> i = j) ->
  (forall i j, i < d -> j < d -> keep (w i j) -> E i j) ->
  forall x y, path (edges g) x y -> exists i j, i < d /\ j < d /\ x = name i /\ y = name j /\ clos_trans nat E i j.
Proof.
  intros (_ & _ & G & _) Inj K x y P. induction P as [x y H|x y z H P IH].
  - apply G in H. destruct H as (i & j & Hi & Hj & -> & -> & Q). exists i, j. repeat split; auto. apply t_step. auto.
  - apply G in H. destruct H as (i & j & Hi & Hj & -> & -> & Q). destruct IH as (j' & k & Hj' & Hk & E1 & -> & C).
    apply Inj in E1; auto. subst j'. exists i, k. repeat split; auto. apply t_trans with j; auto. apply t_step. auto.
Qed.

Lemma graph_acyclic g d name o w keep (t : Qc) h tol : graph_of g d name o w keep ->
  (forall i j, i < d -> j < d -> name i = name j -> i = j) ->
  (forall x, keep x -> (t <= Qcabs x)%Qc) -> (0 <= t)%Qc ->
  exp_penalty d (fun i j => realq (w i j)) h -> (h <= tol)%R -> excludes d (realq t) tol -> acyclic (edges g).
Proof.
  intros G Inj K Ht P Hh X x C.
  destruct (path_index g d name o w keep (fun i j => i < d /\ j < d /\ (realq t * realq t <= realq (w i j) * realq (w i j))%R) G Inj) with (x := x) (y := x)
    as (i & j & Hi & Hj & E1 & E2 & T); auto.
  - intros i j Hi Hj Kw. repeat split; auto. apply K in Kw. apply realq_le in Kw. rewrite realq_abs in Kw.
    apply realq_le in Ht. rewrite realq_0 in Ht. rewrite <- (Rabs_right (realq t)) in Kw by lra. apply Rsqr_le_abs_1 in Kw. exact Kw.
  - assert (i = j) by (apply Inj; congruence). subst j.
    refine (exp_threshold d _ h (realq t * realq t) P _ _ i T).
    + apply Rle_0_sqr.
    + intros L HL. replace ((realq t * realq t) ^ L)%R with (realq t ^ (2 * L))%R by (rewrite pow_mult; f_equal; cbn; lra).
      apply Rle_lt_trans with (2 := X L HL). apply Rmult_le_compat_l; auto. left. apply fact_pos.
Qed.

Lemma no_edges_acyclic g : edges g = [] -> acyclic (edges g).
Proof. intros -> x P. inversion P; auto. Qed.

Lemma zero_graph g d name o (w : nat -> nat -> Qc) keep : graph_of g d name o w keep -> (forall x, keep x -> x <> 0%Qc) -> (forall i j, w i j = 0%Qc) -> edges g = [].
Proof.
  intros (_ & _ & G & _) K Z. destruct (edges g) as [|[u v] l] eqn:E; auto. exfalso.
  destruct (proj1 (G u v) (or_introl eq_refl)) as (i & j & _ & _ & _ & _ & Kw). apply (K _ Kw). auto.
Qed.

Lemma within_le delta eh d w q h tol : within delta eh d w -> eh d w = Fin q -> exp_penalty d (fun i j => realq (entry d w i j)) h -> (q <= tol)%Qc ->
  (h <= realq tol + delta)%R.
Proof.
  intros (q' & E & B) E' P L. rewrite E' in E. injection E as <-. specialize (B h P). apply realq_le in L. unfold Rabs in B. destruct (Rcase_abs _) in B; lra.
Qed.

(** ** from_numpy *)
Lemma numpy_states fuel opt eh X p t g b : from_numpy fuel opt eh X p t = Ok g -> numpy_warns fuel opt eh X p t = Ok b ->
  exists w, graph_of g (m_cols X) node "unknown" (entry (m_cols X) w) (keep_gt (w_threshold p)) /\
    (w = repeat 0%Qc (m_cols X * m_cols X) \/ exists bnds r a x k, w = opt bnds r a x k /\ b = flt (Fin (h_tol p)) (eh (m_cols X) w)).
Proof.
  unfold numpy_warns. intros E Wn. apply bind_ok in Wn. destruct Wn as ([s b'] & Ea & [= <-]).
  pose proof E as E0. unfold from_numpy in E. destruct (all_finite X); cbn [negb] in E; [|discriminate]. destruct (m_size X =? 0); [discriminate|].
  rewrite Ea in E. cbn [bind fst] in E. exists (w_est s). split.
  - eapply matrix_graph_of; [exact E|]. intros i j Hi Hj. rewrite cut_le_entry. unfold keep_gt.
    destruct (qle _ _) eqn:Q.
    + apply qle_iff in Q. split; [|intros [_ X1]; exfalso; apply (Qclt_not_le _ _ X1); auto].
      split; [congruence|]. intros [_ X1]. exfalso. apply (Qclt_not_le _ _ X1); auto.
    + apply qle_false in Q. tauto.
  - apply ascent_result in Ea. destruct Ea as [(_ & _ & B & _)|(_ & _ & (r & a & x & B) & _ & Eb)]; [left; auto|right].
    eexists _, r, a, x, _. split; [exact B|exact Eb].
Qed.

Lemma numpy_lasso_states fuel opt eh X p t g b : from_numpy_lasso fuel opt eh X p t = Ok g -> numpy_lasso_warns fuel opt eh X p t = Ok b ->
  exists w, graph_of g (m_cols X) node "unknown" (entry (m_cols X) (lasso_matrix (m_cols X) w)) (keep_ge (w_threshold p)) /\
    (w = repeat 0%Qc (2 * m_cols X * m_cols X) \/ exists bnds r a x k, w = opt bnds r a x k /\ b = flt (Fin (h_tol p)) (eh (m_cols X) (lasso_matrix (m_cols X) w))).
Proof.
  unfold numpy_lasso_warns. intros E Wn. apply bind_ok in Wn. destruct Wn as ([s b'] & Ea & [= <-]).
  unfold from_numpy_lasso in E. destruct (all_finite X); cbn [negb] in E; [|discriminate]. destruct (m_size X =? 0); [discriminate|].
  rewrite Ea in E. cbn [bind fst] in E. exists (w_est s). split.
  - eapply matrix_graph_of; [exact E|]. intros i j Hi Hj. rewrite cut_lt_entry. unfold keep_ge.
    destruct (qlt _ _) eqn:Q.
    + apply qlt_iff in Q. split; [|intros [_ X1]; exfalso; apply (Qclt_not_le _ _ Q); auto].
      split; [congruence|]. intros [_ X1]. exfalso. apply (Qclt_not_le _ _ Q); auto.
    + apply qlt_false in Q. tauto.
  - apply ascent_result in Ea. destruct Ea as [(_ & _ & B & _)|(_ & _ & (r & a & x & B) & _ & Eb)]; [left; auto|right].
    eexists _, r, a, x, _. split; [exact B|exact Eb].
Qed.

Lemma entry_repeat n d i j : entry d (repeat 0%Qc n) i j = 0%Qc.
Proof. unfold entry. apply nth_repeat. Qed.
Lemma lasso_repeat n d i j : entry d (lasso_matrix d (repeat 0%Qc n)) i j = 0%Qc.
Proof.
  unfold entry, lasso_matrix, subv.
  assert (F : Forall (fun x => x = 0%Qc) (map (fun xy : Qc * Qc => (fst xy - snd xy)%Qc) (combine (firstn (d * d) (repeat 0%Qc n)) (skipn (d * d) (repeat 0%Qc n))))).
  { apply Forall_forall. intros x Hx. apply in_map_iff in Hx. destruct Hx as ([a b] & <- & Hx). cbn.
    pose proof (in_combine_l _ _ _ _ Hx) as A. pose proof (in_combine_r _ _ _ _ Hx) as B.
    assert (a = 0%Qc) by (eapply repeat_spec; rewrite <- (firstn_skipn (d * d)); apply in_or_app; left; exact A).
    assert (b = 0%Qc) by (eapply repeat_spec; rewrite <- (firstn_skipn (d * d)); apply in_or_app; right; exact B).
    subst. ring. }
  destruct (nth_in_or_default (i * d + j) (map (fun xy : Qc * Qc => (fst xy - snd xy)%Qc) (combine (firstn (d * d) (repeat 0%Qc n)) (skipn (d * d) (repeat 0%Qc n)))) 0%Qc) as [I|I]; auto.
  rewrite Forall_forall in F. auto.
Qed.

(** What the caller may assume about any variant: a graph that matches some weights; they are zero or their
    penalty was accepted. *)
Lemma accepted_acyclic g d name o (v : list Qc) keep p delta eh b :
  graph_of g d name o (entry d v) keep -> (forall i j, i < d -> j < d -> name i = name j -> i = j) ->
  (forall x, keep x -> x <> 0%Qc /\ (w_threshold p <= Qcabs x)%Qc) -> (0 <= w_threshold p)%Qc ->
  (forall i j, entry d v i j = 0%Qc) \/ (within delta eh d v /\ b = flt (Fin (h_tol p)) (eh d v)) -> b = false ->
  excludes d (realq (w_threshold p)) (realq (h_tol p) + delta) -> acyclic (edges g).
Proof.
  intros G Inj K Ht [Z|[Wi Eb]] Nb X.
  - apply no_edges_acyclic. eapply zero_graph; eauto. intros x Hx. apply K; auto.
  - destruct (exp_penalty_ex d (fun i j => realq (entry d v i j))) as (h & P).
    eapply graph_acyclic; eauto; [intros x Hx; apply K; auto|].
    destruct Wi as (q & Eq & B). eapply within_le; eauto; [exists q; auto|].
    rewrite Eq in Eb. cbn in Eb. rewrite Nb in Eb. symmetry in Eb. apply qlt_false in Eb. auto.
Qed.

Lemma keep_gt_ge t x : keep_gt t x -> x <> 0%Qc /\ (t <= Qcabs x)%Qc.
Proof. intros [A B]. split; auto. apply Qclt_le_weak. auto. Qed.

Theorem numpy_acyclic fuel opt eh X p t g delta : from_numpy fuel opt eh X p t = Ok g -> numpy_warns fuel opt eh X p t = Ok false ->
  (forall bnds r a x k, within delta eh (m_cols X) (opt bnds r a x k)) -> (0 <= w_threshold p)%Qc ->
  excludes (m_cols X) (realq (w_threshold p)) (realq (h_tol p) + delta) -> acyclic (edges g).
Proof.
  intros E Wn Wi Ht Ex. destruct (numpy_states _ _ _ _ _ _ _ _ E Wn) as (w & G & S).
  refine (accepted_acyclic g (m_cols X) node _ w _ p delta eh false G _ (keep_gt_ge _) Ht _ eq_refl Ex).
  - intros i j _ _ H. apply node_inj; auto.
  - destruct S as [->|(bnds & r & a & x & k & -> & Eb)]; [left; intros; apply entry_repeat|right; split; auto].
Qed.

Theorem numpy_lasso_acyclic fuel opt eh X p t g delta : from_numpy_lasso fuel opt eh X p t = Ok g -> numpy_lasso_warns fuel opt eh X p t = Ok false ->
  (forall bnds r a x k, within delta eh (m_cols X) (lasso_matrix (m_cols X) (opt bnds r a x k))) -> (0 <= w_threshold p)%Qc ->
  excludes (m_cols X) (realq (w_threshold p)) (realq (h_tol p) + delta) -> acyclic (edges g).
Proof.
  intros E Wn Wi Ht Ex. destruct (numpy_lasso_states _ _ _ _ _ _ _ _ E Wn) as (w & G & S).
  refine (accepted_acyclic g (m_cols X) node _ (lasso_matrix (m_cols X) w) _ p delta eh false G _ (fun x H => H) Ht _ eq_refl Ex).
  - intros i j _ _ H. apply node_inj; auto.
  - destruct S as [->|(bnds & r & a & x & k & -> & Eb)]; [left; intros; apply lasso_repeat|right; split; auto].
Qed.

Lemma col_name_inj cols d : NoDup cols -> d = List.length cols -> forall i j, i < d -> j < d -> col_name cols i = col_name cols j -> i = j.
Proof. intros N -> i j Hi Hj. apply (proj1 (NoDup_nth cols (LInt 0)) N); auto. Qed.

Theorem pandas_acyclic fuel opt eh X p t g delta : NoDup (map fst (f_cols X)) -> notears_pandas fuel opt eh X p t = Ok g ->
  pandas_warns (fun M tz => numpy_warns fuel opt eh M p tz) X t = Ok false ->
  (forall bnds r a x k, within delta eh (List.length (f_cols X)) (opt bnds r a x k)) -> (0 <= w_threshold p)%Qc ->
  excludes (List.length (f_cols X)) (realq (w_threshold p)) (realq (h_tol p) + delta) -> acyclic (edges g).
Proof.
  intros ND E Wn Wi Ht Ex. destruct (from_pandas_graph _ X t g ND E) as (tz & g0 & Et & E0 & G).
  unfold pandas_warns in Wn. rewrite Et in Wn. cbn [bind] in Wn. rewrite map_length in Wn.
  destruct (numpy_states _ _ _ _ _ _ _ _ E0 Wn) as (w & G0 & S). cbn [m_cols] in *.
  refine (accepted_acyclic g _ _ _ w _ p delta eh false (G _ _ _ G0) _ (keep_gt_ge _) Ht _ eq_refl Ex).
  - apply col_name_inj; auto. rewrite map_length. auto.
  - destruct S as [->|(bnds & r & a & x & k & -> & Eb)]; [left; intros; apply entry_repeat|right; split; auto].
Qed.

Theorem pandas_lasso_acyclic fuel opt eh X p t g delta : NoDup (map fst (f_cols X)) -> notears_pandas_lasso fuel opt eh X p t = Ok g ->
  pandas_warns (fun M tz => numpy_lasso_warns fuel opt eh M p tz) X t = Ok false ->
  (forall bnds r a x k, within delta eh (List.length (f_cols X)) (lasso_matrix (List.length (f_cols X)) (opt bnds r a x k))) -> (0 <= w_threshold p)%Qc ->
  excludes (List.length (f_cols X)) (realq (w_threshold p)) (realq (h_tol p) + delta) -> acyclic (edges g).
Proof.
  intros ND E Wn Wi Ht Ex. destruct (from_pandas_graph _ X t g ND E) as (tz & g0 & Et & E0 & G).
  unfold pandas_warns in Wn. rewrite Et in Wn. cbn [bind] in Wn. rewrite map_length in Wn.
  destruct (numpy_lasso_states _ _ _ _ _ _ _ _ E0 Wn) as (w & G0 & S). cbn [m_cols] in *.
  refine (accepted_acyclic g _ _ _ (lasso_matrix (List.length (f_cols X)) w) _ p delta eh false (G _ _ _ G0) _ (fun x H => H) Ht _ eq_refl Ex).
  - apply col_name_inj; auto. rewrite map_length. auto.
  - destruct S as [->|(bnds & r & a & x & k & -> & Eb)]; [left; intros; apply lasso_repeat|right; split; auto].
Qed.
