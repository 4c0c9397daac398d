(** * InferThms: user-level theorems about InferenceEngine. *)
From Coq Require Import List Bool Arith ZArith Lia String QArith Qcanon Permutation Relations.
From Verif Require Import Base QcX Digraph BbnModel SumOver Forest Elim Triang Kruskal JtConv RTree Sched Calib BbnTables BbnProofs BbnQuery BbnOrder BbnBuild InferModel InferSpec InferProofs InferEngine InferOps InferMain SampleModel SampleProofs.
Import ListNotations.
Local Open Scope Qc_scope.
Local Open Scope list_scope.

(** A fitted network: one rectangular CPD per node with a column for each combination of parent states,
    an acyclic connected structure, identifiers as names, non-negative entries. *)
Definition good_shape (bn : bnet) : Prop :=
  frames_ok bn /\ shape_ok (net_of bn) /\ names_ok (net_of bn) /\ joined (net_of bn).

Lemma good_bn_shape bn : good_bn bn -> good_shape bn.
Proof. intros (A & B & C & D & E). exact (conj A (conj B (conj D E))). Qed.

Lemma new_ok bn : good_shape bn -> exists e, engine_new bn = Ok e /\ eng_ok e (net_of bn) no_do.
Proof.
  intros (FO & SO & NO & J). destruct (engine_new_ok bn FO SO NO) as (e & E & EO & _). eauto.
Qed.

Lemma query_tables bn sc obs : good_shape bn -> good_sched sc -> valid_obs (net_of bn) obs ->
  exists e r, engine_new bn = Ok e /\ engine_query sc e obs = Ok r /\ map fst r = vars (net_of bn) /\
    (forall v s, In v (vars (net_of bn)) -> In s (states_of (net_of bn) v) ->
       answer r v s = Some (expected (net_of bn) obs v s)).
Proof.
  intros G GS VO. destruct (new_ok bn G) as (e & E & EO). destruct G as (FO & SO & NO & J).
  destruct (engine_query_ok sc e (net_of bn) no_do GS SO NO EO) with (obs := obs) as (r & Er & K & A & _).
  - rewrite edited_none. auto.
  - auto.
  - rewrite edited_none in A. exists e, r. auto.
Qed.

Lemma query_exact bn sc obs : good_bn bn -> good_sched sc -> valid_obs (net_of bn) obs ->
  exists e r, engine_new bn = Ok e /\ engine_query sc e obs = Ok r /\ map fst r = vars (net_of bn) /\
    (forall v s, In v (vars (net_of bn)) -> In s (states_of (net_of bn) v) ->
       answer r v s = Some (cond_prob (net_of bn) obs v s)) /\
    (forall v s, ~ (In v (vars (net_of bn)) /\ In s (states_of (net_of bn) v)) -> answer r v s = None).
Proof.
  intros G GS VO. destruct (new_ok bn (good_bn_shape bn G)) as (e & E & EO).
  destruct G as (FO & SO & CS & NO & J).
  destruct (query_conditional sc e (net_of bn) no_do obs GS SO NO EO CS) as (r & Er & K & A & B & _).
  - rewrite edited_none. auto.
  - auto.
  - rewrite edited_none in A. exists e, r. auto.
Qed.

(** ** After a history *)
Section After.
  Variables (sc : sched) (e : eng) (N : net) (h : string -> option dist).
  Hypothesis GS : good_sched sc.
  Hypothesis SO : shape_ok N.
  Hypothesis NO : names_ok N.
  Hypothesis EO : eng_ok e N h.
  Hypothesis CS : columns_sum_1 N.
  Hypothesis J : joined (edited h N).

  Lemma query_dists obs : valid_obs N obs ->
    exists r, engine_query sc e obs = Ok r /\ map fst r = vars N /\
      forall v d, In (v, d) r ->
        (forall s, In s (map fst d) <-> In s (states_of N v)) /\ NoDup (map fst d) /\
        (forall s q, In (s, q) d -> 0 <= q) /\
        (Pr (edited h N) (observed obs) <> 0 -> Qsum snd d = 1) /\
        (Pr (edited h N) (observed obs) = 0 -> forall s q, In (s, q) d -> q = 0) /\
        (Pr (edited h N) (observed obs) <> 0 -> forall x, In (v, x) obs ->
           forall s q, In (s, q) d -> q = if label_eqb s x then 1 else 0).
  Proof.
    intros VO. destruct (query_conditional sc e N h obs GS SO NO EO CS J VO) as (r & Er & K & A & B & C).
    exists r. split; auto. split; auto. intros v d Hin.
    assert (SO' : shape_ok (edited h N)) by (apply edited_shape; auto; apply (eo_dists e N h EO)).
    assert (NDr : NoDup (dkeys r)) by (unfold dkeys; rewrite K; apply ok_vars; auto).
    assert (Hv : In v (vars N)) by (rewrite <- K; apply in_map_iff; exists (v, d); auto).
    pose proof (In_dget _ String.eqb_spec r v d NDr Hin) as Ed.
    assert (ND : NoDup (map fst d)) by (apply (C v d Hin)).
    assert (Gd : forall s, answer r v s = dget label_eqb d s).
    { intros s. unfold answer. rewrite Ed. auto. }
    assert (A1 : forall s, In s (states_of N v) -> dget label_eqb d s = Some (cond_prob (edited h N) obs v s)).
    { intros s Hs. rewrite <- Gd. apply A; auto. }
    assert (B1 : forall s, ~ In s (states_of N v) -> dget label_eqb d s = None).
    { intros s Hs. rewrite <- Gd. apply B. tauto. }
    assert (Kd : forall s, In s (map fst d) <-> In s (states_of N v)).
    { intros s. split; intros H.
      - destruct (lmem s (states_of N v)) eqn:L; [apply lmem_In; auto|].
        apply lmem_false, B1, (dget_None _ label_eqb_spec) in L. tauto.
      - apply A1, (dget_Some_key _ label_eqb_spec) in H. auto. }
    assert (Val : forall s q, In (s, q) d -> q = cond_prob (edited h N) obs v s).
    { intros s q Hs. pose proof (In_dget _ label_eqb_spec d s q ND Hs) as E1. rewrite A1 in E1; [congruence|].
      apply Kd. apply in_map_iff. exists (s, q). auto. }
    split; auto. split; auto. split; [|split; [|split]].
    - intros s q Hs. rewrite (Val s q Hs). apply cond_prob_nonneg; auto.
    - intros NZ. rewrite (answers_sum d (states_of N v) (cond_prob (edited h N) obs v)); auto.
      + rewrite <- (edited_states h N v). rewrite cond_prob_sum; auto; [|rewrite edited_vars; auto].
        destruct (Qc_eq_bool_spec (Pr (edited h N) (observed obs)) 0); [tauto|auto].
      + apply in_map_iff in Hv as ([u c] & <- & Hc). cbn [fst].
        rewrite (states_of_In N u c (ok_vars N SO) Hc). apply (ok_states N SO u c Hc).
    - intros Z s q Hs. rewrite (Val s q Hs). unfold cond_prob. rewrite Z. reflexivity.
    - intros NZ x Hx s q Hs. rewrite (Val s q Hs). unfold cond_prob.
      destruct (Qc_eq_bool_spec (Pr (edited h N) (observed obs)) 0); [tauto|].
      destruct (label_eqb_spec s x) as [->|Ne].
      + rewrite Pr_and_obs_same by auto. apply Qc_div_self. auto.
      + rewrite (Pr_and_obs_other _ obs v x s) by auto. unfold Qcdiv. ring.
  Qed.

  (** Evidence validation. *)
  Lemma validate_first b obs :
    (validate_keyvals b obs = Ok tt /\ forall v x, In (v, x) obs -> In v (map nvar (bnodes b)) /\ In x (domain_of b v)) \/
    exists pre v x post, obs = pre ++ (v, x) :: post /\
      (forall u y, In (u, y) pre -> In u (map nvar (bnodes b)) /\ In y (domain_of b u)) /\
      ((~ In v (map nvar (bnodes b)) /\ validate_keyvals b obs = Err (VariableNotInGraphError v)) \/
       (In v (map nvar (bnodes b)) /\ ~ In x (domain_of b v) /\
        validate_keyvals b obs = Err (VariableValueNotInDomainError v))).
  Proof.
    induction obs as [|[v x] obs IH]; cbn [validate_keyvals].
    - left. split; auto. intros v x [].
    - destruct (smem v (map nvar (bnodes b))) eqn:E1.
      + apply smem_In in E1. destruct (lmem x (domain_of b v)) eqn:E2.
        * apply lmem_In in E2. destruct IH as [[E H]|(pre & u & y & post & Eo & Hp & D)].
          -- left. split; auto. intros u y [[= <- <-]|Hin]; auto.
          -- right. exists ((v, x) :: pre), u, y, post. split; [rewrite Eo; auto|]. split; auto.
             intros w z [[= <- <-]|Hin]; auto.
        * apply lmem_false in E2. right. exists [], v, x, obs. split; auto. split; [intros u y []|]. right. auto.
      + apply smem_false in E1. right. exists [], v, x, obs. split; auto. split; [intros u y []|]. left. auto.
  Qed.

  Lemma engine_vars : exists b, e_bbn e = b /\ wf_bbn b /\
    (forall v, In v (map nvar (bnodes b)) <-> In v (vars N)) /\
    (forall v, In v (vars N) -> domain_of b v = states_of N v) /\
    (forall obs, incl (map fst obs) (vars N) -> total b (matches obs) = Pr (edited h N) (observed obs)) /\
    (forall obs v x, incl (map fst obs) (vars N) -> In v (vars N) ->
       total b (fun w => matches obs w && label_eqb (look w v) x)%bool = Pr_and (edited h N) obs v x) /\
    (columns_sum_1 N -> total b (fun _ => true) = 1).
  Proof.
    destruct (built_facts e N h SO NO EO) as (b & Eb & HD & HP & HN & HT).
    assert (SO' : shape_ok (edited h N)) by (apply edited_shape; auto; apply (eo_dists e N h EO)).
    assert (NS' : ~ In "self"%string (vars (edited h N))) by (rewrite edited_vars; apply NO).
    assert (RC : rep_cpds (e_cpds e) (edited h N)) by apply (eo_rep e N h EO).
    assert (WF : wf_bbn b) by (apply (built_wf _ SO' (e_cpds e) RC NS' b HD HP HN HT J)).
    exists b. split; auto. split; auto. split; [|split; [|split; [|split]]].
    - intros v. rewrite (built_vars _ (e_cpds e) b HP v). rewrite edited_vars. reflexivity.
    - intros v Hv. rewrite (built_domain' _ SO' b HD v); [apply edited_states|]. rewrite edited_vars. auto.
    - intros obs I. apply (total_observed _ SO' (e_cpds e) RC NS' b HD HP WF). rewrite edited_vars. auto.
    - intros obs v x I Hv. apply (total_and _ SO' (e_cpds e) RC NS' b HD HP WF); rewrite edited_vars; auto.
    - intros CS'. apply total_mass; auto. apply (built_stochastic _ SO' (e_cpds e) RC NS' b HD HP HN).
      apply edited_columns; auto. apply (eo_dists e N h EO).
  Qed.

  Definition first_bad (obs : list (string * label)) (v : string) (x : label) : Prop :=
    exists pre post, obs = pre ++ (v, x) :: post /\
      (forall u y, In (u, y) pre -> In u (vars N) /\ In y (states_of N u)) /\
      ~ (In v (vars N) /\ In x (states_of N v)).

  Lemma query_validates obs : NoDup (map fst obs) -> ~ In "self"%string (map fst obs) ->
    ((forall v x, In (v, x) obs -> In v (vars N) /\ In x (states_of N v)) /\ exists r, engine_query sc e obs = Ok r) \/
    exists v x, first_bad obs v x /\
      engine_query sc e obs = Err (if smem v (vars N) then VariableValueNotInDomainError v else VariableNotInGraphError v).
  Proof.
    intros ND NS. destruct engine_vars as (b & Eb & WF & KV & KD & _).
    destruct (validate_first b obs) as [[E H]|(pre & v & x & post & Eo & Hp & D)].
    - left. assert (VO : forall v x, In (v, x) obs -> In v (vars N) /\ In x (states_of N v)).
      { intros v x Hin. destruct (H v x Hin) as [H1 H2]. apply KV in H1. split; auto. rewrite <- KD; auto. }
      split; auto. destruct (engine_query_ok sc e N h GS SO NO EO J obs (conj ND VO)) as (r & Er & _). eauto.
    - right. exists v, x. split.
      + exists pre, post. split; auto. split.
        * intros u y Hin. destruct (Hp u y Hin) as [H1 H2]. apply KV in H1. split; auto. rewrite <- KD; auto.
        * intros [H1 H2]. rewrite <- KD in H2 by auto. apply KV in H1. tauto.
      + unfold engine_query. replace (smem "self"%string (map fst obs)) with false
          by (symmetry; apply smem_false; auto).
        rewrite Eb. unfold bbn_query. destruct D as [[H1 ->]|(H1 & H2 & ->)]; cbn [bind].
        * assert (S : smem v (vars N) = false) by (apply smem_false; intros H; apply KV in H; tauto). rewrite S. auto.
        * apply KV in H1. apply smem_In in H1. rewrite H1. auto.
  Qed.

  (** Samples drawn from the engine's network. *)
  Definition step_ok (r : Qc) (past : list (string * label)) (v : string) (x : label) : Prop :=
    In v (vars N) /\ ~ In v (map fst past) /\
    exists before after, states_of N v = before ++ x :: after /\
      Qsum (cond_prob (edited h N) past v) before < r /\
      r <= Qsum (cond_prob (edited h N) past v) before + cond_prob (edited h N) past v x.

  Lemma samples_ok (D : draws) q n :
    (forall i j, good_sched (scheds D i j)) ->
    (forall i j, 0 < rnd D i j /\ rnd D i j <= 1) ->
    valid_obs N q -> Pr (edited h N) (observed q) <> 0 ->
    exists ss, draw_samples D (e_bbn e) q n = Ok ss /\ List.length ss = n /\
      forall k s, nth_error ss k = Some s ->
        Permutation (map fst s) (vars N) /\
        (forall v x, In (v, x) s -> In x (states_of N v)) /\
        Pr (edited h N) (observed s) <> 0 /\
        exists new, s = q ++ new /\
          forall j v x, nth_error new j = Some (v, x) -> step_ok (rnd D k j) (q ++ firstn j new) v x.
  Proof.
    intros GSD R01 [ND VO] NZ. destruct engine_vars as (b & Eb & WF & KV & KD & TO & TA & T1).
    assert (NS : ~ In "self"%string (map nvar (bnodes b))) by (intros H; apply KV in H; destruct NO; auto).
    assert (Iq : forall q', (forall v x, In (v, x) q' -> In v (vars N) /\ In x (states_of N v)) -> incl (map fst q') (vars N)).
    { intros q' H u Hu. apply in_map_iff in Hu as ([w x] & <- & Hin). apply (H w x Hin). }
    rewrite Eb.
    destruct (draw_samples_ok D b WF GSD NS (T1 CS) R01 q n) as (ss & E & L & H).
    { split; auto. split.
      - intros v x Hin. destruct (VO v x Hin) as [H1 H2]. split; [apply KV; auto|]. rewrite KD; auto.
      - rewrite TO by auto. auto. }
    exists ss. split; auto. split; auto. intros k s Hk. destruct (H k s Hk) as (P & Hd & _ & NZs & (new & Es & St)).
    assert (Pv : forall v, In v (map fst s) <-> In v (vars N)).
    { intros v. rewrite <- KV. split; apply Permutation_in; auto. apply Permutation_sym; auto. }
    assert (Vs : forall v x, In (v, x) s -> In v (vars N) /\ In x (states_of N v)).
    { intros v x Hin. assert (Hv : In v (vars N)) by (apply Pv; apply in_map_iff; exists (v, x); auto).
      split; auto. rewrite <- KD by auto. auto. }
    assert (NDs : NoDup (map fst s)).
    { apply (Permutation_NoDup (Permutation_sym P)). apply (topo_NoDup _ (wf_topo b WF)). }
    split; [|split; [|split]].
    - apply NoDup_Permutation; auto. apply ok_vars; auto.
    - intros v x Hin. apply (Vs v x Hin).
    - rewrite <- TO; auto.
    - exists new. split; auto. intros j v x Hj.
      assert (Hnew : In (v, x) new) by (eapply nth_error_In; eauto).
      assert (Hv : In v (vars N)).
      { apply (Vs v x). rewrite Es. apply in_app_iff. auto. }
      destruct (St j v x Hj) as (_ & bf & af & Ed & H1 & H2).
      set (past := q ++ firstn j new) in *.
      assert (Ip : incl (map fst past) (vars N)).
      { apply Iq. intros u y Hin. unfold past in Hin. apply in_app_iff in Hin as [Hin|Hin]; auto.
        apply (Vs u y). rewrite Es. apply in_app_iff. right. rewrite <- (firstn_skipn j new). apply in_app_iff. auto. }
      assert (EQ : forall y, query_value b past v y = cond_prob (edited h N) past v y).
      { intros y. rewrite <- expected_cond.
        - unfold query_value, expected. rewrite TO, TA by auto. destruct past; auto.
        - apply edited_shape; auto. apply (eo_dists e N h EO).
        - apply (Pr_true e N h); auto. }
      split; auto. split.
      + intros Hin.
        assert (Esplit : s = past ++ (v, x) :: skipn (S j) new).
        { unfold past. rewrite <- app_assoc. rewrite Es. f_equal.
          clear -Hj. revert new Hj. induction j as [|j IH]; intros [|y new] Hj; try discriminate; cbn in *.
          - congruence.
          - f_equal. apply IH; auto. }
        rewrite Esplit, map_app in NDs. cbn [map fst] in NDs. apply NoDup_remove_2 in NDs.
        apply NDs, in_app_iff. auto.
      + exists bf, af. rewrite <- KD by auto. split; auto.
        rewrite <- (Qsum_ext (query_value b past v)) by (intros; apply EQ). rewrite <- EQ. auto.
  Qed.
End After.

(** A query only succeeds on a connected network. *)
Lemma query_joined sc e N h obs r : good_sched sc -> shape_ok N -> names_ok N -> eng_ok e N h ->
  engine_query sc e obs = Ok r -> joined (edited h N).
Proof.
  intros GS SO NO EO E. destruct (built_facts e N h SO NO EO) as (b & Eb & HD & HP & HN & HT).
  assert (SO' : shape_ok (edited h N)) by (apply edited_shape; auto; apply (eo_dists e N h EO)).
  assert (NS' : ~ In "self"%string (vars (edited h N))) by (rewrite edited_vars; apply NO).
  assert (RC : rep_cpds (e_cpds e) (edited h N)) by apply (eo_rep e N h EO).
  unfold engine_query in E. destruct (smem _ _); [discriminate|]. apply bind_ok in E as (m & E & _).
  rewrite Eb in E. unfold bbn_query in E. apply bind_ok in E as ([] & _ & E). apply bind_ok in E as (jt & Ej & _).
  apply (build_join_tree_connected sc _ jt GS HT) in Ej. clear jt.
  intros x y Hx Hy. apply (built_vars _ (e_cpds e) b HP) in Hx, Hy. specialize (Ej x y Hx Hy).
  apply clos_rt1n_rt in Ej. clear Hx Hy. induction Ej as [x y (n & Hn & Fx & Fy)|x|x y z _ I1 _ I2].
  - destruct (built_node _ SO' (e_cpds e) b HP HN n Hn) as (c & Hc & _ & Ep).
    unfold family in Fx, Fy. rewrite Ep in Fx, Fy.
    assert (A : forall p, In p (parents c) -> In (p, nvar n) (parent_arrows (edited h N))).
    { intros p Hp. unfold parent_arrows. apply in_flat_map. exists (nvar n, c). split; auto.
      cbn [fst snd]. apply in_map_iff. exists p. auto. }
    apply rt_trans with (nvar n).
    + destruct Fx as [<-|Fx]; [apply rt_refl|apply rt_step; auto].
    + destruct Fy as [<-|Fy]; [apply rt_refl|apply rt_step; auto].
  - apply rt_refl.
  - eapply rt_trans; eauto.
Qed.

(** ** Histories from a fresh engine *)
Definition reached (bn : bnet) (ops : list iop) (e : eng) (past : log) : Prop :=
  exists e0, engine_new bn = Ok e0 /\ irun_log e0 ops [] = (e, past).

Lemma reached_inv bn ops e past : good_shape bn -> Forall op_ok ops -> reached bn ops e past ->
  exists h, eng_ok e (net_of bn) h /\ force_ok (net_of bn) e past h /\ e_orig e = create_cpds_dict (bn_cpds bn).
Proof.
  intros (FO & SO & NO & J) FA (e0 & E0 & ER).
  destruct (engine_new_ok bn FO SO NO) as (e1 & E1 & EO & Ec & Eo).
  rewrite E0 in E1. injection E1 as <-.
  destruct (history (net_of bn) SO NO ops e0 [] no_do EO) as (h & H1 & H2 & H3); auto.
  - intros v. cbn [in_force]. split; auto. rewrite Ec, Eo. auto.
  - rewrite ER in *. cbn [fst snd] in *. exists h. split; auto. split; auto. congruence.
Qed.

(** ** A fresh engine *)
Lemma query_succeeds bn sc obs : good_shape bn -> good_sched sc -> valid_obs (net_of bn) obs ->
  exists e r, engine_new bn = Ok e /\ engine_query sc e obs = Ok r.
Proof. intros G GS VO. destruct (query_tables bn sc obs G GS VO) as (e & r & A & B & _). eauto. Qed.

Lemma new_query_dists bn sc obs : good_bn bn -> good_sched sc -> valid_obs (net_of bn) obs ->
  exists e r, engine_new bn = Ok e /\ engine_query sc e obs = Ok r /\ map fst r = vars (net_of bn) /\
    forall v d, In (v, d) r ->
      (forall s, In s (map fst d) <-> In s (states_of (net_of bn) v)) /\ NoDup (map fst d) /\
      (forall s p, In (s, p) d -> 0 <= p) /\
      (obs = [] \/ Pr (net_of bn) (observed obs) <> 0 -> Qsum snd d = 1) /\
      (obs <> [] -> Pr (net_of bn) (observed obs) = 0 -> forall s p, In (s, p) d -> p = 0) /\
      (Pr (net_of bn) (observed obs) <> 0 -> forall x, In (v, x) obs ->
         forall s p, In (s, p) d -> p = if label_eqb s x then 1 else 0).
Proof.
  intros G GS VO. destruct (new_ok bn (good_bn_shape bn G)) as (e & E & EO).
  destruct G as (FO & SO & CS & NO & J).
  assert (J' : joined (edited no_do (net_of bn))) by (rewrite edited_none; auto).
  destruct (query_dists sc e (net_of bn) no_do GS SO NO EO CS J' obs VO) as (r & Er & K & A).
  rewrite edited_none in A. exists e, r. split; auto. split; auto. split; auto.
  intros v d Hin. destruct (A v d Hin) as (A1 & A2 & A3 & A4 & A5 & A6). repeat (split; auto).
  intros [->|H]; auto. apply A4.
  pose proof (Pr_true e (net_of bn) no_do SO NO EO CS J') as P. rewrite edited_none in P.
  rewrite (Pr_ext (net_of bn) (observed []) (fun _ => true)) by reflexivity. rewrite P. discriminate.
Qed.

Lemma new_query_validates bn sc obs : good_shape bn -> good_sched sc ->
  NoDup (map fst obs) -> ~ In "self"%string (map fst obs) ->
  exists e, engine_new bn = Ok e /\
    (((forall v x, In (v, x) obs -> In v (vars (net_of bn)) /\ In x (states_of (net_of bn) v)) /\
      exists r, engine_query sc e obs = Ok r) \/
     exists pre v x post, obs = pre ++ (v, x) :: post /\
       (forall u y, In (u, y) pre -> In u (vars (net_of bn)) /\ In y (states_of (net_of bn) u)) /\
       ((~ In v (vars (net_of bn)) /\ engine_query sc e obs = Err (VariableNotInGraphError v)) \/
        (In v (vars (net_of bn)) /\ ~ In x (states_of (net_of bn) v) /\
         engine_query sc e obs = Err (VariableValueNotInDomainError v)))).
Proof.
  intros G GS ND NS. destruct (new_ok bn G) as (e & E & EO). destruct G as (FO & SO & NO & J).
  exists e. split; auto.
  assert (J' : joined (edited no_do (net_of bn))) by (rewrite edited_none; auto).
  destruct (query_validates sc e (net_of bn) no_do GS SO NO EO J' obs ND NS)
    as [H|(v & x & (pre & post & Eo & Hp & Hn) & Er)]; [left; auto|].
  right. exists pre, v, x, post. split; auto. split; auto.
  destruct (smem v (vars (net_of bn))) eqn:S.
  - apply smem_In in S. right. tauto.
  - apply smem_false in S. left. tauto.
Qed.

Lemma new_samples bn (D : draws) obs n : good_bn bn ->
  (forall i j, good_sched (scheds D i j)) -> (forall i j, 0 < rnd D i j /\ rnd D i j <= 1) ->
  valid_obs (net_of bn) obs -> Pr (net_of bn) (observed obs) <> 0 ->
  exists e ss, engine_new bn = Ok e /\ draw_samples D (e_bbn e) obs n = Ok ss /\ List.length ss = n /\
    forall k s, nth_error ss k = Some s ->
      Permutation (map fst s) (vars (net_of bn)) /\
      (forall v x, In (v, x) s -> In x (states_of (net_of bn) v)) /\
      Pr (net_of bn) (observed s) <> 0 /\
      exists new, s = obs ++ new /\
        forall j v x, nth_error new j = Some (v, x) ->
          In v (vars (net_of bn)) /\ ~ In v (map fst (obs ++ firstn j new)) /\
          exists before after, states_of (net_of bn) v = before ++ x :: after /\
            Qsum (cond_prob (net_of bn) (obs ++ firstn j new) v) before < rnd D k j /\
            rnd D k j <= Qsum (cond_prob (net_of bn) (obs ++ firstn j new) v) before
                         + cond_prob (net_of bn) (obs ++ firstn j new) v x.
Proof.
  intros G GS R VO NZ. destruct (new_ok bn (good_bn_shape bn G)) as (e & E & EO).
  destruct G as (FO & SO & CS & NO & J).
  assert (J' : joined (edited no_do (net_of bn))) by (rewrite edited_none; auto).
  destruct (samples_ok e (net_of bn) no_do SO NO EO CS J' D obs n GS R VO) as (ss & Es & L & H).
  { rewrite edited_none. auto. }
  unfold step_ok in H. rewrite edited_none in H. exists e, ss. auto.
Qed.

(** ** Reached engines *)
Section Reached.
  Variables (bn : bnet) (ops : list iop) (e : eng) (past : log).
  Hypothesis FA : Forall op_ok ops.
  Hypothesis RE : reached bn ops e past.

  Definition forced (h : string -> option dist) : Prop :=
    forall v, match in_force past v with
              | None => h v = None
              | Some a => exists d, h v = Some d /\ dist_arg (net_of bn) v a d
              end.

  Lemma force_forced h : force_ok (net_of bn) e past h -> forced h.
  Proof.
    intros F v. specialize (F v). destruct (in_force past v) as [a|]; [|tauto].
    destruct F as (d & A & B & _). eauto.
  Qed.

  Lemma histories : good_bn bn -> exists h : string -> option dist, forced h /\
    (forall sc obs, good_sched sc -> joined (edited h (net_of bn)) -> valid_obs (net_of bn) obs ->
       exists r, engine_query sc e obs = Ok r /\ map fst r = vars (net_of bn) /\
         forall v s, In v (vars (net_of bn)) -> In s (states_of (net_of bn) v) ->
           answer r v s = Some (cond_prob (edited h (net_of bn)) obs v s)).
  Proof.
    intros G. destruct (reached_inv bn ops e past (good_bn_shape bn G) FA RE) as (h & EO & FO & _).
    exists h. split; [apply force_forced; auto|]. intros sc obs GS J VO.
    destruct G as (_ & SO & CS & NO & _).
    destruct (query_conditional sc e (net_of bn) h obs GS SO NO EO CS J VO) as (r & Er & K & A & _).
    exists r. auto.
  Qed.

  Lemma stored_cpds : good_shape bn -> e_orig e = create_cpds_dict (bn_cpds bn) /\
    forall v, match in_force past v with
              | None => dget String.eqb (e_cpds e) v = dget String.eqb (create_cpds_dict (bn_cpds bn)) v
              | Some a => exists d, dist_arg (net_of bn) v a d /\
                  dget String.eqb (e_cpds e) v = Some (map (fun sp => (fst sp, [([], snd sp)])) d)
              end.
  Proof.
    intros G. destruct (reached_inv bn ops e past G FA RE) as (h & EO & FO & Eo). split; auto.
    intros v. specialize (FO v). destruct (in_force past v) as [a|].
    - destruct FO as (d & _ & B & C). eauto.
    - rewrite <- Eo. tauto.
  Qed.

  Lemma do_step v arg e' : good_shape bn -> arg_dict arg -> do_intervention e v arg = (e', Ok tt) ->
    exists h d, forced h /\ dist_arg (net_of bn) v arg d /\ eng_ok e' (net_of bn) (set_do h v (Some d)).
  Proof.
    intros G AD E. destruct (reached_inv bn ops e past G FA RE) as (h & EO & FO & _).
    destruct G as (_ & SO & NO & _).
    destruct (do_intervention_spec e (net_of bn) h v arg SO NO EO AD) as [(_ & _ & e2 & d & E2 & DA & EO' & _)|(_ & x & E2)];
      rewrite E in E2; [|discriminate].
    injection E2 as <-. exists h, d. split; [apply force_forced; auto|auto].
  Qed.

  Lemma truncated_factorisation v arg e' : good_bn bn -> arg_dict arg -> do_intervention e v arg = (e', Ok tt) ->
    exists h d, forced h /\ dist_arg (net_of bn) v arg d /\
    (forall sc obs, good_sched sc -> joined (truncated (edited h (net_of bn)) v d) -> valid_obs (net_of bn) obs ->
       exists r, engine_query sc e' obs = Ok r /\ map fst r = vars (net_of bn) /\
         forall u s, In u (vars (net_of bn)) -> In s (states_of (net_of bn) u) ->
           answer r u s = Some (cond_prob (truncated (edited h (net_of bn)) v d) obs u s)).
  Proof.
    intros G AD E. destruct (do_step v arg e' (good_bn_shape bn G) AD E) as (h & d & F & DA & EO).
    exists h, d. split; auto. split; auto. intros sc obs GS J VO. destruct G as (_ & SO & CS & NO & _).
    rewrite edited_truncated in *.
    destruct (query_conditional sc e' (net_of bn) _ obs GS SO NO EO CS J VO) as (r & Er & K & A & _).
    exists r. auto.
  Qed.

  Lemma queries_after_do v arg e' : good_shape bn -> arg_dict arg -> do_intervention e v arg = (e', Ok tt) ->
    exists h d, forced h /\ dist_arg (net_of bn) v arg d /\
    forall sc obs, good_sched sc -> valid_obs (net_of bn) obs ->
      ((exists r, engine_query sc e' obs = Ok r) <-> joined (truncated (edited h (net_of bn)) v d)).
  Proof.
    intros G AD E. destruct (do_step v arg e' G AD E) as (h & d & F & DA & EO).
    exists h, d. split; auto. split; auto. intros sc obs GS VO. destruct G as (_ & SO & NO & _).
    rewrite edited_truncated in *. split.
    { intros (r & Er). apply (query_joined sc e' (net_of bn) _ obs r); auto. }
    intros J. destruct (engine_query_ok sc e' (net_of bn) _ GS SO NO EO J obs VO) as (r & Er & _). eauto.
  Qed.

  Lemma failed_interventions v arg : good_shape bn -> arg_dict arg ->
    exists h, forced h /\
    ((exists e', do_intervention e v arg = (e', Ok tt)) <->
       is_parent (edited h (net_of bn)) v /\
       match arg with
       | IvDict d => (forall s, In s (map fst d) <-> In s (states_of (net_of bn) v)) /\
                     (forall s p, In (s, p) d -> 0 <= p <= 1) /\ Qsum snd d = 1
       | IvInt z => In (LInt z) (states_of (net_of bn) v)
       | IvOther => False
       end) /\
    (forall e' x, do_intervention e v arg = (e', Err x) -> e' = e).
  Proof.
    intros G AD. destruct (reached_inv bn ops e past G FA RE) as (h & EO & FO & _).
    destruct G as (_ & SO & NO & _). exists h. split; [apply force_forced; auto|].
    assert (DA : do_accepts (net_of bn) v arg <-> match arg with
       | IvDict d => (forall s, In s (map fst d) <-> In s (states_of (net_of bn) v)) /\
                     (forall s p, In (s, p) d -> 0 <= p <= 1) /\ Qsum snd d = 1
       | IvInt z => In (LInt z) (states_of (net_of bn) v)
       | IvOther => False
       end).
    { destruct arg; cbn [do_accepts]; [reflexivity| |reflexivity]. unfold accepts_dist. tauto. }
    rewrite <- DA. destruct (do_intervention_spec e (net_of bn) h v arg SO NO EO AD)
      as [(P & A & e2 & d & E2 & _)|(Na & x & E2)]; rewrite E2.
    - split; [split; eauto|]. intros e' x [=].
    - split; [|intros e' y [= <- <-]; auto]. split; [intros (e' & [=])|tauto].
  Qed.
End Reached.

Lemma good_names bn : frames_ok bn -> shape_ok (net_of bn) -> joined (net_of bn) ->
  (forall v, In v (bn_nodes bn) -> is_identifier v = true /\ v <> "self"%string) ->
  forall sc obs, good_sched sc -> valid_obs (net_of bn) obs ->
  exists e r, engine_new bn = Ok e /\ engine_query sc e obs = Ok r.
Proof.
  intros FO SO J H sc obs GS VO. apply query_succeeds; auto.
  assert (K : forall v, In v (vars (net_of bn)) -> In v (bn_nodes bn)).
  { intros v Hv. apply (fo_nodes bn FO). rewrite <- net_of_vars. auto. }
  split; auto. split; auto. split; auto. split.
  - intros v Hv. apply (H v (K v Hv)).
  - intros Hs. apply (proj2 (H _ (K _ Hs))). auto.
Qed.

(** ** Networks built from factors *)
Lemma join_tree_only_connected (vfs : list (string * factor)) doms sc b jt : good_factors vfs -> good_sched sc ->
  build_bbn (map snd vfs) doms = Ok b -> build_join_tree sc (bnodes b) = Ok jt ->
  weakly_connected (map fst vfs) (arrows vfs).
Proof.
  intros GF GS E Ej. destruct (build_bbn_ok vfs GF doms) as (b' & E' & D & P & H & T).
  rewrite E in E'. injection E' as <-. apply (build_join_tree_connected sc _ jt GS T) in Ej.
  assert (K : Permutation (map nvar (bnodes b)) (map fst vfs)).
  { rewrite <- P. rewrite map_map. apply Permutation_refl. }
  intros x y Hx Hy. apply (Permutation_in _ (Permutation_sym K)) in Hx, Hy.
  specialize (Ej x y Hx Hy). apply clos_rt1n_rt in Ej. clear Hx Hy.
  induction Ej as [x y (n & Hn & Fx & Fy)|x|x y z _ I1 _ I2].
  - assert (A : forall p, In p (nparents n) -> In (p, nvar n) (arrows vfs)).
    { intros p Hp. rewrite (H n Hn) in Hp. apply in_flat_map. exists (nvar n, nfac n). split.
      - apply (Permutation_in _ P). apply in_map_iff. exists n. auto.
      - cbn [fst snd]. apply in_map_iff. exists p. auto. }
    unfold family in Fx, Fy. apply rt_trans with (nvar n).
    + destruct Fx as [<-|Fx]; [apply rt_refl|apply rt_step; auto].
    + destruct Fy as [<-|Fy]; [apply rt_refl|apply rt_step; auto].
  - apply rt_refl.
  - eapply rt_trans; eauto.
Qed.
