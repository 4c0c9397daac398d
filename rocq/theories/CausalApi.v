(** * CausalApi: the causal theorems for InferenceEngine. *)
From Coq Require Import List Bool Arith ZArith Lia String QArith Qcanon Permutation Relations.
From Verif Require Import Base QcX Digraph BbnModel Kruskal JtConv SumOver InferModel InferSpec InferProofs InferEngine InferOps InferMain InferThms CausalCore CausalThms CausalDo CausalSep.
Import ListNotations.
Local Open Scope Qc_scope.
Local Open Scope list_scope.

Lemma edited_arrows h N x y : In (x, y) (parent_arrows (edited h N)) -> In (x, y) (parent_arrows N).
Proof.
  rewrite <- !parents_arrow, !parents_of_In. intros (c' & H & Hp). apply edited_In in H. destruct H as (c & H & ->). exists c. split; auto. destruct (h y); [destruct Hp|auto].
Qed.
Lemma edited_same h N : (forall v, h v = None) -> edited h N = N.
Proof. intros H. unfold edited. rewrite (map_ext _ (fun x => x)); [apply map_id|]. intros [v c]. cbn. rewrite H. auto. Qed.

Lemma NoDup_parts {A} (l1 l2 : list A) : NoDup (l1 ++ l2) -> NoDup l1 /\ NoDup l2.
Proof.
  induction l1 as [|x l1 IH]; cbn; intros H; [split; [constructor|auto]|]. inversion H as [|? ? Nx H']; subst. destruct (IH H') as [H1 H2]. split; auto. constructor; auto. intros Q. apply Nx, in_app_iff. auto.
Qed.

(** A query that succeeds answers with the conditional probabilities of the edited network *)
Lemma query_answers sc e N h obs r : good_sched sc -> shape_ok N -> names_ok N -> eng_ok e N h -> columns_sum_1 N -> valid_obs N obs ->
  engine_query sc e obs = Ok r ->
  (forall v s, In v (vars N) -> In s (states_of N v) -> answer r v s = Some (cond_prob (edited h N) obs v s)) /\
  (forall v s, ~ (In v (vars N) /\ In s (states_of N v)) -> answer r v s = None).
Proof.
  intros GS SO NO EO CS VO E. pose proof (query_joined sc e N h obs r GS SO NO EO E) as J.
  destruct (query_conditional sc e N h obs GS SO NO EO CS J VO) as (r' & E' & _ & A & B & _). rewrite E in E'. injection E' as <-. auto.
Qed.

Lemma is_state N v s : {In v (vars N) /\ In s (states_of N v)} + {~ (In v (vars N) /\ In s (states_of N v))}.
Proof.
  destruct (smem v (vars N)) eqn:E1; [destruct (lmem s (states_of N v)) eqn:E2|].
  - left. apply smem_In in E1. apply lmem_In in E2. auto.
  - right. intros [_ H]. apply lmem_In in H. congruence.
  - right. intros [H _]. apply smem_In in H. congruence.
Qed.

(** ** Non-descendants *)
Lemma api_unaffected bn ops e past v arg e' sc sc' obs r r' : good_bn bn -> Forall op_ok ops -> reached bn ops e past -> arg_dict arg ->
  do_intervention e v arg = (e', Ok tt) -> good_sched sc -> good_sched sc' -> valid_obs (net_of bn) obs ->
  engine_query sc e obs = Ok r -> engine_query sc' e' obs = Ok r' ->
  (forall t, In t (map fst obs) -> t <> v /\ ~ path (parent_arrows (net_of bn)) v t) ->
  forall u s, u <> v -> ~ path (parent_arrows (net_of bn)) v u -> answer r' u s = answer r u s.
Proof.
  intros G FA RE AD ED GS GS' VO Q Q' Nd u s Nu Pu.
  destruct (reached_inv bn ops e past (good_bn_shape bn G) FA RE) as (h & EO & _). destruct G as (_ & SO & CS & NO & _). set (N := net_of bn) in *.
  destruct (do_intervention_spec e N h v arg SO NO EO AD) as [(_ & _ & e2 & d & E2 & DA & EO' & _)|(_ & x & E2)]; rewrite ED in E2; [|discriminate]. injection E2 as <-.
  destruct (query_answers sc e N h obs r GS SO NO EO CS VO Q) as [A1 B1]. destruct (query_answers sc' e' N _ obs r' GS' SO NO EO' CS VO Q') as [A2 B2].
  destruct (is_state N u s) as [[Hu Hs]|Ns]; [|rewrite B1, B2; auto]. rewrite A1, A2; auto. f_equal. rewrite <- edited_truncated. pose proof (eo_dists e N h EO) as D1. pose proof (eo_dists e' N _ EO') as D2.
  apply unaffected.
  - apply edited_shape; auto.
  - apply edited_columns; auto.
  - rewrite edited_truncated. apply edited_shape; auto.
  - rewrite edited_truncated. apply edited_columns; auto.
  - intros x Hx. rewrite edited_vars. assert (K : In x (vars N) /\ x <> v /\ ~ path (parent_arrows N) v x).
    { destruct Hx as [<-|Hx]; [auto|]. split; [|apply (Nd x Hx)]. apply in_map_iff in Hx. destruct Hx as ([y z] & <- & Hx). apply (proj2 VO y z Hx). }
    destruct K as (K1 & K2 & K3). split; auto. split; auto. intros P. apply K3. apply (path_incl (parent_arrows (edited h N))); auto. intros [y z]. apply edited_arrows.
Qed.

(** ** New engines *)
Lemma new_inv bn e : good_shape bn -> engine_new bn = Ok e -> eng_ok e (net_of bn) no_do.
Proof. intros G E. destruct (new_ok bn G) as (e' & E' & EO). rewrite E in E'. injection E' as <-. auto. Qed.
Lemma new_answers bn e sc obs r : good_bn bn -> engine_new bn = Ok e -> good_sched sc -> valid_obs (net_of bn) obs -> engine_query sc e obs = Ok r ->
  (forall v s, In v (vars (net_of bn)) -> In s (states_of (net_of bn) v) -> answer r v s = Some (cond_prob (net_of bn) obs v s)) /\
  (forall v s, ~ (In v (vars (net_of bn)) /\ In s (states_of (net_of bn) v)) -> answer r v s = None).
Proof.
  intros G E GS VO Q. pose proof (new_inv bn e (good_bn_shape bn G) E) as EO. destruct G as (_ & SO & CS & NO & _).
  destruct (query_answers sc e _ _ obs r GS SO NO EO CS VO Q) as [A B]. rewrite edited_none in A. auto.
Qed.

Lemma api_markov bn e sc obs r v c s : good_bn bn -> engine_new bn = Ok e -> good_sched sc -> valid_obs (net_of bn) obs -> engine_query sc e obs = Ok r ->
  In (v, c) (net_of bn) -> In s (states c) -> incl (parents c) (map fst obs) ->
  (forall t, In t (map fst obs) -> t <> v /\ ~ path (parent_arrows (net_of bn)) v t) ->
  Pr (net_of bn) (observed obs) <> 0 ->
  answer r v s = Some (prob c s (map (fun p => at_ obs p) (parents c))).
Proof.
  intros G E GS VO Q I Hs Pa Nd Nz. destruct (new_answers bn e sc obs r G E GS VO Q) as [A _]. destruct G as (_ & SO & CS & NO & _).
  rewrite A; [|apply (in_vars _ v c I)|rewrite (states_of_In _ v c (ok_vars _ SO) I); auto]. f_equal. rewrite (markov _ v c obs SO CS I VO Pa Nd s Hs Nz).
  f_equal. apply map_ext. intros p. unfold value_in. rewrite at_dget. reflexivity.
Qed.

Lemma api_separated bn e sc sc' obs extra r r' u s : good_bn bn -> engine_new bn = Ok e -> good_sched sc -> good_sched sc' ->
  valid_obs (net_of bn) (extra ++ obs) -> engine_query sc e obs = Ok r -> engine_query sc' e (extra ++ obs) = Ok r' ->
  ~ In u (map fst obs) ->
  (forall t, In t (map fst extra) -> ~ linked (net_of bn) (u :: map fst extra ++ map fst obs) (map fst obs) u t) ->
  Pr (net_of bn) (observed (extra ++ obs)) <> 0 ->
  answer r' u s = answer r u s.
Proof.
  intros G E GS GS' VA Q Q' Nu Sp Nz.
  assert (VE : valid_obs (net_of bn) extra) by (destruct VA as [ND V]; rewrite map_app in ND; split; [apply (NoDup_parts _ _ ND)|intros; apply V, in_app_iff; auto]).
  assert (VO : valid_obs (net_of bn) obs) by (destruct VA as [ND V]; rewrite map_app in ND; split; [apply (NoDup_parts _ _ ND)|intros; apply V, in_app_iff; auto]).
  destruct (new_answers bn e sc obs r G E GS VO Q) as [A B]. destruct (new_answers bn e sc' _ r' G E GS' VA Q') as [A' B']. destruct G as (_ & SO & CS & NO & _).
  destruct (is_state (net_of bn) u s) as [[Hu Hs]|Ns]; [|rewrite B, B'; auto]. rewrite A, A'; auto. f_equal. apply separated; auto.
Qed.

(** ** Interventions on a new engine *)
Definition all_on (arg : ivarg) (x : label) : Prop :=
  match arg with IvInt z => x = LInt z | IvDict d => In (x, 1) d | IvOther => False end.

Section NewDo.
  Context (bn : bnet) (e e' : eng) (v : string) (c : cpd) (arg : ivarg).
  Context (G : good_bn bn) (E : engine_new bn = Ok e) (AD : arg_dict arg) (ED : do_intervention e v arg = (e', Ok tt)) (I : In (v, c) (net_of bn)).

  Lemma new_do : exists d, dist_arg (net_of bn) v arg d /\ dist_on (states c) d /\ shape_ok (truncated (net_of bn) v d) /\ columns_sum_1 (truncated (net_of bn) v d) /\
    forall sc obs r, good_sched sc -> valid_obs (net_of bn) obs -> engine_query sc e' obs = Ok r ->
      (forall u s, In u (vars (net_of bn)) -> In s (states_of (net_of bn) u) -> answer r u s = Some (cond_prob (truncated (net_of bn) v d) obs u s)) /\
      (forall u s, ~ (In u (vars (net_of bn)) /\ In s (states_of (net_of bn) u)) -> answer r u s = None).
  Proof.
    pose proof (new_inv bn e (good_bn_shape bn G) E) as EO. destruct G as (_ & SO & CS & NO & _). set (N := net_of bn) in *.
    destruct (do_intervention_spec e N no_do v arg SO NO EO AD) as [(_ & _ & e2 & d & E2 & DA & EO' & _)|(_ & x & E2)]; rewrite ED in E2; [|discriminate]. injection E2 as <-.
    exists d. pose proof (eo_dists e' N _ EO') as D2. assert (Et : truncated N v d = edited (set_do no_do v (Some d)) N) by (rewrite <- edited_truncated, edited_none; auto).
    split; auto. split; [apply (D2 v c d I); unfold set_do; rewrite String.eqb_refl; auto|]. rewrite Et. split; [apply edited_shape; auto|]. split; [apply edited_columns; auto|].
    intros sc obs r GS VO Q. apply (query_answers sc e' N _ obs r); auto.
  Qed.

  Lemma all_on_weights d x : dist_arg (net_of bn) v arg d -> dist_on (states c) d -> all_on arg x ->
    In x (states c) -> weight_in d x = 1 /\ forall y, In y (states c) -> y <> x -> weight_in d y = 0.
  Proof.
    intros DA (ND & K & B & T) AO Hx. assert (SO : shape_ok (net_of bn)) by apply G. assert (W : forall y, In y (states c) -> In (y, weight_in d y) d).
    { intros y Hy. apply K in Hy. apply in_map_iff in Hy. destruct Hy as ([y' p] & <- & Hy). cbn [fst]. rewrite (weight_in_In d y' p ND Hy). auto. }
    destruct arg as [z|dd|]; cbn in DA, AO; [|subst dd|destruct AO].
    - subst x. destruct DA as (_ & _ & V). split.
      + rewrite (V _ _ (W _ Hx)). destruct (label_eqb_spec (LInt z) (LInt z)); congruence.
      + intros y Hy Ny. rewrite (V _ _ (W _ Hy)). destruct (label_eqb_spec y (LInt z)); congruence.
    - split; [apply weight_in_In; auto|]. intros y Hy Ny. assert (W1 : weight_in d x = 1) by (apply weight_in_In; auto).
      rewrite <- (fst_snd_weight d ND (states c) (proj2 (ok_states _ SO v c I)) K) in T.
      assert (Nn : forall t, In t (states c) -> 0 <= weight_in d t) by (intros t Ht; apply (B t _ (W t Ht))).
      clear - T W1 Nn Hx Hy Ny. apply in_split in Hx. destruct Hx as (l1 & l2 & Eq). rewrite Eq in *. rewrite Qsum_app, Qsum_cons, W1 in T.
      assert (Z : Qsum (weight_in d) (l1 ++ l2) = 0) by (rewrite Qsum_app; transitivity ((Qsum (weight_in d) l1 + (1 + Qsum (weight_in d) l2)) - 1); [ring|rewrite T; ring]).
      apply (Qsum_zero_inv (weight_in d) (l1 ++ l2)); auto.
      + intros t Ht. apply Nn. apply in_app_iff in Ht. apply in_app_iff. cbn. tauto.
      + apply in_app_iff in Hy. apply in_app_iff. cbn in Hy. destruct Hy as [|[|]]; [auto|congruence|auto].
  Qed.

  Lemma api_do_is_see sc sc' obs x r r' u s : good_sched sc -> good_sched sc' -> valid_obs (net_of bn) ((v, x) :: obs) -> all_on arg x ->
    incl (parents c) (map fst obs) -> engine_query sc e ((v, x) :: obs) = Ok r -> engine_query sc' e' obs = Ok r' ->
    Pr (net_of bn) (observed ((v, x) :: obs)) <> 0 -> answer r' u s = answer r u s.
  Proof.
    intros GS GS' VA AO Pa Q Q' Nz. destruct new_do as (d & DA & DO & SO' & CS' & An).
    assert (VO : valid_obs (net_of bn) obs) by (destruct VA as [ND V]; split; [inversion ND; auto|intros; apply V; right; auto]).
    destruct (new_answers bn e sc _ r G E GS VA Q) as [A B]. destruct (An sc' obs r' GS' VO Q') as [A' B']. pose proof G as (_ & SO & CS & NO & _).
    assert (Hx : In x (states c)) by (rewrite <- (states_of_In _ v c (ok_vars _ SO) I); apply (proj2 VA v x); left; auto).
    destruct (all_on_weights d x DA DO AO Hx) as [W1 W0].
    destruct (is_state (net_of bn) u s) as [[Hu Hs]|Ns]; [|rewrite B, B'; auto]. rewrite A, A'; auto. f_equal. apply (do_is_see _ v c d); auto.
  Qed.

  Lemma api_adjust sc r : good_sched sc -> engine_query sc e' [] = Ok r ->
    exists d, dist_arg (net_of bn) v arg d /\
      ((forall x o, In x (states c) -> weight_in d x <> 0 -> In o (settings (net_of bn) (parents c)) -> Pr (net_of bn) (observed o) <> 0 -> Pr (net_of bn) (observed ((v, x) :: o)) <> 0) ->
       forall u s, In u (vars (net_of bn)) -> In s (states_of (net_of bn) u) ->
         answer r u s = Some (Qsum (fun x => weight_in d x * Qsum (fun o => Pr (net_of bn) (observed o) * cond_prob (net_of bn) ((v, x) :: o) u s) (settings (net_of bn) (parents c))) (states c))).
  Proof.
    intros GS Q. destruct new_do as (d & DA & DO & SO' & CS' & An). exists d. split; auto. intros Pos u s Hu Hs.
    assert (VO : valid_obs (net_of bn) []) by (split; [constructor|intros ? ? []]). destruct (An sc [] r GS VO Q) as [A _]. rewrite (A u s Hu Hs). f_equal. pose proof G as (_ & SO & CS & NO & _).
    rewrite <- (adjust _ v c d SO SO' CS CS' I Pos u s Hu). unfold cond_prob.
    assert (T1 : Pr (truncated (net_of bn) v d) (observed []) = 1).
    { change (observed []) with (fun w : list (string * label) => (fun _ : assign => true) (at_ w)).
      etransitivity; [apply (Pr_keep _ (fun _ => false) (fun _ => true) (fun _ => LInt 0) SO' CS')|]; [intros ? ? ? _ H; discriminate|intros ? ? _; auto|].
      unfold mass. replace (keep (fun _ => false) (truncated (net_of bn) v d)) with ([] : net); [reflexivity|]. clear. induction (truncated (net_of bn) v d) as [|x l IH]; [reflexivity|exact IH]. }
    rewrite T1. destruct (Qc_eq_bool_spec 1 0) as [Z|_]; [discriminate Z|]. unfold Qcdiv. change (/ 1) with 1. ring.
  Qed.
End NewDo.
