(** * InferOrder: the answers of an engine depend only on the interventions in force. *)
From Coq Require Import List Bool Arith ZArith Lia String QArith Qcanon Permutation Relations.
From Verif Require Import Base QcX Digraph BbnModel SumOver Kruskal InferModel InferSpec InferProofs InferEngine InferOps InferMain InferThms InferCoherent CausalDo.
Import ListNotations.
Local Open Scope Qc_scope.
Local Open Scope list_scope.

(** ** Specification *)

(** The probability an intervention asks for, state by state. *)
Definition wish (a : ivarg) (s : label) : Qc :=
  match a with
  | IvInt z => if label_eqb s (LInt z) then 1 else 0
  | IvDict d => weight_in d s
  | IvOther => 0
  end.

(** The same interventions are in force after two histories: on the same variables, and each asks for
    the same probability of every state of its variable. *)
Definition same_force (N : net) (past past' : log) : Prop :=
  forall v, match in_force past v, in_force past' v with
            | None, None => True
            | Some a, Some a' => forall s, In s (states_of N v) -> wish a s = wish a' s
            | _, _ => False
            end.

(** ** Edited networks that agree *)
Section Agree.
  Variables (N : net) (h h' : string -> option dist).
  Hypothesis SO : shape_ok N.
  Hypothesis W : forall v, match h v, h' v with
    | None, None => True
    | Some d, Some d' => forall s, In s (states_of N v) -> weight_in d s = weight_in d' s
    | _, _ => False
    end.

  Lemma agree_worlds M : all_worlds (edited h M) = all_worlds (edited h' M).
  Proof.
    induction M as [|[v c] M IH]; auto. unfold edited in *. cbn [map fst snd all_worlds].
    specialize (W v). destruct (h v) as [d|], (h' v) as [d'|]; try (destruct W); cbn [all_worlds fixed states]; rewrite IH; auto.
  Qed.

  Lemma agree_joint w : (forall v, In v (vars N) -> In (at_ w v) (states_of N v)) -> joint (edited h N) w = joint (edited h' N) w.
  Proof.
    intros Hw. unfold joint, edited. rewrite !Qprod_map. apply Qprod_ext. intros [v c] Hc. cbn [fst snd].
    assert (Hv : In v (vars N)) by (apply in_map_iff; exists (v, c); auto).
    specialize (W v). destruct (h v) as [d|], (h' v) as [d'|]; try (destruct W; fail); cbn [fst snd fixed prob]; auto.
  Qed.

  Lemma agree_Pr P : dists_ok N h -> Pr (edited h N) P = Pr (edited h' N) P.
  Proof.
    intros D. unfold Pr. rewrite <- (agree_worlds N). apply Qsum_ext. intros w Hw. apply filter_In in Hw as (Hw & _).
    apply agree_joint. intros v Hv. rewrite <- (edited_states h N v).
    apply world_state; auto. apply edited_shape; auto. rewrite edited_vars. auto.
  Qed.

  Lemma agree_cond obs v s : dists_ok N h -> cond_prob (edited h N) obs v s = cond_prob (edited h' N) obs v s.
  Proof. intros D. unfold cond_prob, Pr_and. rewrite !agree_Pr by auto. destruct (Qc_eq_bool _ _); auto. Qed.

  Lemma agree_arrows M : parent_arrows (edited h M) = parent_arrows (edited h' M).
  Proof.
    unfold parent_arrows, edited. induction M as [|[v c] M IH]; auto. cbn [map fst snd flat_map]. rewrite IH. f_equal.
    specialize (W v). destruct (h v) as [d|], (h' v) as [d'|]; try (destruct W); auto.
  Qed.

  Lemma agree_joined : joined (edited h N) -> joined (edited h' N).
  Proof. unfold joined. rewrite !edited_vars, (agree_arrows N). auto. Qed.
End Agree.

(** ** What is in force decides the edited network *)
Lemma dist_wish N v a d s : dist_arg N v a d -> In s (states_of N v) -> weight_in d s = wish a s.
Proof.
  destruct a as [z|d'|]; cbn [dist_arg wish]; intros D H; [|subst; auto|destruct D].
  destruct D as (ND & I & P). apply I in H. apply in_map_iff in H as ([s' p] & <- & H). cbn [fst].
  rewrite (weight_in_In d s' p ND H). apply (P s' p H).
Qed.

Lemma forced_agree bn past past' h h' : same_force (net_of bn) past past' ->
  forced bn past h -> forced bn past' h' ->
  forall v, match h v, h' v with
    | None, None => True
    | Some d, Some d' => forall s, In s (states_of (net_of bn) v) -> weight_in d s = weight_in d' s
    | _, _ => False
    end.
Proof.
  intros S F F' v. specialize (S v). specialize (F v). specialize (F' v).
  destruct (in_force past v) as [a|], (in_force past' v) as [a'|]; try (destruct S; fail).
  - destruct F as (d & -> & D). destruct F' as (d' & -> & D'). intros s Hs.
    rewrite (dist_wish _ _ _ _ s D Hs), (dist_wish _ _ _ _ s D' Hs). auto.
  - rewrite F, F'. auto.
Qed.

Theorem same_answers bn ops e past ops' e' past' : good_bn bn -> Forall op_ok ops -> Forall op_ok ops' ->
  reached bn ops e past -> reached bn ops' e' past' -> same_force (net_of bn) past past' ->
  forall sc sc' obs r, good_sched sc -> good_sched sc' -> valid_obs (net_of bn) obs ->
    engine_query sc e obs = Ok r ->
    exists r', engine_query sc' e' obs = Ok r' /\ forall v s, answer r' v s = answer r v s.
Proof.
  intros G FA FA' RE RE' S sc sc' obs r GS GS' VO E.
  destruct (reached_inv bn ops e past (good_bn_shape bn G) FA RE) as (h & EO & FO & _).
  destruct (reached_inv bn ops' e' past' (good_bn_shape bn G) FA' RE') as (h' & EO' & FO' & _).
  apply force_forced in FO. apply force_forced in FO'.
  pose proof (forced_agree bn past past' h h' S FO FO') as W.
  destruct G as (_ & SO & CS & NO & _). set (N := net_of bn) in *.
  assert (J : joined (edited h N)) by (apply (query_joined sc e N h obs r); auto).
  assert (J' : joined (edited h' N)) by (apply (agree_joined N h h'); auto).
  destruct (query_conditional sc e N h obs GS SO NO EO CS J VO) as (r1 & E1 & _ & A1 & B1 & _).
  rewrite E in E1. injection E1 as <-.
  destruct (query_conditional sc' e' N h' obs GS' SO NO EO' CS J' VO) as (r2 & E2 & _ & A2 & B2 & _).
  exists r2. split; auto.
  assert (D : forall v s, {In v (vars N) /\ In s (states_of N v)} + {~ (In v (vars N) /\ In s (states_of N v))}).
  { intros v s. destruct (in_dec string_dec v (vars N)); [|right; tauto].
    destruct (in_dec (fun x y => match label_eqb_spec x y with ReflectT _ p => left p | ReflectF _ p => right p end) s (states_of N v)); [left|right]; tauto. }
  intros v s. destruct (D v s) as [[Hv Hs]|n].
  - rewrite A1, A2 by auto. f_equal. symmetry. apply agree_cond; auto. apply (eo_dists e N h EO).
  - rewrite B1, B2 by auto. auto.
Qed.

(** ** Appending calls to a history *)
Lemma irun_log_app e ops1 ops2 past : irun_log e (ops1 ++ ops2) past =
  irun_log (fst (irun_log e ops1 past)) ops2 (snd (irun_log e ops1 past)).
Proof. revert e past. induction ops1 as [|o ops1 IH]; intros e past; cbn; auto. Qed.

Lemma reached_more bn ops e past ops2 : reached bn ops e past ->
  reached bn (ops ++ ops2) (fst (irun_log e ops2 past)) (snd (irun_log e ops2 past)).
Proof.
  intros (e0 & E & R). exists e0. split; auto. rewrite irun_log_app, R. cbn [fst snd]. destruct (irun_log e ops2 past); auto.
Qed.

Section Calls.
  Variables (bn : bnet) (ops : list iop) (e : eng) (past : log).
  Hypothesis G : good_bn bn.
  Hypothesis FA : Forall op_ok ops.
  Hypothesis RE : reached bn ops e past.

  (** [e1] and [e2] answer every query alike. *)
  Definition alike (N : net) (e1 e2 : eng) : Prop :=
    forall sc sc' obs r, good_sched sc -> good_sched sc' -> valid_obs N obs -> engine_query sc e1 obs = Ok r ->
      exists r', engine_query sc' e2 obs = Ok r' /\ forall v s, answer r' v s = answer r v s.

  Lemma do_commute u a v b e1 e2 e3 e4 : u <> v -> arg_dict a -> arg_dict b ->
    do_intervention e u a = (e1, Ok tt) -> do_intervention e1 v b = (e2, Ok tt) ->
    do_intervention e v b = (e3, Ok tt) -> do_intervention e3 u a = (e4, Ok tt) ->
    alike (net_of bn) e2 e4.
  Proof.
    intros Nuv Da Db E1 E2 E3 E4 sc sc' obs r GS GS' VO E.
    pose proof (reached_more _ _ _ _ [OpDo u a; OpDo v b] RE) as R1. pose proof (reached_more _ _ _ _ [OpDo v b; OpDo u a] RE) as R2.
    cbn [irun_log istep] in R1, R2. rewrite E1 in R1. rewrite E3 in R2. cbn [fst snd] in R1, R2. rewrite E2 in R1. rewrite E4 in R2.
    cbn [fst snd] in R1, R2.
    refine (same_answers bn _ _ _ _ _ _ G _ _ R1 R2 _ sc sc' obs r GS GS' VO E).
    - apply Forall_app. split; auto.
    - apply Forall_app. split; auto.
    - intros w. cbn [in_force andb]. destruct (String.eqb_spec v w) as [->|n1], (String.eqb_spec u w) as [->|n2]; try congruence; auto.
      destruct (in_force past w); auto.
  Qed.

  Lemma do_last_wins u a b e1 e2 e3 : arg_dict a -> arg_dict b ->
    do_intervention e u a = (e1, Ok tt) -> do_intervention e1 u b = (e2, Ok tt) -> do_intervention e u b = (e3, Ok tt) ->
    alike (net_of bn) e2 e3.
  Proof.
    intros Da Db E1 E2 E3 sc sc' obs r GS GS' VO E.
    pose proof (reached_more _ _ _ _ [OpDo u a; OpDo u b] RE) as R1. pose proof (reached_more _ _ _ _ [OpDo u b] RE) as R2.
    cbn [irun_log istep] in R1, R2. rewrite E1 in R1. rewrite E3 in R2. cbn [fst snd] in R1, R2. rewrite E2 in R1.
    cbn [fst snd] in R1, R2.
    refine (same_answers bn _ _ _ _ _ _ G _ _ R1 R2 _ sc sc' obs r GS GS' VO E).
    - apply Forall_app. split; auto.
    - apply Forall_app. split; auto.
    - intros w. cbn [in_force andb]. destruct (String.eqb_spec u w) as [->|n1]; auto.
      destruct (in_force past w); auto.
  Qed.

  (** A dictionary that says the same as a state, or as another dictionary, acts the same. *)
  Lemma do_same_wish u a b e1 e2 : arg_dict a -> arg_dict b ->
    (forall s, In s (states_of (net_of bn) u) -> wish a s = wish b s) ->
    do_intervention e u a = (e1, Ok tt) -> do_intervention e u b = (e2, Ok tt) ->
    alike (net_of bn) e1 e2.
  Proof.
    intros Da Db W E1 E2 sc sc' obs r GS GS' VO E.
    pose proof (reached_more _ _ _ _ [OpDo u a] RE) as R1. pose proof (reached_more _ _ _ _ [OpDo u b] RE) as R2.
    cbn [irun_log istep] in R1, R2. rewrite E1 in R1. rewrite E2 in R2. cbn [fst snd] in R1, R2.
    refine (same_answers bn _ _ _ _ _ _ G _ _ R1 R2 _ sc sc' obs r GS GS' VO E).
    - apply Forall_app. split; auto.
    - apply Forall_app. split; auto.
    - intros w. cbn [in_force andb]. destruct (String.eqb_spec u w) as [->|n1]; auto.
      destruct (in_force past w); auto.
  Qed.

  Lemma fewer_parents h h' (N : net) p : (forall w, h w <> None -> h' w <> None) ->
    is_parent (edited h' N) p -> is_parent (edited h N) p.
  Proof.
    intros M (u & H). exists u. unfold parent_arrows in *. apply in_flat_map in H as ([w c'] & Hc & H).
    apply in_flat_map. apply edited_In in Hc as (c & Hc & ->). cbn [fst snd] in H.
    exists (w, match h w with Some d => fixed c d | None => c end). split; [apply edited_In; eauto|]. cbn [fst snd].
    specialize (M w). destruct (h w) as [d|].
    - destruct (h' w); [exact H|]. exfalso. apply M; congruence.
    - destruct (h' w); auto. cbn [fixed parents map] in H. destruct H.
  Qed.

  Lemma joined_fixed_parent h (N : net) u v d : joined (edited h N) -> In u (vars N) -> In v (vars N) -> u <> v ->
    h u = Some d -> is_parent (edited h N) u.
  Proof.
    intros J Hu Hv Ne E. specialize (J u v). rewrite edited_vars in J. specialize (J Hu Hv).
    apply clos_rt_rt1n in J. inversion J as [|w z [H|H] _]; subst; [congruence|exists w; auto|].
    exfalso. unfold parent_arrows in H. apply in_flat_map in H as ([x c'] & Hc & H). cbn [fst snd] in H.
    apply in_map_iff in H as (p & [= -> ->] & Hp). apply edited_In in Hc as (c & _ & ->). rewrite E in Hp. destruct Hp.
  Qed.

  (** If the two calls are accepted in one order and the engine still answers, they are accepted in
      the other order too, and the engine answers the same. *)
  Lemma do_swap u a v b e1 e2 sc0 obs0 r0 : u <> v -> arg_dict a -> arg_dict b ->
    do_intervention e u a = (e1, Ok tt) -> do_intervention e1 v b = (e2, Ok tt) ->
    good_sched sc0 -> engine_query sc0 e2 obs0 = Ok r0 ->
    exists e3 e4, do_intervention e v b = (e3, Ok tt) /\ do_intervention e3 u a = (e4, Ok tt) /\
      alike (net_of bn) e2 e4.
  Proof.
    intros Nuv Da Db E1 E2 GS E.
    destruct (reached_inv bn ops e past (good_bn_shape bn G) FA RE) as (h & EO & _ & _).
    pose proof G as (_ & SO & _ & NO & _). set (N := net_of bn) in *.
    destruct (do_intervention_spec e N h u a SO NO EO Da) as [(P1 & A1 & e1' & d1 & F1 & _ & EO1 & _)|(_ & x & F1)];
      rewrite E1 in F1; [injection F1 as <-|discriminate].
    destruct (do_intervention_spec e1 N _ v b SO NO EO1 Db) as [(P2 & A2 & e2' & d2 & F2 & _ & EO2 & _)|(_ & x & F2)];
      rewrite E2 in F2; [injection F2 as <-|discriminate].
    pose proof (query_joined sc0 e2 N _ obs0 r0 GS SO NO EO2 E) as J.
    destruct (do_intervention_spec e N h v b SO NO EO Db) as [(_ & _ & e3 & d3 & F3 & _ & EO3 & _)|(No & _)].
    2:{ exfalso. apply No. split; auto. apply (fewer_parents h (set_do h u (Some d1))); auto.
        intros w Hw. unfold set_do. destruct (String.eqb w u); [discriminate|auto]. }
    destruct (do_intervention_spec e3 N _ u a SO NO EO3 Da) as [(_ & _ & e4 & d4 & F4 & _)|(No & _)].
    2:{ exfalso. apply No. split; auto.
        destruct (is_parent_var N h u SO P1) as (cu & Hu). destruct (is_parent_var N _ v SO P2) as (cv & Hv).
        apply (fewer_parents (set_do h v (Some d3)) (set_do (set_do h u (Some d1)) v (Some d2))).
        - intros w Hw. unfold set_do in *. destruct (String.eqb w v); [discriminate|]. destruct (String.eqb w u); [discriminate|auto].
        - apply (joined_fixed_parent _ N u v d1); auto.
          + apply in_map_iff. exists (u, cu); auto.
          + apply in_map_iff. exists (v, cv); auto.
          + unfold set_do. destruct (String.eqb_spec u v); [congruence|]. rewrite String.eqb_refl. auto. }
    exists e3, e4. split; auto. split; auto. apply (do_commute u a v b e1 e2 e3 e4); auto.
  Qed.
End Calls.
