(** * CausalCalcApi: the rules of the do-calculus for InferenceEngine. *)
From Coq Require Import List Bool Arith ZArith Lia String QArith Qcanon Permutation Relations.
From Verif Require Import Base QcX Digraph BbnModel Kruskal JtConv SumOver InferModel InferSpec InferProofs InferEngine InferOps InferMain InferThms InferOrder CausalCore CausalThms CausalDo CausalSep CausalApi DsepSpec CausalTrail CausalBack CausalBackApi CalcSpec CausalCalc.
Import ListNotations.
Local Open Scope Qc_scope.
Local Open Scope list_scope.

(** ** Specification *)

(** [X] lists the variables with an intervention in force. *)
Definition forced_on (past : log) (X : list string) : Prop := forall v, In v X <-> in_force past v <> None.
(** The variables of [xs] are set to these values by an intervention in force. *)
Definition set_to (past : log) (xs : list (string * label)) : Prop := forall v x, In (v, x) xs -> exists a, in_force past v = Some a /\ all_on a x.

(** ** Edited networks *)
Lemma edited_arrow h N x y : arrow (edited h N) x y <-> arrow N x y /\ h y = None.
Proof.
  rewrite !arrow_In. split.
  - intros (c' & I & P). apply edited_In in I. destruct I as (c & I & ->). destruct (h y) eqn:E; [destruct P|]. split; eauto.
  - intros ((c & I & P) & E). exists c. split; auto. apply edited_In. exists c. rewrite E. auto.
Qed.
Lemma edited_twice k h N : edited k (edited h N) = edited (fun v => match k v with Some d => Some d | None => h v end) N.
Proof.
  unfold edited. rewrite map_map. apply map_ext. intros [v c]. cbn [fst snd]. destruct (h v) as [d|] eqn:E; cbn [fst snd]; destruct (k v) as [d'|]; rewrite ?E; auto.
Qed.
Lemma edited_again h N v d : h v = Some d -> truncated (edited h N) v d = edited h N.
Proof.
  intros E. rewrite edited_truncated. unfold edited. apply map_ext. intros [w c]. cbn [fst snd]. unfold set_do. destruct (String.eqb_spec w v) as [->|]; auto. rewrite E. auto.
Qed.

Lemma point_weights N v c arg d x : shape_ok N -> In (v, c) N -> dist_arg N v arg d -> dist_on (states c) d -> all_on arg x ->
  In x (states c) -> weight_in d x = 1 /\ forall y, In y (states c) -> y <> x -> weight_in d y = 0.
Proof.
  intros SO I DA (ND & K & B & T) AO Hx. assert (W : forall y, In y (states c) -> In (y, weight_in d y) d).
  { intros y Hy. apply K in Hy. apply in_map_iff in Hy. destruct Hy as ([y' p] & <- & Hy). cbn [fst]. rewrite (weight_in_In d y' p ND Hy). auto. }
  destruct arg as [z|dd|]; cbn in DA, AO; [|subst dd|destruct AO].
  - subst x. destruct DA as (_ & _ & V). split.
    + rewrite (V _ _ (W _ Hx)). destruct (label_eqb_spec (LInt z) (LInt z)); congruence.
    + intros y Hy Ny. rewrite (V _ _ (W _ Hy)). destruct (label_eqb_spec y (LInt z)); congruence.
  - split; [apply weight_in_In; auto|]. intros y Hy Ny. assert (W1 : weight_in d x = 1) by (apply weight_in_In; auto).
    rewrite <- (fst_snd_weight d ND (states c) (proj2 (ok_states _ SO v c I)) K) in T.
    assert (Nn : forall t, In t (states c) -> 0 <= weight_in d t) by (intros t Ht; apply (B t _ (W t Ht))).
    clear - T W1 Nn Hx Hy Ny. apply in_split in Hx. destruct Hx as (l1 & l2 & Eq). rewrite Eq in *. rewrite Qsum_app, Qsum_cons, W1 in T.
    assert (Z : Qsum (weight_in d) (l1 ++ l2) = 0) by (rewrite Qsum_app; transitivity ((Qsum (weight_in d) l1 + (1 + Qsum (weight_in d) l2)) - 1); [ring|rewrite T; ring]).
    apply (Qsum_zero_inv (weight_in d) (l1 ++ l2)); auto.
    + intros t Ht. apply Nn. apply in_app_iff in Ht. apply in_app_iff. cbn. tauto.
    + apply in_app_iff in Hy. apply in_app_iff. cbn in Hy. destruct Hy as [|[|]]; [auto|congruence|auto].
Qed.

Lemma in_net N v : In v (vars N) -> exists c, In (v, c) N.
Proof. intros H. apply in_map_iff in H. destruct H as ([w c] & <- & H). eauto. Qed.
Lemma valid_in N obs y : valid_obs N obs -> In y (map fst obs) -> In y (vars N).
Proof. intros V H. apply in_map_iff in H. destruct H as ([y' z] & <- & H). apply (proj2 V y' z H). Qed.
Lemma valid_parts N l1 l2 : valid_obs N (l1 ++ l2) -> valid_obs N l1 /\ valid_obs N l2.
Proof.
  intros [ND V]. rewrite map_app in ND. destruct (NoDup_parts _ _ ND). split; split; auto; intros; apply V, in_app_iff; auto.
Qed.
Lemma valid_perm N l l' : Permutation l l' -> valid_obs N l -> valid_obs N l'.
Proof.
  intros P [ND V]. split; [eapply Permutation_NoDup; [apply Permutation_map; exact P|auto]|]. intros v x H. apply V. eapply Permutation_in; [apply Permutation_sym; exact P|auto].
Qed.
Lemma edited_valid h N obs : valid_obs N obs -> valid_obs (edited h N) obs.
Proof. intros [ND V]. split; auto. intros v x H. rewrite edited_vars, edited_states. auto. Qed.

(** ** One engine *)
Section One.
  Context (bn : bnet) (ops : list iop) (e : eng) (past : log).
  Context (G : good_bn bn) (FA : Forall op_ok ops) (RE : InferThms.reached bn ops e past).
  Local Notation N := (net_of bn).

  Lemma one_engine : exists h, dists_ok N h /\ forced bn past h /\ shape_ok (edited h N) /\ columns_sum_1 (edited h N) /\
    forall sc obs r, good_sched sc -> valid_obs N obs -> engine_query sc e obs = Ok r ->
      (forall v s, In v (vars N) -> In s (states_of N v) -> answer r v s = Some (cond_prob (edited h N) obs v s)) /\
      (forall v s, ~ (In v (vars N) /\ In s (states_of N v)) -> answer r v s = None).
  Proof.
    destruct (reached_inv bn ops e past (good_bn_shape bn G) FA RE) as (h & EO & FO & _). exists h. pose proof G as (_ & SO & CS & NO & _).
    pose proof (eo_dists e N h EO) as DO. split; auto. split; [apply (force_forced bn e past); auto|]. split; [apply edited_shape; auto|]. split; [apply edited_columns; auto|].
    intros. eapply query_answers; eauto.
  Qed.
End One.

Section Facts.
  Context (bn : bnet) (past : log) (h : string -> option dist).
  Local Notation N := (net_of bn).
  Context (SO : shape_ok N) (DO : dists_ok N h) (F : forced bn past h).

  Lemma forced_none v : in_force past v = None <-> h v = None.
  Proof. specialize (F v). destruct (in_force past v); [destruct F as (d & E & _); rewrite E; split; discriminate|tauto]. Qed.
  Lemma forced_arrow X x y : forced_on past X -> arrow (edited h N) x y <-> arrow (without_into X N) x y.
  Proof.
    intros HX. rewrite edited_arrow, into_arrow, <- forced_none. specialize (HX y). destruct (in_force past y); split; intros [A B]; split; auto; try discriminate; try (apply HX in B; congruence).
    - exfalso. apply B, HX. discriminate.
    - intros Q. apply HX in Q. congruence.
  Qed.
  Lemma set_held xs obs v x : set_to past xs -> valid_obs N (xs ++ obs) -> In (v, x) xs -> held (edited h N) v x.
  Proof.
    intros S V H. destruct (S v x H) as (a & Fa & AO). destruct (proj2 V v x) as [Hv Hx]; [apply in_app_iff; auto|].
    pose proof (F v) as Fv. rewrite Fa in Fv. destruct Fv as (d & E & DA). destruct (in_net N v Hv) as (c & I). rewrite (states_of_In N v c (ok_vars N SO) I) in Hx.
    exists (fixed c d), d. split; [apply edited_In; exists c; rewrite E; auto|]. split; [apply edited_again; auto|]. cbn [fixed states]. split; auto.
    apply (point_weights N v c a d x); auto. apply (DO v c d I E).
  Qed.
  Lemma possible_cond obs r :
    (forall v s, In v (vars N) -> In s (states_of N v) -> answer r v s = Some (cond_prob (edited h N) obs v s)) ->
    (forall v s, ~ (In v (vars N) /\ In s (states_of N v)) -> answer r v s = None) ->
    possible r -> exists v s, In v (vars N) /\ cond_prob (edited h N) obs v s <> 0.
  Proof.
    intros A B (v & s & p & E & Np). destruct (is_state N v s) as [[Hv Hs]|Ns]; [|rewrite B in E by auto; discriminate].
    exists v, s. split; auto. rewrite A in E by auto. injection E as ->. auto.
  Qed.
End Facts.

Lemma perm_mid {A} (a b c : list A) : Permutation (a ++ b ++ c) (b ++ a ++ c).
Proof. rewrite !app_assoc. apply Permutation_app_tail, Permutation_app_comm. Qed.

(** ** Rule 1: insertion and deletion of observations *)
Theorem api_rule1 bn ops e past sc sc' X xs obs extra r r' u s : good_bn bn -> Forall op_ok ops -> InferThms.reached bn ops e past -> good_sched sc -> good_sched sc' ->
  forced_on past X -> set_to past xs -> valid_obs (net_of bn) (xs ++ extra ++ obs) ->
  engine_query sc e obs = Ok r -> engine_query sc' e (extra ++ obs) = Ok r' -> possible r' ->
  ~ In u (map fst (xs ++ obs)) -> (forall t, In t (map fst extra) -> d_separated (without_into X (net_of bn)) (map fst (xs ++ obs)) t u) ->
  answer r' u s = answer r u s.
Proof.
  intros G FA RE GS GS' HX HS V Q Q' Po Nu D. destruct (one_engine bn ops e past G FA RE) as (h & DO & F & SO' & CS' & An). assert (SO : shape_ok (net_of bn)) by apply G. set (N := net_of bn) in *.
  destruct (valid_parts _ _ _ V) as [V1 V2]. destruct (valid_parts _ _ _ V2) as [V3 V4].
  pose proof (valid_perm _ _ _ (perm_mid xs extra obs) V) as V5. destruct (valid_parts _ _ _ V5) as [_ V6].
  destruct (An sc obs r GS V4 Q) as [A B]. destruct (An sc' _ r' GS' V2 Q') as [A' B'].
  destruct (is_state N u s) as [[Hu Hs]|Ns]; [|rewrite B, B'; auto]. rewrite A, A'; auto. f_equal.
  assert (H : forall v x, In (v, x) xs -> held (edited h N) v x) by (intros v x Hv; apply (set_held bn past h SO DO F xs (extra ++ obs)); auto).
  assert (Vr : forall l y, valid_obs N l -> In y (map fst l) -> In y (vars (edited h N))) by (intros l y W Hy; rewrite edited_vars; apply (valid_in N l); auto).
  rewrite <- (held_cond _ xs obs) by first [solve [auto]|solve [rewrite edited_vars; auto]|intros y Hy; eapply Vr; [|exact Hy]; auto].
  rewrite <- (held_cond _ xs (extra ++ obs)) by first [solve [auto]|solve [rewrite edited_vars; auto]|intros y Hy; eapply Vr; [|exact Hy]; auto].
  rewrite (cond_perm _ _ _ u s (perm_mid xs extra obs)). apply separated; auto.
  - apply edited_valid; auto.
  - apply edited_valid; auto.
  - rewrite edited_vars; auto.
  - intros t Ht. apply linked_dsep; auto. intros t' Ht'. apply (dsep_same (without_into X N)); [intros; symmetry; apply (forced_arrow bn past h F); auto|auto].
  - destruct (possible_cond bn h (extra ++ obs) r' A' B' Po) as (v & s' & Hv & Np). apply (cond_positive _ _ v s'). rewrite (cond_perm _ _ _ v s' (perm_mid extra xs obs)).
    rewrite held_cond; auto; [rewrite edited_vars; auto|intros; apply (Vr (extra ++ obs)); auto].
Qed.

(** ** Two engines *)
Section Two.
  Context (bn : bnet) (past past' : log) (h h' : string -> option dist) (Z : list string).
  Local Notation N := (net_of bn).
  Context (SO : shape_ok N) (CS : columns_sum_1 N) (DO : dists_ok N h) (DO' : dists_ok N h') (F : forced bn past h) (F' : forced bn past' h').
  Context (Same : forall v, ~ In v Z -> in_force past' v = in_force past v) (Free : forall z, In z Z -> in_force past z = None).

  Definition more (v : string) : option dist := if smem v Z then h' v else None.
  Definition both (v : string) : option dist := match more v with Some d => Some d | None => h v end.
  Lemma more_in v : more v <> None -> In v Z.
  Proof. unfold more. destruct (smem v Z) eqn:E; [intros _; apply smem_In; auto|congruence]. Qed.
  Lemma both_ok : dists_ok N both.
  Proof. intros v c d I. unfold both, more. destruct (smem v Z); [destruct (h' v) as [d'|] eqn:E'; [intros [= <-]; apply (DO' v c d' I E')|]|]; apply DO; auto. Qed.
  Lemma more_shape : shape_ok (edited more (edited h N)) /\ columns_sum_1 (edited more (edited h N)).
  Proof. rewrite edited_twice. split; [apply edited_shape|apply edited_columns]; auto; apply both_ok. Qed.
  Lemma more_cond obs v s : cond_prob (edited h' N) obs v s = cond_prob (edited more (edited h N)) obs v s.
  Proof.
    rewrite edited_twice. symmetry. apply (agree_cond N both h'); auto; [|apply both_ok]. intros w. unfold both, more. destruct (smem w Z) eqn:E.
    - apply smem_In in E. destruct (h' w) as [d|] eqn:E'; auto. pose proof (F w) as Fw. rewrite (Free w E) in Fw. rewrite Fw. auto.
    - assert (Nw : ~ In w Z) by (intros Q; apply smem_In in Q; congruence). pose proof (F w) as Fw. pose proof (F' w) as Fw'. rewrite (Same w Nw) in Fw'.
      destruct (in_force past w) as [a|]; [|rewrite Fw, Fw'; auto]. destruct Fw as (d & -> & D1), Fw' as (d' & -> & D2). intros s' Hs'. rewrite (dist_wish N w a d), (dist_wish N w a d'); auto.
  Qed.
End Two.

(** ** Rule 2: exchange of actions and observations *)
Theorem api_rule2 bn ops e past ops' e' past' sc sc' X xs zs obs r r' u s : good_bn bn ->
  Forall op_ok ops -> InferThms.reached bn ops e past -> Forall op_ok ops' -> InferThms.reached bn ops' e' past' -> good_sched sc -> good_sched sc' ->
  forced_on past X -> set_to past xs ->
  (forall v, ~ In v (map fst zs) -> in_force past' v = in_force past v) -> (forall z, In z (map fst zs) -> in_force past z = None) -> set_to past' zs ->
  valid_obs (net_of bn) (xs ++ zs ++ obs) ->
  engine_query sc e (zs ++ obs) = Ok r -> engine_query sc' e' obs = Ok r' -> possible r ->
  ~ In u (map fst (xs ++ obs)) ->
  (forall z, In z (map fst zs) -> d_separated (without_from (map fst zs) (without_into X (net_of bn))) (map fst (xs ++ obs)) z u) ->
  answer r' u s = answer r u s.
Proof.
  intros G FA RE FA' RE' GS GS' HX HS Sm Fr HS' V Q Q' Po Nu D.
  destruct (one_engine bn ops e past G FA RE) as (h & DO & F & SO1 & CS1 & An). destruct (one_engine bn ops' e' past' G FA' RE') as (h' & DO' & F' & SO2 & CS2 & An').
  pose proof G as (_ & SO & CS & _). set (N := net_of bn) in *. set (Z := map fst zs) in *.
  destruct (valid_parts _ _ _ V) as [V1 V2]. destruct (valid_parts _ _ _ V2) as [V3 V4].
  pose proof (valid_perm _ _ _ (perm_mid xs zs obs) V) as V5. destruct (valid_parts _ _ _ V5) as [_ V6].
  destruct (An sc _ r GS V2 Q) as [A B]. destruct (An' sc' obs r' GS' V4 Q') as [A' B'].
  destruct (is_state N u s) as [[Hu Hs]|Ns]; [|rewrite B, B'; auto]. rewrite A, A'; auto. f_equal.
  assert (H : forall v x, In (v, x) xs -> held (edited h N) v x) by (intros v x Hv; apply (set_held bn past h SO DO F xs (zs ++ obs)); auto).
  assert (S' : set_to past' (zs ++ xs)).
  { intros v x Hv. apply in_app_or in Hv. destruct Hv as [Hv|Hv]; [apply HS'; auto|]. destruct (HS v x Hv) as (a & E & AO). exists a. split; auto. rewrite Sm; auto.
    intros I. rewrite (Fr v I) in E. discriminate. }
  assert (H' : forall v x, In (v, x) (zs ++ xs) -> held (edited h' N) v x).
  { intros v x Hv. apply (set_held bn past' h' SO DO' F' (zs ++ xs) obs); auto. rewrite <- app_assoc. auto. }
  assert (Vr : forall k l y, valid_obs N l -> In y (map fst l) -> In y (vars (edited k N))) by (intros k l y W Hy; rewrite edited_vars; apply (valid_in N l); auto).
  rewrite <- (held_cond _ (zs ++ xs) obs) by first [solve [auto]|solve [rewrite edited_vars; auto]|intros y Hy; eapply Vr; [|exact Hy]; auto]. rewrite <- app_assoc.
  rewrite <- (held_cond _ xs (zs ++ obs)) by first [solve [auto]|solve [rewrite edited_vars; auto]|intros y Hy; eapply Vr; [|exact Hy]; auto].
  rewrite (cond_perm _ _ _ u s (perm_mid xs zs obs)).
  rewrite (more_cond bn past past' h h' Z SO DO DO' F F' Sm Fr). destruct (more_shape bn h h' Z SO CS DO DO') as [SO3 CS3].
  assert (Ez : map fst (zs ++ xs ++ obs) = Z ++ map fst (xs ++ obs)) by (rewrite map_app; auto).
  assert (D' : forall z, In z Z -> d_separated (without_from Z (edited h N)) (map fst (xs ++ obs)) z u).
  { intros z Hz. apply (dsep_same (without_from Z (without_into X N))); auto. intros a b. pose proof (forced_arrow bn past h F X a b HX) as K. fold N in K. rewrite !from_arrow. tauto. }
  assert (NU : ~ In u (map fst (zs ++ xs ++ obs))).
  { rewrite Ez, in_app_iff. intros [I|I]; auto. apply (dsep_differ _ _ _ _ (D u I)). auto. }
  assert (Pz : Pr (edited h N) (observed (zs ++ xs ++ obs)) <> 0).
  { destruct (possible_cond bn h (zs ++ obs) r A B Po) as (v & s' & Hv & Np). apply (cond_positive _ _ v s'). rewrite (cond_perm _ _ _ v s' (perm_mid zs xs obs)).
    rewrite held_cond; auto; [rewrite edited_vars; auto|intros; apply (Vr h (zs ++ obs)); auto]. }
  apply same_edit; auto.
  - apply edited_valid; auto.
  - rewrite edited_vars; auto.
  - intros v Kv _ p L. rewrite Ez in L. apply more_in in Kv. apply (swap_far (edited h N) SO1 (map fst (xs ++ obs)) Z u Nu D' v p Kv L).
  - apply positive_edit; auto. intros v d Kv. assert (I : In v Z) by (apply (more_in h'); congruence). unfold more in Kv. apply smem_In in I as I'. rewrite I' in Kv.
    apply in_map_iff in I. destruct I as ([z x] & E & I). cbn in E. subst z. exists x. split; [apply in_app_iff; auto|]. destruct (HS' v x I) as (a & Fa & AO).
    destruct (proj2 V3 v x I) as [Hv Hx]. destruct (in_net N v Hv) as (c & Ic). rewrite (states_of_In N v c (ok_vars N SO) Ic) in Hx.
    pose proof (F' v) as Fv. rewrite Fa in Fv. destruct Fv as (d' & E' & DA). rewrite Kv in E'. injection E' as <-.
    destruct (point_weights N v c a d x SO Ic DA (DO' v c d Ic Kv) AO Hx) as [-> _]. discriminate.
Qed.

(** ** Rule 3: insertion and deletion of actions *)
Lemma path_end (es : list (string * string)) x y : path es x y -> exists p, In (p, y) es.
Proof. induction 1; eauto. Qed.

Theorem api_rule3 bn ops e past ops' e' past' sc sc' X xs Z ZW obs r r' u s : good_bn bn ->
  Forall op_ok ops -> InferThms.reached bn ops e past -> Forall op_ok ops' -> InferThms.reached bn ops' e' past' -> good_sched sc -> good_sched sc' ->
  forced_on past X -> set_to past xs ->
  (forall v, ~ In v Z -> in_force past' v = in_force past v) -> (forall z, In z Z -> in_force past z = None /\ ~ In z (map fst obs)) ->
  valid_obs (net_of bn) (xs ++ obs) ->
  engine_query sc e obs = Ok r -> engine_query sc' e' obs = Ok r' -> possible r -> possible r' ->
  ~ In u (map fst (xs ++ obs)) ->
  (forall z, In z ZW <-> In z Z /\ ~ exists w, In w (map fst obs) /\ path (parent_arrows (without_into X (net_of bn))) z w) ->
  (forall z, In z Z -> d_separated (without_into (X ++ ZW) (net_of bn)) (map fst (xs ++ obs)) z u) ->
  answer r' u s = answer r u s.
Proof.
  intros G FA RE FA' RE' GS GS' HX HS Sm Fr V Q Q' Po Po' Nu HZ D.
  destruct (one_engine bn ops e past G FA RE) as (h & DO & F & SO1 & CS1 & An). destruct (one_engine bn ops' e' past' G FA' RE') as (h' & DO' & F' & SO2 & CS2 & An').
  pose proof G as (_ & SO & CS & _). set (N := net_of bn) in *.
  destruct (valid_parts _ _ _ V) as [V1 V4].
  destruct (An sc _ r GS V4 Q) as [A B]. destruct (An' sc' obs r' GS' V4 Q') as [A' B'].
  destruct (is_state N u s) as [[Hu Hs]|Ns]; [|rewrite B, B'; auto]. rewrite A, A'; auto. f_equal.
  assert (H : forall v x, In (v, x) xs -> held (edited h N) v x) by (intros v x Hv; apply (set_held bn past h SO DO F xs obs); auto).
  assert (Xz : forall v, In v (map fst xs) -> ~ In v Z /\ h v <> None).
  { intros v Hv. apply in_map_iff in Hv. destruct Hv as ([v' x] & <- & Hv). cbn [fst]. destruct (HS v' x Hv) as (a & E & _). split.
    - intros I. rewrite (proj1 (Fr v' I)) in E. discriminate.
    - intros E'. apply (forced_none bn past h F) in E'. congruence. }
  assert (H' : forall v x, In (v, x) xs -> held (edited h' N) v x).
  { intros v x Hv. apply (set_held bn past' h' SO DO' F' xs obs); auto. intros w y Hw. destruct (HS w y Hw) as (a & E & AO). exists a. split; auto. rewrite Sm; auto.
    apply Xz. apply in_map_iff. exists (w, y). auto. }
  assert (Vr : forall k l y, valid_obs N l -> In y (map fst l) -> In y (vars (edited k N))) by (intros k l y W Hy; rewrite edited_vars; apply (valid_in N l); auto).
  rewrite <- (held_cond _ xs obs) by first [solve [auto]|solve [rewrite edited_vars; auto]|intros y Hy; eapply Vr; [|exact Hy]; auto].
  rewrite <- (held_cond (edited h N) xs obs) by first [solve [auto]|solve [rewrite edited_vars; auto]|intros y Hy; eapply Vr; [|exact Hy]; auto].
  assert (Fr' : forall z, In z Z -> in_force past z = None) by (intros z Hz; apply Fr; auto).
  pose proof (more_cond bn past past' h h' Z SO DO DO' F F' Sm Fr') as MC.
  rewrite MC. destruct (more_shape bn h h' Z SO CS DO DO') as [SO3 CS3].
  assert (P1 : Pr (edited h N) (observed (xs ++ obs)) <> 0).
  { destruct (possible_cond bn h obs r A B Po) as (v & s' & Hv & Np). apply (cond_positive _ _ v s').
    rewrite held_cond; auto; [rewrite edited_vars; auto|intros; apply (Vr h obs); auto]. }
  assert (P2 : Pr (edited (more h' Z) (edited h N)) (observed (xs ++ obs)) <> 0).
  { destruct (possible_cond bn h' obs r' A' B' Po') as (v & s' & Hv & Np). apply (cond_positive _ _ v s'). fold N in MC. rewrite <- MC.
    rewrite held_cond; auto; [rewrite edited_vars; auto|intros; apply (Vr h' obs); auto]. }
  apply same_edit; auto.
  - apply edited_valid; auto.
  - rewrite edited_vars; auto.
  - intros v Kv R p L. apply more_in in Kv. apply (drop_far (edited h N) SO1 (map fst (xs ++ obs)) Z ZW u); auto.
    + intros z. rewrite HZ. assert (Ep : forall a b, path (parent_arrows (edited h N)) a b <-> path (parent_arrows (without_into X N)) a b).
      { intros a b. split; apply path_arrows; intros a' b'; apply (forced_arrow bn past h F X); auto. }
      split; intros [I K]; split; auto; intros (w & Hw & P); apply K.
      * rewrite map_app in Hw. apply in_app_or in Hw. destruct Hw as [Hw|Hw]; [|exists w; split; auto; apply Ep; auto].
        exfalso. apply path_end in P. destruct P as (q & P). apply edited_arrow in P. apply (proj2 (Xz w Hw)). tauto.
      * exists w. rewrite map_app. split; [apply in_app_iff; auto|]. apply Ep; auto.
    + intros z Hz I. rewrite map_app in I. apply in_app_or in I. destruct I as [I|I]; [apply (proj1 (Xz z I)); auto|apply (proj2 (Fr z Hz)); auto].
    + intros z Hz. apply (dsep_same (without_into (X ++ ZW) N)); auto. intros a b. pose proof (forced_arrow bn past h F X a b HX) as K. fold N in K. rewrite into_arrow in K. rewrite !into_arrow, in_app_iff. tauto.
Qed.
