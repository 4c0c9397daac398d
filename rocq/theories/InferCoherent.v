(** * InferCoherent: the answers of several queries fit together. *)
From Coq Require Import List Bool Arith ZArith Lia String QArith Qcanon Permutation.
From Verif Require Import Base QcX Digraph BbnModel Kruskal InferModel InferSpec InferEngine InferOps InferMain InferThms.
Import ListNotations.
Local Open Scope Qc_scope.
Local Open Scope list_scope.

(** The number an answer gives to a state (0 when there is none). *)
Definition says (r : qresult) (v : string) (s : label) : Qc :=
  match answer r v s with Some p => p | None => 0 end.

Section Coherent.
  Variable N : net.
  Hypothesis SO : shape_ok N.

  Lemma Pr_and_cons obs v s : Pr_and N obs v s = Pr N (observed ((v, s) :: obs)).
  Proof.
    unfold Pr_and. apply Pr_ext; auto. intros w _. unfold observed, is_. cbn [forallb fst snd]. apply andb_comm.
  Qed.

  Lemma Pr_perm obs obs' : Permutation obs obs' -> Pr N (observed obs) = Pr N (observed obs').
  Proof.
    intros P. apply Pr_ext; auto. intros w _. unfold observed.
    induction P as [|x l l' _ IH|x y l|l l' l'' _ I1 _ I2]; cbn [forallb]; auto.
    - rewrite IH. reflexivity.
    - rewrite !andb_assoc. f_equal. apply andb_comm.
    - congruence.
  Qed.

  Lemma cond_prob_perm obs obs' v s : Permutation obs obs' -> cond_prob N obs v s = cond_prob N obs' v s.
  Proof.
    intros P. unfold cond_prob. rewrite !Pr_and_cons, (Pr_perm obs obs' P), (Pr_perm ((v, s) :: obs) ((v, s) :: obs')) by auto.
    reflexivity.
  Qed.

  (** P(a | o) P(b | o, a) = P(a, b | o), also when something is impossible. *)
  Lemma chain obs u a v b : cond_prob N obs u a * cond_prob N ((u, a) :: obs) v b =
    if Qc_eq_bool (Pr N (observed obs)) 0 then 0 else Pr N (observed ((v, b) :: (u, a) :: obs)) / Pr N (observed obs).
  Proof.
    unfold cond_prob. destruct (Qc_eq_bool_spec (Pr N (observed obs)) 0) as [Z|NZ]; [ring|].
    rewrite !Pr_and_cons. destruct (Qc_eq_bool_spec (Pr N (observed ((u, a) :: obs))) 0) as [Z1|NZ1].
    - assert (Z2 : Pr N (observed ((v, b) :: (u, a) :: obs)) = 0) by (rewrite <- Pr_and_cons; apply Pr_and_zero; auto).
      rewrite Z2, Z1. unfold Qcdiv. ring.
    - field. auto.
  Qed.

  Lemma bayes obs u a v b : cond_prob N obs u a * cond_prob N ((u, a) :: obs) v b =
    cond_prob N obs v b * cond_prob N ((v, b) :: obs) u a.
  Proof. rewrite !chain. destruct (Qc_eq_bool _ _); auto. f_equal. apply Pr_perm. constructor. Qed.

  Lemma total_probability obs u a v : In v (vars N) ->
    Qsum (fun b => cond_prob N obs v b * cond_prob N ((v, b) :: obs) u a) (states_of N v) = cond_prob N obs u a.
  Proof.
    intros Hv. rewrite (Qsum_ext _ (fun b => cond_prob N obs u a * cond_prob N ((u, a) :: obs) v b)).
    - rewrite Qsum_mul_l. rewrite (cond_prob_sum N ((u, a) :: obs) v) by auto.
      destruct (Qc_eq_bool_spec (Pr N (observed ((u, a) :: obs))) 0) as [Z|NZ]; [|ring].
      unfold cond_prob. rewrite Pr_and_cons, Z. destruct (Qc_eq_bool _ _); unfold Qcdiv; ring.
    - intros b _. apply bayes.
  Qed.

  Lemma cond_prob_le1 obs v b : In v (vars N) -> In b (states_of N v) -> cond_prob N obs v b <= 1.
  Proof.
    intros Hv Hb. assert (E := cond_prob_sum N obs v SO Hv).
    apply in_split in Hb as (l1 & l2 & El). rewrite El, Qsum_app, Qsum_cons in E.
    assert (A : 0 <= Qsum (cond_prob N obs v) l1) by (apply Qsum_nonneg; intros; apply cond_prob_nonneg; auto).
    assert (B : 0 <= Qsum (cond_prob N obs v) l2) by (apply Qsum_nonneg; intros; apply cond_prob_nonneg; auto).
    assert (D : Qsum (cond_prob N obs v) l1 + (cond_prob N obs v b + Qsum (cond_prob N obs v) l2) <= 1).
    { rewrite E. destruct (Qc_eq_bool _ _); unfold Qcle; cbn; discriminate. }
    replace (cond_prob N obs v b) with (0 + (cond_prob N obs v b + 0)) by ring.
    eapply Qcle_trans; [|exact D]. apply Qcplus_le_compat; auto. apply Qcplus_le_compat; auto. apply Qcle_refl.
  Qed.

  Lemma impossible obs u a v b : cond_prob N obs v b = 0 -> cond_prob N ((v, b) :: obs) u a = 0.
  Proof.
    unfold cond_prob. intros Z. rewrite !Pr_and_cons in *.
    assert (Z1 : Pr N (observed ((v, b) :: obs)) = 0).
    { destruct (Qc_eq_bool_spec (Pr N (observed obs)) 0) as [Z0|NZ].
      - rewrite <- Pr_and_cons. apply Pr_and_zero; auto.
      - transitivity (Pr N (observed ((v, b) :: obs)) / Pr N (observed obs) * Pr N (observed obs)); [field; auto|].
        rewrite Z. ring. }
    rewrite Z1. reflexivity.
  Qed.

  Lemma certain obs u a v b : In v (vars N) -> In b (states_of N v) -> cond_prob N obs v b = 1 ->
    cond_prob N ((v, b) :: obs) u a = cond_prob N obs u a.
  Proof.
    intros Hv Hb E. pose proof (total_probability obs u a v Hv) as T.
    assert (S1 := cond_prob_sum N obs v SO Hv).
    destruct (Qc_eq_bool_spec (Pr N (observed obs)) 0) as [Z|NZ].
    { unfold cond_prob in E. rewrite Z in E. destruct (Qc_eq_bool_spec 0 0) as [_|X]; [discriminate E|destruct X; auto]. }
    assert (ND : NoDup (states_of N v)).
    { unfold states_of. destruct (find _ N) as [[v' c]|] eqn:F; [|constructor].
      apply find_some in F as [F _]. apply (ok_states N SO) in F. apply F. }
    apply in_split in Hb as (l1 & l2 & El). rewrite El in *.
    rewrite Qsum_app, Qsum_cons in S1, T. rewrite E in S1, T.
    assert (A : forall l, 0 <= Qsum (cond_prob N obs v) l) by (intros l; apply Qsum_nonneg; intros; apply cond_prob_nonneg; auto).
    assert (Z12 : Qsum (cond_prob N obs v) (l1 ++ l2) = 0).
    { rewrite Qsum_app. transitivity (Qsum (cond_prob N obs v) l1 + (1 + Qsum (cond_prob N obs v) l2) - 1); [ring|].
      rewrite S1. ring. }
    assert (Z0 : forall x, In x (l1 ++ l2) -> cond_prob N obs v x = 0).
    { intros x Hx. apply Qcle_antisym; [|apply cond_prob_nonneg; auto]. rewrite <- Z12.
      apply in_split in Hx as (m1 & m2 & ->). rewrite Qsum_app, Qsum_cons.
      pattern (cond_prob N obs v x) at 1. replace (cond_prob N obs v x) with (0 + (cond_prob N obs v x + 0)) by ring.
      apply Qcplus_le_compat; auto. apply Qcplus_le_compat; auto. apply Qcle_refl. }
    rewrite <- T. rewrite !(Qsum_all_zero (fun c => cond_prob N obs v c * _)).
    - ring.
    - intros x Hx. rewrite (Z0 x) by (apply in_or_app; auto). ring.
    - intros x Hx. rewrite (Z0 x) by (apply in_or_app; auto). ring.
  Qed.
End Coherent.

(** ** Engines *)
Section Engine.
  Variables (bn : bnet) (ops : list iop) (e : eng) (past : log).
  Hypothesis G : good_bn bn.
  Hypothesis FA : Forall op_ok ops.
  Hypothesis RE : reached bn ops e past.
  Let N := net_of bn.

  (** Once a query has worked they all do, and answer by one network. *)
  Lemma one_network sc0 obs0 r0 : good_sched sc0 -> engine_query sc0 e obs0 = Ok r0 ->
    exists M, shape_ok M /\ vars M = vars N /\ (forall v, states_of M v = states_of N v) /\
      forall sc obs, good_sched sc -> valid_obs N obs -> exists r, engine_query sc e obs = Ok r /\
        (forall v s, In v (vars N) -> In s (states_of N v) -> answer r v s = Some (cond_prob M obs v s)) /\
        (forall v s, ~ (In v (vars N) /\ In s (states_of N v)) -> answer r v s = None).
  Proof.
    intros GS0 E0. destruct (reached_inv bn ops e past (good_bn_shape bn G) FA RE) as (h & EO & _ & _).
    destruct G as (FO & SO & CS & NO & J).
    assert (J' : joined (edited h N)) by (apply (query_joined sc0 e N h obs0 r0); auto).
    exists (edited h N). split; [apply edited_shape; auto; apply (eo_dists e N h EO)|]. split; [apply edited_vars|].
    split; [intros v; apply edited_states|]. intros sc obs GS VO.
    destruct (query_conditional sc e N h obs GS SO NO EO CS J' VO) as (r & E & _ & A & B & _). eauto.
  Qed.

  Lemma says_answer r (M : net) obs : 
    (forall v s, In v (vars N) -> In s (states_of N v) -> answer r v s = Some (cond_prob M obs v s)) ->
    forall v s, In v (vars N) -> In s (states_of N v) -> says r v s = cond_prob M obs v s.
  Proof. intros A v s Hv Hs. unfold says. rewrite A; auto. Qed.

  Lemma valid_tail x obs : valid_obs N (x :: obs) -> valid_obs N obs.
  Proof. intros (ND & V). split; [inversion ND; auto|]. intros v y H. apply V. right. auto. Qed.

  Lemma valid_perm obs obs' : Permutation obs obs' -> valid_obs N obs -> valid_obs N obs'.
  Proof.
    intros P (ND & V). split.
    - apply (Permutation_NoDup (Permutation_map fst P) ND).
    - intros v x H. apply V. apply (Permutation_in _ (Permutation_sym P) H).
  Qed.

  Lemma query_order sc sc' obs obs' r : good_sched sc -> good_sched sc' -> valid_obs N obs -> Permutation obs obs' ->
    engine_query sc e obs = Ok r ->
    exists r', engine_query sc' e obs' = Ok r' /\ forall v s, answer r' v s = answer r v s.
  Proof.
    intros GS GS' VO P E. destruct (one_network sc obs r GS E) as (M & SM & _ & _ & Q).
    destruct (Q sc obs GS VO) as (r1 & E1 & A1 & B1). rewrite E in E1. injection E1 as <-.
    destruct (Q sc' obs' GS' (valid_perm _ _ P VO)) as (r2 & E2 & A2 & B2). exists r2. split; auto.
    assert (D : forall v s, {In v (vars N) /\ In s (states_of N v)} + {~ (In v (vars N) /\ In s (states_of N v))}).
    { intros v s. destruct (in_dec string_dec v (vars N)); [|right; tauto].
      destruct (in_dec (fun x y => match label_eqb_spec x y with ReflectT _ p => left p | ReflectF _ p => right p end) s (states_of N v)); [left|right]; tauto. }
    intros v s. destruct (D v s) as [[Hv Hs]|n].
    - rewrite A1, A2 by auto. f_equal. symmetry. apply cond_prob_perm; auto.
    - rewrite B1, B2 by auto. auto.
  Qed.

  Lemma query_bayes sc1 sc2 sc3 obs r u a v b : good_sched sc1 -> good_sched sc2 -> good_sched sc3 ->
    valid_obs N ((u, a) :: (v, b) :: obs) -> engine_query sc1 e obs = Ok r ->
    exists r2 r3, engine_query sc2 e ((u, a) :: obs) = Ok r2 /\ engine_query sc3 e ((v, b) :: obs) = Ok r3 /\
      says r u a * says r2 v b = says r v b * says r3 u a.
  Proof.
    intros G1 G2 G3 VO E. destruct (one_network sc1 obs r G1 E) as (M & SM & _ & _ & Q).
    assert (V3 := valid_tail _ _ VO). assert (V1 := valid_tail _ _ V3).
    assert (V2 : valid_obs N ((u, a) :: obs)).
    { apply (valid_perm ((u, a) :: (v, b) :: obs) ((v, b) :: (u, a) :: obs)) in VO; [|constructor]. apply (valid_tail _ _ VO). }
    destruct (Q sc1 obs G1 V1) as (r1 & E1 & A1 & _). rewrite E in E1. injection E1 as <-.
    destruct (Q sc2 _ G2 V2) as (r2 & E2 & A2 & _). destruct (Q sc3 _ G3 V3) as (r3 & E3 & A3 & _).
    exists r2, r3. split; auto. split; auto.
    destruct VO as (_ & V). destruct (V u a) as (Hu & Ha); [left; auto|]. destruct (V v b) as (Hv & Hb); [right; left; auto|].
    rewrite (says_answer r M obs A1 u a), (says_answer r M obs A1 v b), (says_answer r2 M _ A2), (says_answer r3 M _ A3) by auto.
    apply bayes; auto.
  Qed.

  Lemma query_total sc (scs : label -> sched) obs r u a v : good_sched sc -> (forall b, good_sched (scs b)) ->
    valid_obs N obs -> In u (vars N) -> In a (states_of N u) -> In v (vars N) -> ~ In v (map fst obs) ->
    engine_query sc e obs = Ok r ->
    exists rs : label -> qresult,
      (forall b, In b (states_of N v) -> engine_query (scs b) e ((v, b) :: obs) = Ok (rs b)) /\
      Qsum (fun b => says r v b * says (rs b) u a) (states_of N v) = says r u a.
  Proof.
    intros GS GSs VO Hu Ha Hv Nv E. destruct (one_network sc obs r GS E) as (M & SM & VM & ST & Q).
    destruct (Q sc obs GS VO) as (r1 & E1 & A1 & _). rewrite E in E1. injection E1 as <-.
    exists (fun b => match engine_query (scs b) e ((v, b) :: obs) with Ok x => x | Err _ => r end).
    assert (K : forall b, In b (states_of N v) -> exists x, engine_query (scs b) e ((v, b) :: obs) = Ok x /\
              says x u a = cond_prob M ((v, b) :: obs) u a).
    { intros b Hb. destruct (Q (scs b) ((v, b) :: obs) (GSs b)) as (x & Ex & Ax & _).
      - destruct VO as (ND & V). split; [constructor; auto|]. intros w y [[= <- <-]|H]; auto.
      - exists x. split; auto. apply (says_answer x M _ Ax); auto. }
    split.
    - intros b Hb. destruct (K b Hb) as (x & Ex & _). rewrite Ex. auto.
    - rewrite (says_answer r M obs A1 u a) by auto. rewrite <- (total_probability M SM obs u a v) by (rewrite VM; auto).
      rewrite ST. apply Qsum_ext. intros b Hb. destruct (K b Hb) as (x & Ex & Sx). rewrite Ex, Sx.
      rewrite (says_answer r M obs A1 v b) by auto. reflexivity.
  Qed.

  Lemma query_certain sc sc' obs r v b : good_sched sc -> good_sched sc' -> valid_obs N ((v, b) :: obs) ->
    engine_query sc e obs = Ok r ->
    exists r', engine_query sc' e ((v, b) :: obs) = Ok r' /\
      (says r v b = 1 -> forall u a, answer r' u a = answer r u a) /\
      (says r v b = 0 -> forall u a, says r' u a = 0) /\
      (says r v b <> 0 -> says r' v b = 1).
  Proof.
    intros GS GS' VO E. destruct (one_network sc obs r GS E) as (M & SM & VM & ST & Q).
    destruct (Q sc obs GS (valid_tail _ _ VO)) as (r1 & E1 & A1 & B1). rewrite E in E1. injection E1 as <-.
    destruct (Q sc' _ GS' VO) as (r2 & E2 & A2 & B2). exists r2. split; auto.
    destruct VO as (ND & V). destruct (V v b) as (Hv & Hb); [left; auto|].
    assert (D : forall v s, {In v (vars N) /\ In s (states_of N v)} + {~ (In v (vars N) /\ In s (states_of N v))}).
    { intros w s. destruct (in_dec string_dec w (vars N)); [|right; tauto].
      destruct (in_dec (fun x y => match label_eqb_spec x y with ReflectT _ p => left p | ReflectF _ p => right p end) s (states_of N w)); [left|right]; tauto. }
    rewrite (says_answer r M obs A1 v b) by auto. split; [|split].
    - intros E1 u a. destruct (D u a) as [[Hu Ha]|n].
      + rewrite A1, A2 by auto. f_equal. apply certain; auto; [rewrite VM|rewrite ST]; auto.
      + rewrite B1, B2 by auto. auto.
    - intros Z u a. destruct (D u a) as [[Hu Ha]|n].
      + rewrite (says_answer r2 M _ A2) by auto. apply impossible; auto.
      + unfold says. rewrite B2 by auto. auto.
    - intros NZ. rewrite (says_answer r2 M _ A2) by auto. unfold cond_prob in *. rewrite Pr_and_cons in NZ by auto.
      destruct (Qc_eq_bool_spec (Pr M (observed ((v, b) :: obs))) 0) as [Z|NZ'].
      + destruct NZ. rewrite Z. destruct (Qc_eq_bool _ _); unfold Qcdiv; ring.
      + rewrite (Pr_and_obs_same M _ v b) by (left; auto). apply Qc_inv_r. auto.
  Qed.
End Engine.
