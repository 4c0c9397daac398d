(** * CausalBackApi: d-separation and back doors for InferenceEngine. *)
From Coq Require Import List Bool Arith ZArith Lia String QArith Qcanon Permutation Relations.
From Verif Require Import Base QcX Digraph BbnModel Kruskal JtConv SumOver InferModel InferSpec InferProofs InferEngine InferOps InferMain InferThms CausalCore CausalThms CausalDo CausalSep CausalApi DsepSpec CausalTrail CausalBack.
Import ListNotations.
Local Open Scope Qc_scope.
Local Open Scope list_scope.

Lemma api_dsep bn e sc sc' obs extra r r' u s : good_bn bn -> engine_new bn = Ok e -> good_sched sc -> good_sched sc' ->
  valid_obs (net_of bn) (extra ++ obs) -> engine_query sc e obs = Ok r -> engine_query sc' e (extra ++ obs) = Ok r' ->
  ~ In u (map fst obs) -> (forall t, In t (map fst extra) -> d_separated (net_of bn) (map fst obs) t u) ->
  Pr (net_of bn) (observed (extra ++ obs)) <> 0 -> answer r' u s = answer r u s.
Proof.
  intros G E GS GS' VA Q Q' Nu D Nz. apply (api_separated bn e sc sc' obs extra r r' u s); auto.
  intros t Ht. assert (SO : shape_ok (net_of bn)) by apply G. apply (linked_dsep _ SO); auto.
Qed.

Lemma point_cond N v c d obs x u s : shape_ok N -> shape_ok (truncated N v d) -> In (v, c) N -> In x (states c) -> In u (vars N) -> (forall y, In y (map fst obs) -> In y (vars N)) ->
  (forall y, In y (states c) -> y <> x -> weight_in d y = 0) ->
  cond_prob (truncated N v d) obs u s = cond_prob (truncated N v d) ((v, x) :: obs) u s.
Proof.
  intros SO SO' I Hx Hu Ho W.
  assert (Lo : looks (fun y => In y (vars N)) (obsA obs)) by (apply obsA_looks; auto).
  assert (E1 : Pr (truncated N v d) (observed obs) = Pr (truncated N v d) (observed ((v, x) :: obs))).
  { rewrite Pr_obs, (point_mass N v c d SO SO' I (obsA obs) x Lo Hx W). apply Pr_ext. intros w _. cbn [observed forallb fst snd]. apply andb_comm. }
  assert (E2 : Pr_and (truncated N v d) obs u s = Pr_and (truncated N v d) ((v, x) :: obs) u s).
  { rewrite Pr_and_obs, (point_mass N v c d SO SO' I (fun a => obsA obs a && label_eqb (a u) s)%bool x); auto; [|apply and_looks; auto; apply is_looks; auto].
    apply Pr_ext. intros w _. unfold is_. cbn [observed forallb fst snd]. change (forallb _ obs) with (obsA obs (at_ w)). destruct (obsA obs (at_ w)), (label_eqb (at_ w u) s), (label_eqb (at_ w v) x); auto. }
  unfold cond_prob. rewrite E1, E2. auto.
Qed.

Section NewDo.
  Context (bn : bnet) (e e' : eng) (v : string) (c : cpd) (arg : ivarg).
  Context (G : good_bn bn) (E : engine_new bn = Ok e) (AD : arg_dict arg) (ED : do_intervention e v arg = (e', Ok tt)) (I : In (v, c) (net_of bn)).
  Local Notation N := (net_of bn).

  Lemma api_far_do sc sc' obs r r' : good_sched sc -> good_sched sc' -> valid_obs N obs -> engine_query sc e obs = Ok r -> engine_query sc' e' obs = Ok r' ->
    exists d, dist_arg N v arg d /\
      forall u s, ~ In u (map fst obs) -> ~ In v (map fst obs) -> d_separated N (map fst obs) v u ->
        Pr N (observed obs) <> 0 -> Pr (truncated N v d) (observed obs) <> 0 -> answer r' u s = answer r u s.
  Proof.
    intros GS GS' VO Q Q'. destruct (new_do bn e e' v c arg G E AD ED I) as (d & DA & DO & SO' & CS' & An). exists d. split; auto. intros u s Nu Nv D N1 N2.
    destruct (new_answers bn e sc obs r G E GS VO Q) as [A B]. destruct (An sc' obs r' GS' VO Q') as [A' B']. pose proof G as (_ & SO & CS & NO & _).
    destruct (is_state N u s) as [[Hu Hs]|Ns]; [|rewrite B, B'; auto]. rewrite A, A'; auto. f_equal. apply far_do; auto.
  Qed.

  Lemma api_given_value sc sc' obs x r r' : good_sched sc -> good_sched sc' -> valid_obs N ((v, x) :: obs) ->
    engine_query sc e ((v, x) :: obs) = Ok r -> engine_query sc' e' ((v, x) :: obs) = Ok r' ->
    exists d, dist_arg N v arg d /\
      forall u s, u <> v -> ~ In u (map fst obs) ->
        (forall b l, trail (v :: b :: l) v u -> arrow N b v -> ~ active N (map fst obs) (v :: b :: l)) ->
        weight_in d x <> 0 -> Pr N (observed ((v, x) :: obs)) <> 0 -> answer r' u s = answer r u s.
  Proof.
    intros GS GS' VO Q Q'. destruct (new_do bn e e' v c arg G E AD ED I) as (d & DA & DO & SO' & CS' & An). exists d. split; auto. intros u s Nuv Nu BD W N1.
    destruct (new_answers bn e sc _ r G E GS VO Q) as [A B]. destruct (An sc' _ r' GS' VO Q') as [A' B']. pose proof G as (_ & SO & CS & NO & _).
    destruct (is_state N u s) as [[Hu Hs]|Ns]; [|rewrite B, B'; auto]. rewrite A, A'; auto. f_equal. apply (back_door_see N v d SO SO' CS CS' c); auto.
  Qed.

  Lemma api_back_door_see sc sc' obs x r r' u s : good_sched sc -> good_sched sc' -> valid_obs N ((v, x) :: obs) -> all_on arg x ->
    engine_query sc e ((v, x) :: obs) = Ok r -> engine_query sc' e' obs = Ok r' ->
    u <> v -> ~ In u (map fst obs) ->
    (forall b l, trail (v :: b :: l) v u -> arrow N b v -> ~ active N (map fst obs) (v :: b :: l)) ->
    Pr N (observed ((v, x) :: obs)) <> 0 -> answer r' u s = answer r u s.
  Proof.
    intros GS GS' VA AO Q Q' Nuv Nu BD Nz. destruct (new_do bn e e' v c arg G E AD ED I) as (d & DA & DO & SO' & CS' & An).
    assert (VO : valid_obs N obs) by (destruct VA as [ND V]; split; [inversion ND; auto|intros; apply V; right; auto]).
    destruct (new_answers bn e sc _ r G E GS VA Q) as [A B]. destruct (An sc' obs r' GS' VO Q') as [A' B']. pose proof G as (_ & SO & CS & NO & _).
    assert (Hx : In x (states c)) by (rewrite <- (states_of_In _ v c (ok_vars _ SO) I); apply (proj2 VA v x); left; auto).
    destruct (all_on_weights bn e e' v c arg G AD ED I d x DA DO AO Hx) as [W1 W0].
    destruct (is_state N u s) as [[Hu Hs]|Ns]; [|rewrite B, B'; auto]. rewrite A, A'; auto. f_equal.
    rewrite (point_cond N v c d obs x u s); auto.
    - apply (back_door_see N v d SO SO' CS CS' c); auto. rewrite W1. discriminate.
    - intros y Hy. apply in_map_iff in Hy. destruct Hy as ([y' z] & <- & Hy). apply (proj2 VO y' z Hy).
  Qed.

  Lemma api_back_door_adjust sc r Z : good_sched sc -> engine_query sc e' [] = Ok r -> NoDup Z -> incl Z (vars N) ->
    exists d, dist_arg N v arg d /\
      ((forall x o, In x (states c) -> weight_in d x <> 0 -> In o (settings N Z) -> Pr N (observed o) <> 0 -> Pr N (observed ((v, x) :: o)) <> 0) ->
       forall u s, In u (vars N) -> In s (states_of N u) -> u <> v -> ~ In u Z -> back_door N Z v u ->
         answer r u s = Some (Qsum (fun x => weight_in d x * Qsum (fun o => Pr N (observed o) * cond_prob N ((v, x) :: o) u s) (settings N Z)) (states c))).
  Proof.
    intros GS Q ND IZ. destruct (new_do bn e e' v c arg G E AD ED I) as (d & DA & DO & SO' & CS' & An). exists d. split; auto. intros Pos u s Hu Hs Nuv Nu BD.
    assert (VO : valid_obs N []) by (split; [constructor|intros ? ? []]). destruct (An sc [] r GS VO Q) as [A _]. rewrite (A u s Hu Hs). f_equal. pose proof G as (_ & SO & CS & NO & _).
    rewrite <- (back_door_adjust _ v d SO SO' CS CS' c Z u s I ND IZ Hu Nuv Nu BD Pos). unfold cond_prob.
    assert (T1 : Pr (truncated N v d) (observed []) = 1).
    { change (observed []) with (fun w : list (string * label) => (fun _ : assign => true) (at_ w)).
      etransitivity; [apply (Pr_keep _ (fun _ => false) (fun _ => true) (fun _ => LInt 0) SO' CS')|]; [intros ? ? ? _ H; discriminate|intros ? ? _; auto|].
      unfold mass. replace (keep (fun _ => false) (truncated N v d)) with ([] : net); [reflexivity|]. clear. induction (truncated N v d) as [|x l IH]; [reflexivity|exact IH]. }
    rewrite T1. destruct (Qc_eq_bool_spec 1 0) as [Z0|_]; [discriminate Z0|]. unfold Qcdiv. change (/ 1) with 1. ring.
  Qed.
End NewDo.
