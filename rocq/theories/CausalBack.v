(** * CausalBack: exchanging interventions and observations; adjusting for variables that block the back doors. *)
From Coq Require Import List Bool Arith ZArith Lia String QArith Qcanon Permutation Relations.
From Verif Require Import Base QcX Digraph BbnModel SumOver BbnTables InferSpec InferProofs InferEngine InferMain CausalCore CausalThms CausalDo CausalSep DsepSpec CausalTrail.
Import ListNotations.
Local Open Scope Qc_scope.
Local Open Scope list_scope.

Lemma linked_mono N xs ys Z x y : (forall z, relevant N xs z -> relevant N ys z) -> linked N xs Z x y -> linked N ys Z x y.
Proof.
  intros Rl L. unfold linked in *. induction L as [x y [(R1 & R2 & M) Ny]| |]; [|apply rt_refl|eapply rt_trans; eauto].
  apply rt_step. split; auto. split; auto. split; auto. destruct M as [M|[M|(z & Rz & M)]]; auto. right. right. exists z. auto.
Qed.

Section Same.
  Context (N : net) (v : string) (d : list (label * Qc)).
  Context (SO : shape_ok N) (SO' : shape_ok (truncated N v d)) (CS : columns_sum_1 N) (CS' : columns_sum_1 (truncated N v d)).

  (** The factors that mention [S] are those of the network itself *)
  Lemma touching_same A S : (forall c, In (v, c) N -> A v = true -> touches S (v, c) = false) ->
    filter (touches S) (keep A (truncated N v d)) = filter (touches S) (keep A N).
  Proof.
    clear. intros H. induction N as [|[w e] M IH]; auto. unfold truncated, keep in *. cbn [map filter fst snd].
    assert (IH' : filter (touches S) (filter (fun vc => A (fst vc)) (map (fun vc => if String.eqb (fst vc) v then (fst vc, fixed (snd vc) d) else vc) M)) = filter (touches S) (filter (fun vc => A (fst vc)) M)) by (apply IH; intros; apply H; auto; right; auto).
    destruct (String.eqb_spec w v) as [->|Nw]; cbn [fst].
    - destruct (A v) eqn:Av; cbn [filter]; rewrite ?IH'; auto.
      pose proof (H e (or_introl eq_refl) eq_refl) as T. rewrite T. unfold touches in T |- *. cbn [fst snd existsb fixed parents] in *. apply orb_false_elim in T. destruct T as [T _]. rewrite T. auto.
    - destruct (A w); cbn [filter]; rewrite ?IH'; auto.
  Qed.
  Lemma keep_truncated_vars A : vars (keep A (truncated N v d)) = vars (keep A N).
  Proof. rewrite !keep_vars, truncated_vars. auto. Qed.

  Theorem same_answer obs u s : valid_obs N obs -> In u (vars N) -> ~ In u (map fst obs) ->
    (relevant N (u :: map fst obs) v -> forall p, linked N (u :: map fst obs) (map fst obs) u p -> p <> v /\ ~ arrow N p v) ->
    Pr N (observed obs) <> 0 -> Pr (truncated N v d) (observed obs) <> 0 ->
    cond_prob (truncated N v d) obs u s = cond_prob N obs u s.
  Proof.
    intros VO Hu Nu H N1 N2. set (xs := u :: map fst obs) in *.
    assert (Uxs : In u xs) by (left; auto). destruct (split_net N xs (map fst obs) u SO Uxs Nu Hu) as (A & Sb & An & Rel & Su & Sl & SZ & Cl).
    assert (Ax : forall x, In x xs -> A x = true) by (intros x Hx; apply Rel; exists x; auto).
    assert (Ob : forall x, In x (map fst obs) -> In x (vars N) /\ A x = true).
    { intros x Hx. split; [|apply Ax; right; auto]. apply in_map_iff in Hx. destruct Hx as ([y z] & <- & Hx). apply (proj2 VO y z Hx). }
    assert (NT : forall c, In (v, c) N -> A v = true -> touches Sb (v, c) = false).
    { intros c Ic Av. destruct (touches Sb (v, c)) eqn:T; auto. exfalso. apply existsb_exists in T. destruct T as (p & Hp & Sp). cbn [fst snd] in Hp.
      destruct (H (proj1 (Rel v) Av) p (Sl p Sp)) as [Q1 Q2]. destruct Hp as [Hp|Hp]; [auto|]. apply Q2. apply parents_arrow, parents_of_In. eauto. }
    assert (An' : ancestral (truncated N v d) A).
    { intros w c p I Hw Hp. apply truncated_In in I. destruct I as (c0 & I & [[-> ->]|[_ ->]]); [destruct Hp|]. apply (An w c0 p I Hw Hp). }
    assert (Cl' : forall w c x y, In (w, c) (truncated N v d) -> A w = true -> In x (w :: parents c) -> In y (w :: parents c) -> Sb x = true -> Sb y = true \/ In y (map fst obs)).
    { intros w c x y I Hw Hx Hy. apply truncated_In in I. destruct I as (c0 & I & [[-> ->]|[_ ->]]); [|apply (Cl w c0 x y); auto].
      cbn [fixed parents] in Hx, Hy. apply (Cl v c0 x y); auto; [destruct Hx as [<-|[]]|destruct Hy as [<-|[]]]; left; auto. }
    assert (Ob' : forall x, In x (map fst obs) -> In x (vars (truncated N v d)) /\ A x = true) by (rewrite truncated_vars; auto).
    destruct (factorise N SO CS obs A An Sb SZ Cl Ob) as (G2 & G). destruct (factorise _ SO' CS' obs A An' Sb SZ Cl' Ob') as (G2' & G').
    assert (Es : forall Q, side (truncated N v d) obs A Sb Q = side N obs A Sb Q).
    { intros Q. unfold side. rewrite touching_same by auto. rewrite keep_truncated_vars. apply sumover_dom. intros; apply truncated_states. }
    rewrite truncated_vars in G'. set (G1 := side N obs A Sb) in *.
    assert (LU : looks (fun x => In x (vars N) /\ A x = true /\ Sb x = true) (fun a => label_eqb (a u) s)) by (apply is_looks; auto).
    assert (LT : forall B, looks B (fun _ => true)) by (intros B a b _; auto).
    set (yes := fun _ : assign => true). set (us := fun a : assign => label_eqb (a u) s).
    assert (P1 : forall M, Pr M (observed obs) = Pr M (fun w => (fun a => yes a && (obsA obs a && yes a))%bool (at_ w))).
    { intros M. apply Pr_ext. intros w _. unfold yes. cbn [andb]. rewrite andb_true_r. auto. }
    assert (P2 : forall M, Pr_and M obs u s = Pr M (fun w => (fun a => us a && (obsA obs a && yes a))%bool (at_ w))).
    { intros M. apply Pr_ext. intros w _. unfold yes, us, is_. rewrite andb_true_r. apply andb_comm. }
    assert (E3 : Pr N (observed obs) = G1 yes * G2 yes) by (rewrite P1; apply (G yes yes (LT _) (LT _))).
    assert (E4 : Pr_and N obs u s = G1 us * G2 yes) by (rewrite P2; apply (G us yes LU (LT _))).
    assert (E5 : Pr (truncated N v d) (observed obs) = G1 yes * G2' yes) by (rewrite P1, (G' yes yes (LT _) (LT _)), Es; auto).
    assert (E6 : Pr_and (truncated N v d) obs u s = G1 us * G2' yes) by (rewrite P2, (G' us yes LU (LT _)), Es; auto).
    unfold cond_prob. destruct (Qc_eq_bool_spec (Pr N (observed obs)) 0) as [|_]; [congruence|]. destruct (Qc_eq_bool_spec (Pr (truncated N v d) (observed obs)) 0) as [|_]; [congruence|].
    rewrite E3 in N1. rewrite E5 in N2. rewrite E3, E4, E5, E6.
    assert (G1 yes <> 0) by (intros Z; apply N1; rewrite Z; ring). assert (G2 yes <> 0) by (intros Z; apply N1; rewrite Z; ring). assert (G2' yes <> 0) by (intros Z; apply N2; rewrite Z; ring).
    field. auto.
  Qed.

  (** ** An intervention on a separated variable *)
  Theorem far_do obs u s : valid_obs N obs -> In u (vars N) -> ~ In u (map fst obs) -> ~ In v (map fst obs) -> d_separated N (map fst obs) v u ->
    Pr N (observed obs) <> 0 -> Pr (truncated N v d) (observed obs) <> 0 ->
    cond_prob (truncated N v d) obs u s = cond_prob N obs u s.
  Proof.
    intros VO Hu Nu Nv D N1 N2. apply same_answer; auto. intros Rv p L.
    assert (K : ~ linked N (u :: map fst obs) (map fst obs) u v).
    { intros Lv. apply (linked_dsep N SO (map fst obs) [v] u Nu) with (x := v); [intros t [<-|[]]; auto|left; auto|].
      eapply linked_mono; [|exact Lv]. intros z (y & Hy & Q). exists y. split; auto. cbn in *. tauto. }
    split; [intros ->; auto|]. intros Ar. apply K. unfold linked in *. eapply rt_trans; [exact L|]. apply rt_step. split; auto. split; [|split; auto].
    apply (relevant_up N _ p v); auto. apply path_one. exact Ar.
  Qed.

  (** ** Doing and seeing with blocked back doors *)
  Lemma positive_event c x (P : assign -> bool) : In (v, c) N -> weight_in d x <> 0 -> looks (fun y => In y (vars N)) P -> (forall a, P a = true -> a v = x) ->
    Pr N (fun w => P (at_ w)) <> 0 -> Pr (truncated N v d) (fun w => P (at_ w)) <> 0.
  Proof.
    intros I W L Px Nz Z. apply Nz. set (ps := parents c).
    rewrite (Pr_total N SO ps (proj2 (ok_parents N SO v c I))). rewrite (Qsum_ext _ (fun _ => 0)); [apply Qsum_zero|]. intros o Ho.
    pose proof (settings_valid N ps o (proj1 (ok_parents N SO v c I)) (proj2 (ok_parents N SO v c I)) Ho) as VO.
    assert (Pa : incl (parents c) (map fst o)) by (rewrite (settings_fst _ _ _ Ho); apply incl_refl).
    pose proof (truncated_with_parents N v c d SO SO' I o P x VO Pa L) as T. cbn beta in T.
    assert (Z' : Pr (truncated N v d) (fun w => (obsA o (at_ w) && P (at_ w) && label_eqb (at_ w v) x)%bool) = 0).
    { apply Qcle_antisym; [rewrite <- Z; apply Pr_mono; auto; intros w _ Hw; apply andb_prop in Hw; destruct Hw as [Hw _]; apply andb_prop in Hw; tauto|apply Pr_nonneg; auto]. }
    rewrite Z' in T. rewrite Qcmult_0_l in T.
    assert (E : Pr N (fun w => (P (at_ w) && observed o w)%bool) = Pr N (fun w => (obsA o (at_ w) && P (at_ w) && label_eqb (at_ w v) x)%bool)).
    { apply Pr_ext. intros w _. change (observed o w) with (obsA o (at_ w)). destruct (P (at_ w)) eqn:Q; cbn [andb]; [|destruct (obsA o (at_ w)); auto].
      rewrite (Px _ Q). destruct (label_eqb_spec x x); [|congruence]. rewrite !andb_true_r. auto. }
    rewrite E. symmetry in T. apply Qcmult_integral in T. destruct T; [auto|contradiction].
  Qed.

  Theorem back_door_see c x z u s : In (v, c) N -> valid_obs N ((v, x) :: z) -> In u (vars N) -> u <> v -> ~ In u (map fst z) ->
    (forall b l, trail (v :: b :: l) v u -> arrow N b v -> ~ active N (map fst z) (v :: b :: l)) ->
    weight_in d x <> 0 -> Pr N (observed ((v, x) :: z)) <> 0 ->
    cond_prob (truncated N v d) ((v, x) :: z) u s = cond_prob N ((v, x) :: z) u s.
  Proof.
    intros I VO Hu Nuv Nu BD W Nz.
    assert (NU : ~ In u (map fst ((v, x) :: z))) by (intros [Q|Q]; auto).
    apply same_answer; auto.
    - intros _ p L. assert (Np : ~ In p (v :: map fst z)).
      { apply clos_rt_rtn1 in L. inversion L; subst; [exact NU|tauto]. }
      split; [intros ->; apply Np; left; auto|]. intros Ar. apply (back_door_linked N SO (map fst z) v u Nuv p Nu BD Ar Np). exact L.
    - rewrite Pr_obs in *. apply (positive_event c x); auto.
      + apply obsA_looks. intros y Hy. apply in_map_iff in Hy. destruct Hy as ([y' q] & <- & Hy). apply (proj2 VO y' q Hy).
      + intros a Ha. apply (obsA_val _ a v x Ha). left; auto.
  Qed.

  (** ** Adjusting *)
  Theorem back_door_adjust c Z u s : In (v, c) N -> NoDup Z -> incl Z (vars N) -> In u (vars N) -> u <> v -> ~ In u Z -> back_door N Z v u ->
    (forall x o, In x (states c) -> weight_in d x <> 0 -> In o (settings N Z) -> Pr N (observed o) <> 0 -> Pr N (observed ((v, x) :: o)) <> 0) ->
    Pr_and (truncated N v d) [] u s =
    Qsum (fun x => weight_in d x * Qsum (fun o => Pr N (observed o) * cond_prob N ((v, x) :: o) u s) (settings N Z)) (states c).
  Proof.
    intros I ND IZ Hu Nuv Nu [Nd BD] Pos. pose proof (in_vars N v c I) as Hv.
    assert (I' : In (v, fixed c d) (truncated N v d)) by (unfold truncated; apply in_map_iff; exists (v, c); cbn; rewrite String.eqb_refl; auto).
    unfold Pr_and. rewrite (Pr_split _ SO' _ v) by (rewrite truncated_vars; auto).
    rewrite truncated_states, (states_of_In N v c (ok_vars N SO) I). apply Qsum_ext. intros x Hx.
    rewrite (Pr_total _ SO' Z) by (rewrite truncated_vars; auto).
    assert (Es : forall Z, settings (truncated N v d) Z = settings N Z).
    { clear. induction Z as [|p ps IH]; cbn; auto. rewrite truncated_states, IH. auto. }
    rewrite Es, <- Qsum_mul_l. apply Qsum_ext. intros o Ho.
    pose proof (settings_valid N Z o ND IZ Ho) as VO. pose proof (settings_fst _ _ _ Ho) as Fo.
    assert (VO' : valid_obs (truncated N v d) o) by (apply (settings_valid _ Z); auto; rewrite ?truncated_vars, ?Es; auto).
    assert (VX : valid_obs N ((v, x) :: o)).
    { split; [cbn; constructor; [rewrite Fo; intros Q; apply (proj1 (Nd v Q)); auto|apply VO]|]. intros y q [[= <- <-]|Hy]; [split; auto; rewrite (states_of_In N v c (ok_vars N SO) I); auto|apply (proj2 VO y q Hy)]. }
    rewrite (Pr_ext (truncated N v d) _ (fun w => (observed ((v, x) :: o) w && is_ u s w)%bool)).
    2:{ intros w _. unfold is_. change (observed o w) with (obsA o (at_ w)). cbn [observed forallb fst snd]. change (forallb _ o) with (obsA o (at_ w)). destruct (obsA o (at_ w)), (label_eqb (at_ w u) s), (label_eqb (at_ w v) x); auto. }
    change (Pr (truncated N v d) (fun w => (observed ((v, x) :: o) w && is_ u s w)%bool)) with (Pr_and (truncated N v d) ((v, x) :: o) u s).
    destruct (Qc_eq_dec (weight_in d x) 0) as [W0|W1].
    { rewrite W0, Qcmult_0_l. unfold Pr_and. rewrite (Pr_ext _ _ (fun w => ((fun a => obsA o a && label_eqb (a u) s)%bool (at_ w) && label_eqb (at_ w v) x)%bool)).
      - apply (no_weight N v c d SO' I (fun a => obsA o a && label_eqb (a u) s)%bool x); auto. apply and_looks; [|apply is_looks; auto]. apply obsA_looks. intros y Hy. rewrite Fo in Hy. auto.
      - intros w _. unfold is_. cbn [observed forallb fst snd]. change (forallb _ o) with (obsA o (at_ w)). destruct (obsA o (at_ w)), (label_eqb (at_ w u) s), (label_eqb (at_ w v) x); auto. }
    assert (EZ : Pr (truncated N v d) (observed o) = Pr N (observed o)).
    { rewrite !Pr_obs. apply (unaffected_event N v d SO CS SO' CS' (map fst o)); [|apply obsA_looks; auto]. intros y Hy. rewrite Fo in Hy. split; auto. }
    assert (EX : Pr (truncated N v d) (observed ((v, x) :: o)) = Pr N (observed o) * weight_in d x).
    { rewrite <- EZ. transitivity (Pr_and (truncated N v d) o v x); [apply Pr_ext; intros w _; unfold is_; cbn [observed forallb fst snd]; apply andb_comm|].
      apply (markov_mass (truncated N v d) v (fixed c d) o SO' CS' I' VO'); auto; [intros y []|].
      intros y Hy. rewrite Fo in Hy. split; [apply (Nd y Hy)|]. intros P. apply (proj2 (Nd y Hy)). apply (path_incl (parent_arrows (truncated N v d))); auto.
      intros [a b] Hab. apply parents_arrow, parents_of_In in Hab. destruct Hab as (c' & Hab & Hp). apply truncated_In in Hab. destruct Hab as (c0 & Hab & [[-> ->]|[_ ->]]); [destruct Hp|]. apply parents_arrow, parents_of_In. exists c0. split; [exact Hab|exact Hp]. }
    destruct (Qc_eq_dec (Pr N (observed o)) 0) as [Z0|NZ].
    { rewrite Z0 in EX |- *. rewrite Qcmult_0_l in *. rewrite Qcmult_0_r. apply Qcle_antisym; [|apply Pr_nonneg; auto]. rewrite <- EX. apply Pr_mono; auto. intros w _ Hw. apply andb_prop in Hw. tauto. }
    rewrite <- (back_door_see c x o u s); auto; [|rewrite Fo; auto|rewrite Fo; auto].
    unfold cond_prob. rewrite EX. destruct (Qc_eq_bool_spec (Pr N (observed o) * weight_in d x) 0) as [Q|_]; [exfalso; apply Qcmult_integral in Q; tauto|]. field. auto.
  Qed.
End Same.
