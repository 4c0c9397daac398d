(** * EffectNet: facts about networks and their truncations, used for the effects of interventions. *)
From Coq Require Import List Bool Arith ZArith Lia String QArith Qcanon Permutation Relations.
From Verif Require Import Base QcX Digraph BbnModel SumOver NetMoral InferSpec InferProofs InferEngine InferOps InferMain InferThms CausalCore CausalThms CausalDo NetBridge.
Import ListNotations.
Local Open Scope list_scope.
Local Open Scope Qc_scope.

Lemma obs_unseen N f C v : shape_ok N -> In v (vars N) -> In v C -> ~ In (f v) (states_of N v) -> Pr N (observed (given f C)) = 0.
Proof.
  intros SO Hv Hc Ns. unfold Pr. rewrite (filter_ext_in _ (fun _ => false)).
  - replace (filter (fun _ => false) (all_worlds N)) with (@nil (list (string * label))); [reflexivity|]. induction (all_worlds N); auto.
  - intros w Hw. destruct (observed (given f C) w) eqn:E; auto. exfalso. apply Ns.
    rewrite <- (observed_In (given f C) w v (f v) E); [|apply in_map_iff; exists v; auto]. apply all_worlds_state; auto. apply SO.
Qed.

Lemma obs_cons N f v C : Pr N (observed (given f (v :: C))) = Pr_and N (given f C) v (f v).
Proof. unfold Pr_and. apply Pr_ext. intros w _. cbn [given map observed forallb fst snd]. rewrite andb_comm. auto. Qed.

(** Summing over the values of one variable, over any list that has all its states *)
Lemma obs_drop N f v C dom : shape_ok N -> In v (vars N) -> ~ In v C -> NoDup dom -> incl (states_of N v) dom ->
  Pr N (observed (given f C)) = Qsum (fun s => Pr N (observed (given (set_to f v s) (v :: C)))) dom.
Proof.
  intros SO Hv Nv NDd Inc. rewrite <- (Pr_and_sum N SO (given f C) v) by auto.
  assert (E : forall s, Pr N (observed (given (set_to f v s) (v :: C))) = Pr_and N (given f C) v s).
  { intros s. rewrite obs_cons, set_same. f_equal. apply given_ext. intros u Hu. apply set_other. intros ->. auto. }
  rewrite (Qsum_ext (fun s => Pr N (observed (given (set_to f v s) (v :: C)))) (Pr_and N (given f C) v) dom) by (intros; apply E).
  assert (Z : forall s, ~ In s (states_of N v) -> Pr_and N (given f C) v s = 0).
  { intros s Ns. rewrite <- E. apply (obs_unseen N _ (v :: C) v); auto; [left; auto|rewrite set_same; auto]. }
  assert (NDs : NoDup (states_of N v)).
  { apply in_map_iff in Hv as ([u c] & <- & Hu). cbn [fst]. rewrite (states_of_In N u c (ok_vars N SO) Hu). apply (ok_states N SO u c Hu). }
  revert NDs Inc Z. generalize (states_of N v) as L, (Pr_and N (given f C) v) as h. clear -NDd. intros L h NDs Inc Z.
  rewrite (Qsum_ext h (fun s => if existsb (label_eqb s) L then h s else 0) dom).
  - rewrite <- Qsum_filter. apply Qsum_perm, NoDup_Permutation; auto; [apply NoDup_filter; auto|].
    intros x. rewrite filter_In. split.
    + intros Hx. split; auto. apply existsb_exists. exists x. split; auto. destruct (label_eqb_spec x x); congruence.
    + intros [_ Hx]. apply existsb_exists in Hx as (y & Hy & E). destruct (label_eqb_spec x y); [subst; auto|discriminate].
  - intros s _. destruct (existsb (label_eqb s) L) eqn:E; auto. apply Z. intros Hs.
    assert (existsb (label_eqb s) L = true) by (apply existsb_exists; exists s; split; auto; destruct (label_eqb_spec s s); congruence). congruence.
Qed.

(** Networks with the same tables still have the same tables after the same intervention *)
Lemma same_truncated N N' v dd dd' : same_tables N N' -> (forall c s, In (v, c) N -> In s (states c) -> weight_in dd s = weight_in dd' s) ->
  same_tables (truncated N v dd) (truncated N' v dd').
Proof.
  intros F. unfold same_tables. set (so := states_of (truncated N v dd)). assert (Eso : forall p, so p = states_of N p) by (intros p; apply truncated_states). clearbody so.
  unfold same_tables in F. set (so' := states_of N) in *. clearbody so'. unfold truncated.
  induction F as [|[u c] [u' c'] M M' (A & B & C & D) F IH]; intros W; cbn [map]; constructor.
  - cbn [fst snd] in *. subst u'. destruct (String.eqb_spec u v) as [->|Nu]; cbn [fst snd fixed states parents prob]; auto.
    + repeat split; auto. intros s ps Hs _. apply (W c s); auto. left. auto.
    + repeat split; auto. intros s ps Hs Hp. apply D; auto. clear -Hp Eso. induction Hp; constructor; auto. rewrite <- Eso. auto.
  - apply IH. intros c0 s H. apply W. right. auto.
Qed.

(** A distribution on the states of a variable gives a network again *)
Lemma truncated_good N v c dd : shape_ok N -> columns_sum_1 N -> In (v, c) N -> dist_on (states c) dd ->
  shape_ok (truncated N v dd) /\ columns_sum_1 (truncated N v dd).
Proof.
  intros SO CS I DO. assert (Et : truncated N v dd = edited (set_do no_do v (Some dd)) N) by (rewrite <- edited_truncated, edited_none; auto).
  assert (D : dists_ok N (set_do no_do v (Some dd))).
  { intros u c' d' H E. unfold set_do, no_do in E. destruct (String.eqb_spec u v) as [->|]; [|discriminate]. injection E as <-.
    assert (c' = c); [|subst; auto].
    assert (X : dget String.eqb N v = Some c) by (apply (In_dget _ String.eqb_spec); [apply SO|auto]).
    assert (Y : dget String.eqb N v = Some c') by (apply (In_dget _ String.eqb_spec); [apply SO|auto]). congruence. }
  rewrite Et. split; [apply edited_shape|apply edited_columns]; auto.
Qed.

(** The weights [q] on some states *)
Definition on_states (q : label -> Qc) (sts : list label) : list (label * Qc) := map (fun y => (y, q y)) sts.
Lemma on_states_weight q sts y : NoDup sts -> In y sts -> weight_in (on_states q sts) y = q y.
Proof.
  intros ND H. apply weight_in_In; [unfold on_states; rewrite map_map, map_id; auto|]. apply in_map_iff. exists y. auto.
Qed.
Lemma on_states_other q sts y : ~ In y sts -> weight_in (on_states q sts) y = 0.
Proof.
  intros H. unfold weight_in. destruct (find _ _) as [[z p]|] eqn:E; auto. apply find_some in E as [E K]. cbn in K. apply in_map_iff in E as (t & [= -> <-] & E).
  destruct (label_eqb_spec z y); [subst; contradiction|discriminate].
Qed.
Lemma on_states_dist q sts : NoDup sts -> (forall y, 0 <= q y) -> Qsum q sts = 1 -> dist_on sts (on_states q sts).
Proof.
  intros ND Nn T. split; [unfold on_states; rewrite map_map, map_id; auto|]. split; [unfold on_states; rewrite map_map, map_id; tauto|]. split.
  - intros s p H. apply in_map_iff in H as (y & [= -> <-] & Hy). split; auto. rewrite <- T. clear -Nn Hy. apply in_split in Hy as (l1 & l2 & ->).
    rewrite Qsum_app, Qsum_cons. assert (P : forall l, 0 <= Qsum q l) by (intros l; apply Qsum_nonneg; auto).
    pose proof (P l1). pose proof (P l2). rewrite <- (Qcplus_0_l (q s)) at 1. apply Qcplus_le_compat; auto. rewrite <- (Qcplus_0_r (q s)) at 1. apply Qcplus_le_compat; auto. apply Qcle_refl.
  - unfold on_states. rewrite Qsum_map. cbn. auto.
Qed.
