(** * CausalThms: what interventions and observations change, over the specification of networks. *)
From Coq Require Import List Bool Arith ZArith Lia String QArith Qcanon Permutation.
From Verif Require Import Base QcX Digraph BbnModel SumOver BbnTables InferSpec InferProofs InferEngine InferMain CausalCore.
Import ListNotations.
Local Open Scope Qc_scope.
Local Open Scope list_scope.

(** ** Ancestors *)
Definition parents_of (N : net) (v : string) : list string := flat_map (fun vc => if String.eqb (fst vc) v then parents (snd vc) else []) N.

Lemma parents_of_In N v p : In p (parents_of N v) <-> exists c, In (v, c) N /\ In p (parents c).
Proof.
  unfold parents_of. rewrite in_flat_map. split.
  - intros ([u c] & I & H). cbn in H. destruct (String.eqb_spec u v) as [->|]; [eauto|destruct H].
  - intros (c & I & H). exists (v, c). split; auto. cbn. rewrite String.eqb_refl. auto.
Qed.
Lemma parents_arrow N v p : In p (parents_of N v) <-> In (p, v) (parent_arrows N).
Proof.
  rewrite parents_of_In. unfold parent_arrows. rewrite in_flat_map. split.
  - intros (c & I & H). exists (v, c). split; auto. cbn. apply in_map_iff. eauto.
  - intros ([u c] & I & H). cbn in H. apply in_map_iff in H. destruct H as (q & [= -> ->] & H). eauto.
Qed.

Fixpoint anc (N : net) (fuel : nat) (x : string) : list string :=
  match fuel with O => [] | S k => x :: flat_map (anc N k) (parents_of N x) end.

Section Anc.
  Context (N : net) (r : string -> nat) (Rk : forall p v, In (p, v) (parent_arrows N) -> (r p < r v)%nat).
  Lemma anc_closed k : forall x y p, (r x < k)%nat -> In y (anc N k x) -> In p (parents_of N y) -> In p (anc N k x).
  Proof.
    induction k as [|k IH]; intros x y p Hr Hy Hp; [lia|]. cbn [anc] in *. right. apply in_flat_map. destruct Hy as [<-|Hy].
    - exists p. split; auto. pose proof (Rk p x (proj1 (parents_arrow N x p) Hp)). destruct k; [lia|]. left. auto.
    - apply in_flat_map in Hy. destruct Hy as (q & Hq & Hy). exists q. split; auto. pose proof (Rk q x (proj1 (parents_arrow N x q) Hq)). apply (IH q y p); auto. lia.
  Qed.
  Lemma anc_path k : forall x y, In y (anc N k x) -> y = x \/ path (parent_arrows N) y x.
  Proof.
    induction k as [|k IH]; intros x y Hy; [destruct Hy|]. cbn [anc] in Hy. destruct Hy as [<-|Hy]; auto. right.
    apply in_flat_map in Hy. destruct Hy as (q & Hq & Hy). apply parents_arrow in Hq. destruct (IH q y Hy) as [->|Pa].
    - apply path_one. auto.
    - eapply path_trans; [exact Pa|apply path_one; auto].
  Qed.
End Anc.

(** The variables of [xs] and all their ancestors *)
Lemma ancestors N xs : shape_ok N -> exists A : string -> bool, ancestral N A /\ (forall x, In x xs -> A x = true) /\
  forall y, A y = true -> exists x, In x xs /\ (y = x \/ path (parent_arrows N) y x).
Proof.
  intros SO. destruct (proj1 (acyclic_rank String.eqb String.eqb_spec _) (ok_dag N SO)) as (r & Rk).
  set (k := S (list_max (map r xs))). exists (fun y => smem y (flat_map (anc N k) xs)).
  assert (Rx : forall x, In x xs -> (r x < k)%nat).
  { intros x Hx. unfold k. pose proof (list_max_le (map r xs) (list_max (map r xs))) as [Q _]. specialize (Q (le_n _)). rewrite Forall_forall in Q. specialize (Q (r x) (in_map r xs x Hx)). lia. }
  split; [|split].
  - intros v c p I Hv Hp. apply smem_In in Hv. apply smem_In. apply in_flat_map in Hv. destruct Hv as (x & Hx & Hv). apply in_flat_map. exists x. split; auto.
    apply (anc_closed N r Rk k x v p); auto. apply parents_of_In. eauto.
  - intros x Hx. apply smem_In. apply in_flat_map. exists x. split; auto. unfold k. cbn. auto.
  - intros y Hy. apply smem_In in Hy. apply in_flat_map in Hy. destruct Hy as (x & Hx & Hy). exists x. split; auto. apply (anc_path N k x y Hy).
Qed.

(** ** Events *)
Definition obsA (obs : list (string * label)) (a : assign) : bool := forallb (fun e => label_eqb (a (fst e)) (snd e)) obs.

Lemma obsA_looks (A : string -> Prop) obs : (forall x, In x (map fst obs) -> A x) -> looks A (obsA obs).
Proof.
  intros H a b E. unfold obsA. apply eq_true_iff_eq. rewrite !forallb_forall.
  split; intros Q e I; specialize (Q e I); (rewrite <- (E (fst e)) || rewrite (E (fst e))); auto; apply H, in_map; auto.
Qed.
Lemma and_looks A P Q : looks A P -> looks A Q -> looks A (fun a => P a && Q a).
Proof. intros HP HQ a b E. rewrite (HP a b E), (HQ a b E). auto. Qed.
Lemma is_looks (A : string -> Prop) v s : A v -> looks A (fun a => label_eqb (a v) s).
Proof. intros H a b E. rewrite (E v H). auto. Qed.
Lemma looks_incl (A B : string -> Prop) P : (forall v, A v -> B v) -> looks A P -> looks B P.
Proof. intros I H a b E. apply H. auto. Qed.

Lemma obsA_val obs a v x : obsA obs a = true -> In (v, x) obs -> a v = x.
Proof. intros H I. unfold obsA in H. rewrite forallb_forall in H. specialize (H _ I). cbn in H. destruct (label_eqb_spec (a v) x); congruence. Qed.

Lemma Pr_obs N obs : Pr N (observed obs) = Pr N (fun w => obsA obs (at_ w)).
Proof. reflexivity. Qed.
Lemma Pr_and_obs N obs v s : Pr_and N obs v s = Pr N (fun w => (fun a => obsA obs a && label_eqb (a v) s)%bool (at_ w)).
Proof. reflexivity. Qed.

(** ** Interventions do not reach non-descendants *)
Lemma truncated_vars N v d : vars (truncated N v d) = vars N.
Proof. unfold truncated, vars. rewrite map_map. apply map_ext. intros [u c]. cbn. destruct (String.eqb u v); auto. Qed.
Lemma truncated_states N v d p : states_of (truncated N v d) p = states_of N p.
Proof.
  unfold states_of, truncated. induction N as [|[u c] N IH]; auto. cbn [map find fst]. destruct (String.eqb u v) eqn:E; cbn [fst]; destruct (String.eqb u p) eqn:E2; auto.
Qed.
Lemma truncated_In N v d u c' : In (u, c') (truncated N v d) -> exists c, In (u, c) N /\ (u = v /\ c' = fixed c d \/ u <> v /\ c' = c).
Proof.
  unfold truncated. rewrite in_map_iff. intros ([w c] & E & I). cbn in E. destruct (String.eqb_spec w v) as [->|Nw]; injection E as <- <-; exists c; auto.
Qed.
Lemma keep_truncated A N v d : A v = false -> keep A (truncated N v d) = keep A N.
Proof.
  intros Av. unfold keep, truncated. induction N as [|[u c] N IH]; auto. cbn [map filter fst]. destruct (String.eqb_spec u v) as [->|Nu]; cbn [filter fst].
  - rewrite Av. auto.
  - destruct (A u); [f_equal|]; auto.
Qed.

Lemma sumover_dom (d1 d2 : string -> list label) f : (forall x, d1 x = d2 x) -> forall vs a, sumover d1 vs f a = sumover d2 vs f a.
Proof. intros H vs. induction vs as [|x l IH]; intros a; auto. cbn. rewrite H. apply Qsum_ext. auto. Qed.

Section Nondescendants.
  Context (N : net) (v : string) (d : list (label * Qc)).
  Context (SO : shape_ok N) (CS : columns_sum_1 N) (SO' : shape_ok (truncated N v d)) (CS' : columns_sum_1 (truncated N v d)).

  Lemma unaffected_event xs P : (forall x, In x xs -> In x (vars N) /\ x <> v /\ ~ path (parent_arrows N) v x) -> looks (fun x => In x xs) P ->
    Pr (truncated N v d) (fun w => P (at_ w)) = Pr N (fun w => P (at_ w)).
  Proof.
    intros H L. destruct (ancestors N xs SO) as (A & An & Ax & Ay). set (a0 := fun _ : string => LInt 0).
    assert (Av : A v = false).
    { destruct (A v) eqn:Q; auto. destruct (Ay v Q) as (x & Hx & [->|Pa]); destruct (H x Hx) as (_ & N1 & N2); tauto. }
    rewrite (Pr_keep N A P a0 SO CS An); [|apply (looks_incl (fun x => In x xs)); auto; intros x Hx; split; auto; apply H; auto].
    rewrite (Pr_keep (truncated N v d) A P a0 SO' CS').
    - rewrite keep_truncated by auto. unfold mass. apply sumover_dom. intros; apply truncated_states.
    - intros u c p I Hu Hp. apply truncated_In in I. destruct I as (c0 & I & [[-> ->]|[_ ->]]); [destruct Hp|]. apply (An u c0 p I Hu Hp).
    - apply (looks_incl (fun x => In x xs)); auto. intros x Hx. split; [rewrite truncated_vars; apply H; auto|auto].
  Qed.

  Lemma unaffected obs u s : (forall x, In x (u :: map fst obs) -> In x (vars N) /\ x <> v /\ ~ path (parent_arrows N) v x) ->
    cond_prob (truncated N v d) obs u s = cond_prob N obs u s.
  Proof.
    intros H. unfold cond_prob. rewrite !Pr_obs, !Pr_and_obs.
    assert (E1 : Pr (truncated N v d) (fun w => obsA obs (at_ w)) = Pr N (fun w => obsA obs (at_ w))).
    { apply (unaffected_event (u :: map fst obs)); auto. apply obsA_looks. intros; right; auto. }
    assert (E2 : Pr (truncated N v d) (fun w => (obsA obs (at_ w) && label_eqb (at_ w u) s)%bool) = Pr N (fun w => (obsA obs (at_ w) && label_eqb (at_ w u) s)%bool)).
    { apply (unaffected_event (u :: map fst obs) (fun a => obsA obs a && label_eqb (a u) s)%bool); auto. apply and_looks; [apply obsA_looks; intros; right; auto|apply is_looks; left; auto]. }
    rewrite E1, E2. auto.
  Qed.
End Nondescendants.

(** ** A variable given its parents *)
Definition value_in (obs : list (string * label)) (p : string) : label := match dget String.eqb obs p with Some x => x | None => LInt 0 end.

Lemma value_in_obs obs a p : obsA obs a = true -> In p (map fst obs) -> a p = value_in obs p.
Proof.
  intros H I. unfold value_in. destruct (dget String.eqb obs p) as [x|] eqn:E.
  - apply (dget_In _ String.eqb_spec) in E. apply (obsA_val obs a p x H E).
  - exfalso. apply (dget_key_Some _ String.eqb_spec) in I. destruct I as (x & I). unfold dget in *. congruence.
Qed.

Section Markov.
  Context (N : net) (v : string) (c : cpd) (obs : list (string * label)).
  Context (SO : shape_ok N) (CS : columns_sum_1 N) (I : In (v, c) N).
  Context (VO : valid_obs N obs) (Pa : incl (parents c) (map fst obs)).
  Context (Nd : forall x, In x (map fst obs) -> x <> v /\ ~ path (parent_arrows N) v x).

  Lemma given_parents : exists M, forall s, In s (states c) -> Pr_and N obs v s = M * prob c s (map (value_in obs) (parents c)).
  Proof.
    destruct (ancestors N (v :: map fst obs) SO) as (A & An & Ax & Ay). set (a0 := fun _ : string => LInt 0).
    assert (Iv : In (v, c) (keep A N)) by (apply filter_In; split; auto; apply Ax; left; auto).
    assert (Ok_ : forall x, In x (map fst obs) -> In x (vars N) /\ A x = true).
    { intros x Hx. split; [|apply Ax; right; auto]. apply in_map_iff in Hx. destruct Hx as ([y z] & <- & Hx). apply (proj2 VO y z Hx). }
    apply in_split in Iv. destruct Iv as (N1 & N2 & EN). set (N' := N1 ++ N2).
    assert (Pm : Permutation (keep A N) (N' ++ [(v, c)])).
    { rewrite EN. unfold N'. rewrite <- app_assoc. apply Permutation_app_head. apply (Permutation_cons_append N2 (v, c)). }
    assert (NDk : NoDup (vars (keep A N))) by (rewrite keep_vars; apply NoDup_filter, (ok_vars N SO)).
    assert (Vs : Permutation (vars (keep A N)) (v :: vars N')).
    { apply (Permutation_map fst) in Pm. unfold vars. rewrite Pm, map_app. cbn. symmetry. apply Permutation_cons_append. }
    assert (Nv : ~ In v (vars N')) by (rewrite Vs in NDk; inversion NDk; auto).
    assert (Sub : forall x, In x N' -> In x (keep A N)).
    { intros x Hx. rewrite EN. unfold N' in Hx. apply in_app_iff in Hx. apply in_app_iff. cbn. tauto. }
    assert (Nc : forall u e, In (u, e) N' -> ~ In v (parents e)).
    { intros u e Hu Hp. apply Sub in Hu. apply filter_In in Hu. destruct Hu as [Hu Au]. cbn in Au.
      assert (St : path (parent_arrows N) v u) by (apply path_one, parents_arrow, parents_of_In; eauto).
      destruct (Ay u Au) as (x & [<-|Hx] & [->|P2]).
      - apply (ok_dag N SO v). auto.
      - apply (ok_dag N SO v). eapply path_trans; eauto.
      - apply (Nd x Hx). auto.
      - apply (Nd x Hx). eapply path_trans; eauto. }
    assert (Cl : closed_in (keep A N)).
    { intros u e Hu p Hp. apply filter_In in Hu. destruct Hu as [Hu Au]. rewrite keep_vars. apply filter_In. split; [apply (proj2 (ok_parents N SO u e Hu) p Hp)|apply (An u e p Hu Au Hp)]. }
    exists (mass (states_of N) N' (obsA obs) a0). intros s Hs. rewrite Pr_and_obs.
    rewrite (Pr_keep N A (fun a => obsA obs a && label_eqb (a v) s)%bool a0 SO CS An).
    2:{ apply and_looks; [apply obsA_looks; auto|apply is_looks; split; [apply (in_vars N v c I)|apply Ax; left; auto]]. }
    rewrite (mass_perm _ _ (N' ++ [(v, c)])); auto.
    2:{ apply and_looks; [apply obsA_looks; intros x Hx; rewrite keep_vars; apply filter_In; apply Ok_; auto|apply is_looks; rewrite keep_vars; apply filter_In; split; [apply (in_vars N v c I)|apply Ax; left; auto]]. }
    unfold mass. unfold vars at 1. rewrite map_app. cbn [map fst]. fold (vars N'). rewrite sumover_app.
    rewrite Qcmult_comm. rewrite <- (sumover_mul_l (states_of N) (vars N') (fun _ => prob c s (map (value_in obs) (parents c))) _ []); [|intros ? ? ?; auto|intros ? []].
    apply sumover_ext. intros b _ Hb. cbn [sumover]. rewrite (states_of_In N v c (ok_vars N SO) I).
    assert (Eo : forall x, obsA obs (upd b v x) = obsA obs b).
    { intros x. apply (obsA_looks (fun y => In y (map fst obs)) obs); auto. intros y Hy. apply upd_other. apply (Nd y Hy). }
    rewrite (Qsum_single _ (states c) s); [|apply (ok_states N SO v c I)|auto|].
    - rewrite Eo, upd_same. destruct (label_eqb_spec s s) as [_|]; [|congruence]. rewrite andb_true_r. destruct (obsA obs b) eqn:Q; [|ring].
      unfold jointf. rewrite Qprod_app, Qcmult_comm. f_equal.
      + transitivity (factor_at (upd b v s) (v, c)); [unfold Qprod; cbn; ring|]. unfold factor_at. cbn [fst snd]. rewrite upd_same. f_equal. apply map_ext_in. intros p Hp.
        rewrite upd_other by (apply (Nd p (Pa p Hp))). apply (value_in_obs obs b p Q (Pa p Hp)).
      + apply Qprod_ext. intros [u e] Hu. apply factor_agree; cbn [fst snd]; [apply upd_other; intros ->; apply Nv, (in_vars N' v e Hu)|]. intros p Hp. apply upd_other. intros ->. apply (Nc u e Hu Hp).
    - intros y _ Ny. rewrite upd_same. destruct (label_eqb_spec y s); [congruence|]. rewrite andb_false_r. auto.
  Qed.

  Lemma parent_values : Forall2 (fun p x => In x (states_of N p)) (parents c) (map (value_in obs) (parents c)).
  Proof.
    assert (H : forall p, In p (parents c) -> In (value_in obs p) (states_of N p)).
    { intros p Hp. specialize (Pa p Hp). unfold value_in. destruct (dget String.eqb obs p) as [x|] eqn:E.
      - apply (dget_In _ String.eqb_spec) in E. apply (proj2 VO p x E).
      - exfalso. apply (dget_key_Some _ String.eqb_spec) in Pa. destruct Pa as (x & Q). unfold dget in *. congruence. }
    clear Pa. induction (parents c) as [|p ps IH]; cbn; constructor; [apply H; left; auto|]. apply IH. intros; apply H; right; auto.
  Qed.

  Lemma markov_mass s : In s (states c) -> Pr_and N obs v s = Pr N (observed obs) * prob c s (map (value_in obs) (parents c)).
  Proof.
    intros Hs. destruct given_parents as (M & HM). rewrite (HM s Hs). f_equal.
    rewrite <- (Pr_and_sum N SO obs v (in_vars N v c I)). rewrite (states_of_In N v c (ok_vars N SO) I).
    rewrite (Qsum_ext _ (fun s => M * prob c s (map (value_in obs) (parents c)))) by (intros; apply HM; auto).
    rewrite Qsum_mul_l, (CS v c _ I parent_values). ring.
  Qed.

  Lemma markov s : In s (states c) -> Pr N (observed obs) <> 0 -> cond_prob N obs v s = prob c s (map (value_in obs) (parents c)).
  Proof.
    intros Hs Nz. unfold cond_prob. destruct (Qc_eq_bool_spec (Pr N (observed obs)) 0) as [|_]; [congruence|]. rewrite (markov_mass s Hs). field. auto.
  Qed.
End Markov.
