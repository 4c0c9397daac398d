(** * BuiltGen: networks whose factors give the entries of a specification, whatever the order of
    their arguments (compare InferProofs, where the variable is the first argument). *)
From Coq Require Import List Bool Arith ZArith Lia String QArith Qcanon Permutation Relations.
From Verif Require Import Base QcX Digraph BbnModel SumOver Forest Elim Triang Kruskal RTree Sched Calib BbnTables BbnProofs BbnQuery BbnBuild InferModel InferSpec InferProofs.
Import ListNotations.
Local Open Scope Qc_scope.
Local Open Scope list_scope.

Lemma filter_other v (l l' : list string) : ~ In v l' -> Permutation l (v :: l') ->
  Permutation (filter (fun a => negb (String.eqb a v)) l) l'.
Proof.
  intros Nv P.
  assert (G : forall a b : list string, Permutation a b ->
            Permutation (filter (fun a => negb (String.eqb a v)) a) (filter (fun a => negb (String.eqb a v)) b)).
  { induction 1 as [|x a b P' IH|x y a|a b c P1 IH1 P2 IH2]; cbn [filter]; auto.
    - destruct (negb (String.eqb x v)); auto.
    - destruct (negb (String.eqb x v)), (negb (String.eqb y v)); auto. apply perm_swap.
    - rewrite IH1; auto. }
  rewrite (G _ _ P). cbn [filter]. rewrite String.eqb_refl. cbn [negb].
  replace (filter (fun a => negb (String.eqb a v)) l') with l'; auto. clear -Nv.
  induction l' as [|a l IH]; auto. cbn [filter]. destruct (String.eqb_spec a v) as [->|Ne]; [exfalso; apply Nv; left; auto|].
  cbn [negb]. f_equal. apply IH. intros H. apply Nv. right; auto.
Qed.

(** Values given to distinct arguments come from an assignment. *)
Lemma from_assign (args : list var) (vals : list value) : NoDup args -> List.length vals = List.length args ->
  exists a : assign, vals = map a args.
Proof.
  intros ND L. exists (fun v => match dget String.eqb (combine args vals) v with Some x => x | None => LInt 0 end).
  revert vals L. induction ND as [|v args Nv ND IH]; intros [|x vals] L; try discriminate; auto.
  cbn [map combine dget]. rewrite String.eqb_refl. f_equal. injection L as L. rewrite (IH vals L) at 1.
  apply map_ext_in. intros u Hu. destruct (String.eqb_spec u v) as [->|]; auto. contradiction.
Qed.

Section Factors.
  Variable N : net.
  Hypothesis SO : shape_ok N.
  Variable fac : string -> cpd -> factor.
  Hypothesis F_name : forall v c, In (v, c) N -> fname (fac v c) = String.append "f_" v.
  Hypothesis F_args : forall v c, In (v, c) N -> Permutation (fargs (fac v c)) (v :: parents c).
  Hypothesis F_val : forall v c (a : assign), In (v, c) N -> In (a v) (states c) ->
    (forall p, In p (parents c) -> In (a p) (states_of N p)) ->
    ffun (fac v c) (map a (fargs (fac v c))) = Ok (prob c (a v) (map a (parents c))).

  Definition gen_factors : list (var * factor) := map (fun vc => (fst vc, fac (fst vc) (snd vc))) N.

  Lemma g_others v c : In (v, c) N -> Permutation (other_args v (fac v c)) (parents c).
  Proof. intros H. apply filter_other; [apply (parents_not_self N v c SO H)|apply F_args; auto]. Qed.

  Lemma g_fst : map fst gen_factors = vars N.
  Proof. unfold gen_factors, vars. rewrite map_map. apply map_ext. auto. Qed.

  Lemma g_In v f : In (v, f) gen_factors <-> exists c, In (v, c) N /\ f = fac v c.
  Proof.
    unfold gen_factors. rewrite in_map_iff. split.
    - intros ([u c] & [= <- <-] & H). eauto.
    - intros (c & H & ->). exists (v, c). auto.
  Qed.

  Lemma g_arrows e : In e (arrows gen_factors) <-> In e (parent_arrows N).
  Proof.
    unfold arrows, parent_arrows. rewrite !in_flat_map. split.
    - intros ([v f] & H & Hi). apply g_In in H as (c & H & ->). exists (v, c). split; auto. cbn [fst snd] in *.
      apply in_map_iff in Hi as (p & <- & Hp). apply in_map_iff. exists p. split; auto.
      eapply Permutation_in; [apply g_others; eauto|]. exact Hp.
    - intros ([v c] & H & Hi). exists (v, fac v c). split; [apply g_In; eauto|]. cbn [fst snd] in *.
      apply in_map_iff in Hi as (p & <- & Hp). apply in_map_iff. exists p. split; auto.
      eapply Permutation_in; [symmetry; apply g_others; eauto|]. exact Hp.
  Qed.

  Lemma g_acyclic : acyclic (arrows gen_factors).
  Proof.
    intros v H. apply (ok_dag N SO v). revert H. generalize v at 2 4 as u. intros u.
    induction 1 as [x y H|x y z H H1 IH1]; [apply path_one|eapply path_step; [|exact IH1]]; apply g_arrows; auto.
  Qed.

  Lemma g_good : good_factors gen_factors.
  Proof.
    constructor.
    - rewrite g_fst. apply ok_vars; auto.
    - unfold gen_factors. rewrite map_map. cbn [snd].
      rewrite (map_ext_in _ (fun vc => String.append "f_" (fst vc))) by (intros [v c] H; apply F_name; auto).
      rewrite <- map_map. apply NoDup_map_in; [apply ok_vars; auto|].
      intros x y _ _ E. injection E. auto.
    - intros v f H. apply g_In in H as (c & H & ->).
      eapply Permutation_in; [symmetry; apply F_args; auto|]. left; auto.
    - intros v f H. apply g_In in H as (c & H & ->).
      eapply Permutation_NoDup; [symmetry; apply F_args; auto|]. constructor.
      + apply (parents_not_self N v c SO H).
      + apply (ok_parents N SO v c H).
    - intros v f H. apply g_In in H as (c & H & ->). rewrite g_fst. intros x Hx.
      eapply Permutation_in in Hx; [|apply F_args; auto]. destruct Hx as [<-|Hx].
      + apply in_map_iff. exists (v, c); auto.
      + apply (ok_parents N SO v c H); auto.
    - exact g_acyclic.
  Qed.

  Variable b : bbn.
  Hypothesis HD : forall v c, In (v, c) N -> dget String.eqb (bdomains b) v = Some (states c).
  Hypothesis HP : Permutation (map (fun n => (nvar n, nfac n)) (bnodes b)) gen_factors.
  Hypothesis HN : forall n, In n (bnodes b) -> nparents n = other_args (nvar n) (nfac n).
  Hypothesis HT : topo (bnodes b).

  Lemma g_node n : In n (bnodes b) -> exists c, In (nvar n, c) N /\ nfac n = fac (nvar n) c /\ Permutation (nparents n) (parents c).
  Proof.
    intros Hn. assert (H : In (nvar n, nfac n) gen_factors).
    { eapply Permutation_in; [exact HP|]. apply in_map_iff. exists n; auto. }
    apply g_In in H as (c & H & E). exists c. split; auto. split; auto.
    rewrite HN by auto. rewrite E. apply g_others; auto.
  Qed.

  Lemma g_perm : Permutation (map nvar (bnodes b)) (vars N).
  Proof. rewrite <- g_fst. rewrite <- HP. rewrite map_map. cbn [fst]. apply Permutation_refl. Qed.

  Lemma g_vars v : In v (map nvar (bnodes b)) <-> In v (vars N).
  Proof. split; apply Permutation_in; [|symmetry]; apply g_perm. Qed.

  Lemma g_domain v c : In (v, c) N -> domain_of b v = states c.
  Proof. intros H. unfold domain_of. rewrite (HD v c H). auto. Qed.

  Lemma g_domain' v : In v (vars N) -> domain_of b v = states_of N v.
  Proof.
    intros H. apply in_map_iff in H as ([u c] & <- & H). cbn [fst].
    rewrite (g_domain u c H), (states_of_In N u c (ok_vars N SO) H). auto.
  Qed.

  Lemma g_wf : joined N -> wf_bbn b.
  Proof.
    intros J. constructor; auto.
    - intros E. apply (ok_ne N SO). assert (H : vars N = []).
      { apply Permutation_nil. rewrite <- g_perm, E. auto. }
      destruct N; auto. discriminate.
    - apply (build_connected gen_factors); auto.
      + apply g_good; auto.
      + unfold weakly_connected. rewrite g_fst. intros x y Hx Hy. specialize (J x y Hx Hy).
        induction J as [x y H| |x y z H1 IH1 H2 IH2].
        * apply rt_step. rewrite !g_arrows. exact H.
        * apply rt_refl.
        * assert (Hm : In y (vars N)).
          { clear -H1 SO Hx. induction H1 as [x y H| |x y z A IHA B IHB]; auto.
            destruct H as [H|H]; unfold parent_arrows in H; apply in_flat_map in H as ([v c] & Hv & H);
              cbn [fst snd] in H; apply in_map_iff in H as (p & [= <- <-] & Hp).
            - apply in_map_iff. exists (v, c); auto.
            - apply (ok_parents N SO v c Hv); auto. }
          eapply rt_trans; [apply IH1; auto|apply IH2; auto].
    - intros n v Hn. destruct (g_node n Hn) as (c & Hc & E & Ep). rewrite E. unfold family.
      split; intros H.
      + eapply Permutation_in in H; [|apply F_args; auto]. destruct H as [<-|H]; [left; auto|right].
        eapply Permutation_in; [symmetry; exact Ep|]. exact H.
      + eapply Permutation_in; [symmetry; apply F_args; auto|]. destruct H as [<-|H]; [left; auto|right].
        eapply Permutation_in; [exact Ep|]. exact H.
    - intros n Hn. destruct (g_node n Hn) as (c & Hc & E & Ep). rewrite (g_domain _ c Hc).
      apply (ok_states N SO _ c Hc).
    - intros n vals Hn F. destruct (g_node n Hn) as (c & Hc & E & Ep). rewrite E in F.
      destruct (from_assign (fargs (fac (nvar n) c)) vals) as (a & ->).
      + eapply Permutation_NoDup; [symmetry; apply F_args; auto|]. constructor.
        * apply (parents_not_self N _ c SO Hc).
        * apply (ok_parents N SO _ c Hc).
      + clear -F. induction F; cbn [List.length]; auto.
      + assert (In_ : forall v, In v (fargs (fac (nvar n) c)) -> In (a v) (domain_of b v)).
        { clear -F. induction (fargs (fac (nvar n) c)) as [|u l IH]; intros v Hv; [destruct Hv|].
          cbn [map] in F. inversion F; subst. destruct Hv as [<-|Hv]; auto. }
        assert (Hx : In (a (nvar n)) (states c)).
        { rewrite <- (g_domain _ c Hc). apply In_. eapply Permutation_in; [symmetry; apply F_args; auto|]. left; auto. }
        assert (Hp : forall p, In p (parents c) -> In (a p) (states_of N p)).
        { intros p Hp. rewrite <- g_domain'; [|apply (ok_parents N SO _ c Hc); auto]. apply In_.
          eapply Permutation_in; [symmetry; apply F_args; auto|]. right; auto. }
        exists (prob c (a (nvar n)) (map a (parents c))). rewrite E. split; [apply F_val; auto|].
        apply (ok_nonneg N SO (nvar n) c); auto. apply (Forall2_ps N c (nvar n)); auto.
  Qed.

  Let dom := vdom b.

  Lemma g_dom v : In v (vars N) -> dom v = states_of N v.
  Proof. intros H. unfold dom. rewrite (dom_node b v); [apply g_domain'; auto|]. apply g_vars; auto. Qed.

  Lemma g_worlds : all_worlds N = keysD dom (vars N).
  Proof.
    assert (G : forall N', incl N' N -> all_worlds N' = keysD dom (vars N')).
    { induction N' as [|[v c] N' IH]; intros I; auto.
      cbn [all_worlds]. unfold keysD. cbn [vars map fst cart]. fold (keysD dom (vars N')).
      assert (Hc : In (v, c) N) by (apply I; left; auto).
      rewrite (g_dom v) by (apply in_map_iff; exists (v, c); auto).
      rewrite (states_of_In N v c (ok_vars N SO) Hc).
      change (map fst N') with (vars N').
      assert (IHN : all_worlds N' = cart (map (fun v : var => map (pair v) (dom v)) (vars N'))).
      { apply IH. intros x Hx. apply I. right; auto. }
      change var with string in *. change value with label in *. rewrite <- IHN.
      clear. induction (states c) as [|s ss IHs]; auto. cbn [map flat_map]. rewrite IHs. auto. }
    apply G, incl_refl.
  Qed.

  Hypothesis WF : wf_bbn b.

  Lemma g_at w v : In w (all_worlds N) -> In v (vars N) -> at_ w v = ov w (d0 b) v.
  Proof.
    intros Hw Hv. rewrite at_dget. unfold ov.
    assert (K : In v (dkeys w)).
    { rewrite g_worlds in Hw.
      destruct (keysD_In dom (vars N) w Hw (d0 b) (d0_ok b WF) (ok_vars N SO)) as (_ & _ & Ef).
      change (In v (map fst (w : BbnModel.key))). rewrite Ef. exact Hv. }
    apply (dget_key_Some _ String.eqb_spec) in K as (x & K).
    transitivity x.
    - rewrite K. reflexivity.
    - exact (f_equal (fun o => match o with Some y => y | None => d0 b v end) (eq_sym K)).
  Qed.

  Lemma g_Pr (P : assign -> bool) : (forall a c, (forall v, In v (vars N) -> a v = c v) -> P a = P c) ->
    Pr N (fun w => P (at_ w)) = sumover dom (vars N) (fun a => if P a then jointA N a else 0) (d0 b).
  Proof.
    intros DP. unfold Pr. rewrite Qsum_filter.
    rewrite <- sum_keys.
    - rewrite <- g_worlds. apply Qsum_ext. intros w Hw.
      rewrite (DP (at_ w) (ov w (d0 b))) by (intros v Hv; apply g_at; auto).
      destruct (P (ov w (d0 b))); auto.
      change (jointA N (at_ w) = jointA N (ov w (d0 b))). apply (jointA_dep N SO). intros v Hv. apply g_at; auto.
    - apply ok_vars; auto.
    - intros a c E. rewrite (DP a c) by auto. rewrite (jointA_dep N SO a c) by auto. auto.
  Qed.

  Lemma g_total (P : assign -> bool) : (forall a c, (forall v, In v (vars N) -> a v = c v) -> P a = P c) ->
    total b (fun w => P (look w)) =
    sumover dom (map nvar (bnodes b)) (fun a => if P a then Qprod (fun n => pval n a) (bnodes b) else 0) (d0 b).
  Proof.
    intros DP. unfold total. rewrite Qsum_filter. rewrite <- sum_keys.
    - unfold dom. rewrite <- worlds_D by auto. apply Qsum_ext. intros w Hw.
      rewrite (DP (look w) (ov w (d0 b))) by (intros v Hv; apply look_ov; auto; apply g_vars; auto).
      destruct (P (ov w (d0 b))); auto. rewrite weight_ov; auto.
    - apply vars_NoDup; auto.
    - intros a c E. rewrite (DP a c) by auto. destruct (P c); auto. apply Qprod_ext. intros n Hn.
      apply (pval_dep b WF n Hn). auto.
  Qed.

  Lemma g_prod (a : assign) : (forall v, In v (vars N) -> In (a v) (dom v)) ->
    Qprod (fun n => pval n a) (bnodes b) = jointA N a.
  Proof.
    intros Va. unfold jointA.
    set (g := fun vf : var * factor =>
      match ffun (snd vf) (map a (fargs (snd vf))) with Ok q => q | Err _ => 0 end).
    transitivity (Qprod g (map (fun n => (nvar n, nfac n)) (bnodes b))).
    { rewrite Qprod_map. apply Qprod_ext. auto. }
    rewrite (Qprod_perm _ _ _ HP). unfold gen_factors. rewrite Qprod_map. apply Qprod_ext.
    intros [v c] Hc. cbn [fst snd].
    assert (Hx : In (a v) (states c)).
    { rewrite <- (states_of_In N v c (ok_vars N SO) Hc). rewrite <- g_dom.
      - apply Va. apply in_map_iff. exists (v, c); auto.
      - apply in_map_iff. exists (v, c); auto. }
    assert (Hp : forall p, In p (parents c) -> In (a p) (states_of N p)).
    { intros p Hp. assert (I : In p (vars N)) by (apply (ok_parents N SO v c Hc); auto).
      rewrite <- g_dom by auto. auto. }
    exact (f_equal (fun r => match r with Ok q => q | Err _ => 0 end) (F_val v c a Hc Hx Hp)).
  Qed.

  Lemma g_total_Pr (P : assign -> bool) : (forall a c, (forall v, In v (vars N) -> a v = c v) -> P a = P c) ->
    total b (fun w => P (look w)) = Pr N (fun w => P (at_ w)).
  Proof.
    intros DP. rewrite g_total, g_Pr by auto.
    rewrite (sumover_perm dom _ (vars N)).
    - apply sumover_ext. intros a _ Hd. destruct (P a); auto. apply g_prod. auto.
    - intros a c E. rewrite (DP a c) by auto. destruct (P c); auto. apply Qprod_ext. intros n Hn.
      apply (pval_dep b WF n Hn). auto.
    - apply g_perm.
  Qed.

  Lemma g_observed obs : incl (map fst obs) (vars N) -> total b (matches obs) = Pr N (observed obs).
  Proof.
    intros I. apply (g_total_Pr (fun a => forallb (fun e => label_eqb (a (fst e)) (snd e)) obs)).
    intros a c E. clear -I E. induction obs as [|e obs IH]; auto. cbn [forallb]. f_equal.
    - exact (f_equal (fun z => label_eqb z (snd e)) (E (fst e) (I _ (or_introl eq_refl)))).
    - apply IH. intros x Hx. apply I. right; auto.
  Qed.

  Lemma g_and obs v x : incl (map fst obs) (vars N) -> In v (vars N) ->
    total b (fun w => matches obs w && label_eqb (look w v) x)%bool = Pr_and N obs v x.
  Proof.
    intros I Hv. unfold Pr_and, is_.
    apply (g_total_Pr (fun a => forallb (fun e => label_eqb (a (fst e)) (snd e)) obs && label_eqb (a v) x)%bool).
    intros a c E. rewrite (E v Hv). f_equal. clear -I E. induction obs as [|e obs IH]; auto. cbn [forallb]. f_equal.
    - exact (f_equal (fun z => label_eqb z (snd e)) (E (fst e) (I _ (or_introl eq_refl)))).
    - apply IH. intros y Hy. apply I. right; auto.
  Qed.

  Lemma g_stochastic : columns_sum_1 N -> stochastic b.
  Proof.
    intros C n a Hn Hp. destruct (g_node n Hn) as (c & Hc & E & Ep).
    assert (Hps : forall p, In p (parents c) -> In (a p) (states_of N p)).
    { intros p Hq. assert (I : In p (vars N)) by (apply (ok_parents N SO _ c Hc); auto).
      rewrite <- g_domain' by auto. apply Hp. eapply Permutation_in; [symmetry; exact Ep|]. auto. }
    rewrite (g_domain _ c Hc). rewrite <- (C (nvar n) c (map a (parents c)) Hc).
    - apply Qsum_ext. intros x Hx.
      assert (Nn : ~ In (nvar n) (parents c)) by (apply (parents_not_self N _ c SO Hc)).
      unfold pval. rewrite E.
      etransitivity; [exact (f_equal (fun r => match r with Ok q => q | Err _ => 0 end)
        (F_val (nvar n) c (upd a (nvar n) x) Hc
          (eq_ind_r (fun z => In z (states c)) Hx (upd_same a (nvar n) x))
          (fun p Hq => eq_ind_r (fun z => In z (states_of N p)) (Hps p Hq)
             (upd_other a (nvar n) x p (fun e => Nn (eq_ind p (fun z => In z (parents c)) Hq _ e))))))|].
      cbv beta. rewrite upd_same. f_equal. apply map_ext_in. intros p Hq. apply upd_other. intros ->. auto.
    - apply (Forall2_ps N c (nvar n)); auto.
  Qed.
End Factors.
