(** * InferProofs: the inference engine against the specification of InferSpec. *)
From Coq Require Import List Bool Arith ZArith Lia String QArith Qcanon Permutation Relations.
From Verif Require Import Base QcX Digraph BbnModel SumOver Forest Elim Triang Kruskal RTree Sched Calib BbnTables BbnProofs BbnQuery BbnBuild InferModel InferSpec.
Import ListNotations.
Local Open Scope Qc_scope.
Local Open Scope list_scope.

Definition ps_ok (N : net) (ps : list string) (xs : list label) : Prop :=
  Forall2 (fun p x => In x (states_of N p)) ps xs.

(** ** Dictionaries that represent a network *)
Record rep_entry (N : net) (sd : sdict) (c : cpd) : Prop := {
  re_nodup : NoDup (dkeys sd);
  re_keys : forall s, In s (dkeys sd) <-> In s (states c);
  re_shape : forall s cd, In (s, cd) sd -> cd <> [] /\ (forall k, In k (dkeys cd) -> map fst k = parents c);
  re_val : forall s ps, In s (states c) -> ps_ok N (parents c) ps ->
    exists cd, dget label_eqb sd s = Some cd /\ dget key_eqb cd (combine (parents c) ps) = Some (prob c s ps)
}.

Definition rep_cpds (cp : cpds) (N : net) : Prop :=
  dkeys cp = vars N /\
  forall v c, In (v, c) N -> exists sd, dget String.eqb cp v = Some sd /\ rep_entry N sd c.

Definition fac (cp : cpds) (v : string) (c : cpd) : factor :=
  mkFactor (String.append "f_" v) (v :: parents c) (node_fun cp (v :: parents c)).

Definition net_factors (cp : cpds) (N : net) : list (var * factor) :=
  map (fun vc => (fst vc, fac cp (fst vc) (snd vc))) N.

Lemma states_of_In N v c : NoDup (vars N) -> In (v, c) N -> states_of N v = states c.
Proof.
  unfold states_of, vars. induction N as [|[u d] N IH]; intros ND H; [destruct H|].
  cbn [find fst]. cbn [map fst] in ND. inversion ND as [|? ? Nu ND']; subst.
  destruct (String.eqb_spec u v) as [->|Ne].
  - destruct H as [[= <-]|H]; auto. exfalso. apply Nu. apply in_map_iff. exists (v, c); auto.
  - destruct H as [[= -> _]|H]; [congruence|auto].
Qed.

Lemma dict_as_map {V} (cp : list (string * V)) : NoDup (dkeys cp) ->
  forall x, In x cp -> dget String.eqb cp (fst x) = Some (snd x).
Proof. intros ND [k v] H. apply (In_dget _ String.eqb_spec); auto. Qed.

Lemma parents_not_self N v c : shape_ok N -> In (v, c) N -> ~ In v (parents c).
Proof.
  intros SO Hin Hv. apply (ok_dag N SO v). apply path_one. unfold parent_arrows.
  apply in_flat_map. exists (v, c). split; auto. cbn [fst snd]. apply in_map_iff. exists v; auto.
Qed.

Section Gen.
  Variable N : net.
  Hypothesis SO : shape_ok N.
  Variable cp : cpds.
  Hypothesis RC : rep_cpds cp N.

  Lemma create_node_functions_ok : create_node_functions cp = Ok (net_factors cp N).
  Proof.
    destruct RC as [Hk Hv]. unfold create_node_functions, net_factors.
    assert (ND : NoDup (dkeys cp)) by (rewrite Hk; apply ok_vars; auto).
    assert (G : forall (cp' : cpds) (N' : net), dkeys cp' = vars N' -> incl cp' cp -> incl N' N ->
       mapM (create_node_function cp) cp' = Ok (map (fun vc => (fst vc, fac cp (fst vc) (snd vc))) N')).
    { induction cp' as [|[v sd] cp' IH]; intros [|[u c] N'] E I1 I2; try discriminate; auto.
      cbn [vars dkeys map fst] in E. injection E as -> E'.
      cbn [mapM map fst snd].
      assert (Hc : In (u, c) N) by (apply I2; left; auto).
      destruct (Hv u c Hc) as (sd' & Es & R).
      assert (sd' = sd).
      { pose proof (dict_as_map cp ND (u, sd) (I1 _ (or_introl eq_refl))) as X. cbn [fst snd] in X.
        change var with string in *. rewrite X in Es. congruence. }
      subst sd'. unfold create_node_function at 1.
      destruct sd as [|[s cd] sd0] eqn:Esd.
      - exfalso. destruct (ok_states N SO u c Hc) as [Ne _]. destruct (states c) as [|s ss] eqn:Ec; [congruence|].
        apply (proj2 (re_keys N _ c R s)). rewrite Ec. left; auto.
      - destruct (re_shape N _ c R s cd (or_introl eq_refl)) as [Ne Sh].
        destruct cd as [|[k q] cd0]; [congruence|].
        rewrite (Sh k (or_introl eq_refl)). cbn [bind].
        rewrite (IH N' E').
        + reflexivity.
        + intros x Hx. apply I1. right; auto.
        + intros x Hx. apply I2. right; auto. }
    apply G; auto; apply incl_refl.
  Qed.

  Lemma other_args_fac v c : In (v, c) N -> other_args v (fac cp v c) = parents c.
  Proof.
    intros H. unfold other_args, fac. cbn [fargs filter]. rewrite String.eqb_refl. cbn [negb].
    pose proof (parents_not_self N v c SO H) as Np.
    assert (G : forall l, ~ In v l -> filter (fun a => negb (String.eqb a v)) l = l).
    { induction l as [|a l IH]; intros Na; auto. cbn [filter].
      destruct (String.eqb_spec a v) as [->|Ne]; [exfalso; apply Na; left; auto|].
      cbn [negb]. rewrite IH; auto. intros X. apply Na. right; auto. }
    apply G; auto.
  Qed.

  Lemma arrows_net : arrows (net_factors cp N) = parent_arrows N.
  Proof.
    unfold arrows, net_factors, parent_arrows. rewrite flat_map_concat_map, flat_map_concat_map, map_map.
    f_equal. apply map_ext_in. intros [v c] H. cbn [fst snd]. rewrite other_args_fac; auto.
  Qed.

  Lemma map_fst_factors : map fst (net_factors cp N) = vars N.
  Proof. unfold net_factors, vars. rewrite map_map. apply map_ext. auto. Qed.

  Lemma net_factors_In v f : In (v, f) (net_factors cp N) <-> exists c, In (v, c) N /\ f = fac cp v c.
  Proof.
    unfold net_factors. rewrite in_map_iff. split.
    - intros ([u c] & [= <- <-] & H). eauto.
    - intros (c & H & ->). exists (v, c). auto.
  Qed.

  Lemma net_good : good_factors (net_factors cp N).
  Proof.
    constructor.
    - rewrite map_fst_factors. apply ok_vars; auto.
    - unfold net_factors. rewrite map_map. cbn [fst snd fac fname].
      rewrite <- map_map. apply NoDup_map_in; [apply ok_vars; auto|].
      intros x y _ _ E. injection E. auto.
    - intros v f H. apply net_factors_In in H as (c & H & ->). left; auto.
    - intros v f H. apply net_factors_In in H as (c & H & ->). cbn [fac fargs]. constructor.
      + apply (parents_not_self N v c SO H).
      + apply (ok_parents N SO v c H).
    - intros v f H. apply net_factors_In in H as (c & H & ->). rewrite map_fst_factors. cbn [fac fargs].
      intros x [<-|Hx].
      + apply in_map_iff. exists (v, c); auto.
      + apply (ok_parents N SO v c H); auto.
    - rewrite arrows_net. apply ok_dag; auto.
  Qed.

  Hypothesis IDS : forall v, In v (vars N) -> is_identifier v = true.
  Variable doms : list (var * list value).

  Lemma build_engine_ok : exists b, build_engine_bbn (net_factors cp N) doms = Ok b /\ bdomains b = doms /\
    Permutation (map (fun n => (nvar n, nfac n)) (bnodes b)) (net_factors cp N) /\
    (forall n, In n (bnodes b) -> nparents n = other_args (nvar n) (nfac n)) /\
    topo (bnodes b).
  Proof.
    unfold build_engine_bbn.
    replace (forallb (fun vf => forallb is_identifier (fargs (snd vf))) (net_factors cp N)) with true.
    - apply build_bbn_ok, net_good.
    - symmetry. apply forallb_forall. intros [v f] H. apply forallb_forall. intros a Ha. apply IDS.
      rewrite <- map_fst_factors. apply (gf_known _ net_good v f H). auto.
  Qed.
End Gen.

(** ** The built network *)
Section Built.
  Variable N : net.
  Hypothesis SO : shape_ok N.
  Variable cp : cpds.
  Hypothesis RC : rep_cpds cp N.
  Hypothesis NS : ~ In "self"%string (vars N).
  Variable b : bbn.
  Hypothesis HD : forall v c, In (v, c) N -> dget String.eqb (bdomains b) v = Some (states c).
  Hypothesis HP : Permutation (map (fun n => (nvar n, nfac n)) (bnodes b)) (net_factors cp N).
  Hypothesis HN : forall n, In n (bnodes b) -> nparents n = other_args (nvar n) (nfac n).
  Hypothesis HT : topo (bnodes b).

  Lemma built_node n : In n (bnodes b) -> exists c, In (nvar n, c) N /\ nfac n = fac cp (nvar n) c /\ nparents n = parents c.
  Proof.
    intros Hn. assert (H : In (nvar n, nfac n) (net_factors cp N)).
    { eapply Permutation_in; [exact HP|]. apply in_map_iff. exists n; auto. }
    apply net_factors_In in H as (c & H & E). exists c. split; auto. split; auto.
    rewrite HN by auto. rewrite E. apply (other_args_fac N); auto.
  Qed.

  Lemma built_var v c : In (v, c) N -> exists n, In n (bnodes b) /\ nvar n = v /\ nfac n = fac cp v c /\ nparents n = parents c.
  Proof.
    intros H. assert (Hin : In (v, fac cp v c) (net_factors cp N)) by (apply net_factors_In; eauto).
    eapply Permutation_in in Hin; [|symmetry; exact HP]. apply in_map_iff in Hin as (n & E & Hn).
    injection E as E1 E2. exists n. split; auto. split; auto. split; auto.
    rewrite HN by auto. rewrite E1, E2. apply (other_args_fac N); auto.
  Qed.

  Lemma built_perm : Permutation (map nvar (bnodes b)) (vars N).
  Proof.
    rewrite <- (map_fst_factors N cp). rewrite <- HP. rewrite map_map. cbn [fst]. apply Permutation_refl.
  Qed.

  Lemma built_vars v : In v (map nvar (bnodes b)) <-> In v (vars N).
  Proof. split; apply Permutation_in; [|symmetry]; apply built_perm. Qed.

  Lemma built_domain v c : In (v, c) N -> domain_of b v = states c.
  Proof. intros H. unfold domain_of. rewrite (HD v c H). auto. Qed.

  Lemma built_domain' v : In v (vars N) -> domain_of b v = states_of N v.
  Proof.
    intros H. apply in_map_iff in H as ([u c] & <- & H). cbn [fst].
    rewrite (built_domain u c H), (states_of_In N u c (ok_vars N SO) H). auto.
  Qed.

  (** The node function returns the CPD entry. *)
  Lemma fac_val v c x xs : In (v, c) N -> In x (states c) -> ps_ok N (parents c) xs ->
    ffun (fac cp v c) (x :: xs) = Ok (prob c x xs).
  Proof.
    intros Hc Hx Hxs. destruct RC as [_ Hv]. destruct (Hv v c Hc) as (sd & Es & R).
    destruct (re_val N sd c R x xs Hx Hxs) as (cd & E1 & E2).
    unfold fac. cbn [ffun]. unfold node_fun.
    replace (smem "self"%string (v :: parents c)) with false.
    2:{ symmetry. apply smem_false. intros [->|H].
        - apply NS. apply in_map_iff. exists ("self"%string, c); auto.
        - apply NS. apply (ok_parents N SO v c Hc); auto. }
    cbn [combine]. change (list var) with (list string) in *. change (list value) with (list label) in *.
    change var with string in *. rewrite Es, E1.
    transitivity (match dget key_eqb cd (combine (parents c) xs) with Some p => Ok p | None => Err KeyError end);
      [reflexivity|]. rewrite E2. auto.
  Qed.

  Lemma Forall2_ps c v (a : assign) : In (v, c) N -> (forall p, In p (parents c) -> In (a p) (states_of N p)) ->
    ps_ok N (parents c) (map a (parents c)).
  Proof.
    intros _ H. unfold ps_ok. induction (parents c) as [|p l IH]; cbn [map]; constructor.
    - apply H; left; auto.
    - apply IH. intros q Hq. apply H. right; auto.
  Qed.

  Lemma built_pval n c (a : assign) : In n (bnodes b) -> In (nvar n, c) N -> nfac n = fac cp (nvar n) c ->
    In (a (nvar n)) (states c) -> (forall p, In p (parents c) -> In (a p) (states_of N p)) ->
    pval n a = prob c (a (nvar n)) (map a (parents c)).
  Proof.
    intros Hn Hc E Hx Hp. unfold pval.
    pose proof (fac_val (nvar n) c (a (nvar n)) (map a (parents c)) Hc Hx (Forall2_ps c _ a Hc Hp)) as F.
    transitivity (match ffun (fac cp (nvar n) c) (a (nvar n) :: map a (parents c)) with Ok q => q | Err _ => 0 end).
    - rewrite E. reflexivity.
    - exact (f_equal (fun r => match r with Ok q => q | Err _ => 0 end) F).
  Qed.

  Lemma built_wf : joined N -> wf_bbn b.
  Proof.
    intros J. constructor; auto.
    - intros E. apply (ok_ne N SO). assert (H : vars N = []).
      { apply Permutation_nil. rewrite <- built_perm, E. auto. }
      destruct N; auto. discriminate.
    - apply (build_connected (net_factors cp N)); auto.
      + apply net_good; auto.
      + unfold weakly_connected. rewrite map_fst_factors, arrows_net by auto. exact J.
    - intros n v Hn. destruct (built_node n Hn) as (c & Hc & E & Ep). rewrite E. unfold family. rewrite Ep.
      cbn [fac fargs]. reflexivity.
    - intros n Hn. destruct (built_node n Hn) as (c & Hc & E & Ep). rewrite (built_domain _ c Hc).
      apply (ok_states N SO _ c Hc).
    - intros n vals Hn F. destruct (built_node n Hn) as (c & Hc & E & Ep). rewrite E in F. cbn [fac fargs] in F.
      inversion F as [|x v xs vs Hx Hxs]; subst. rewrite (built_domain _ c Hc) in Hx.
      assert (P : ps_ok N (parents c) xs).
      { assert (I : incl (parents c) (vars N)) by (apply (ok_parents N SO _ c Hc)).
        clear -Hxs I HD SO HP HN HT. unfold ps_ok. induction Hxs as [|y p ys ps Hy Hys IH]; constructor.
        - rewrite built_domain' in Hy; auto. apply I; left; auto.
        - apply IH. intros q Hq. apply I. right; auto. }
      exists (prob c x xs). rewrite E. split; [apply fac_val; auto|]. apply (ok_nonneg N SO (nvar n) c); auto.
  Qed.

  (** Sums over worlds agree. *)
  Let dom := vdom b.

  Lemma dom_states v : In v (vars N) -> dom v = states_of N v.
  Proof.
    intros H. unfold dom. rewrite (dom_node b v); [apply built_domain'; auto|]. apply built_vars; auto.
  Qed.

  Lemma all_worlds_keys : all_worlds N = keysD dom (vars N).
  Proof.
    assert (G : forall N', incl N' N -> all_worlds N' = keysD dom (vars N')).
    { induction N' as [|[v c] N' IH]; intros I; auto.
      cbn [all_worlds]. unfold keysD. cbn [vars map fst cart]. fold (keysD dom (vars N')).
      assert (Hc : In (v, c) N) by (apply I; left; auto).
      rewrite (dom_states v) by (apply in_map_iff; exists (v, c); auto).
      rewrite (states_of_In N v c (ok_vars N SO) Hc).
      change (map fst N') with (vars N').
      assert (IHN : all_worlds N' = cart (map (fun v : var => map (pair v) (dom v)) (vars N'))).
      { apply IH. intros x Hx. apply I. right; auto. }
      change var with string in *. change value with label in *. rewrite <- IHN.
      clear. induction (states c) as [|s ss IHs]; auto. cbn [map flat_map]. rewrite IHs. auto. }
    apply G, incl_refl.
  Qed.

  Lemma at_dget w v : at_ w v = match dget String.eqb w v with Some x => x | None => LInt 0 end.
  Proof.
    unfold at_. induction w as [|[u x] w IH]; auto. cbn [find fst dget].
    rewrite String.eqb_sym. destruct (String.eqb v u); auto.
  Qed.

  Hypothesis WF : wf_bbn b.

  Lemma at_ov w v : In w (all_worlds N) -> In v (vars N) -> at_ w v = ov w (d0 b) v.
  Proof.
    intros Hw Hv. rewrite at_dget. unfold ov.
    assert (K : In v (dkeys w)).
    { rewrite all_worlds_keys in Hw.
      destruct (keysD_In dom (vars N) w Hw (d0 b) (d0_ok b WF) (ok_vars N SO)) as (_ & _ & Ef).
      change (In v (map fst (w : BbnModel.key))). rewrite Ef. exact Hv. }
    apply (dget_key_Some _ String.eqb_spec) in K as (x & K).
    transitivity x.
    - rewrite K. reflexivity.
    - exact (f_equal (fun o => match o with Some y => y | None => d0 b v end) (eq_sym K)).
  Qed.

  Definition jointA (a : assign) : Qc :=
    Qprod (fun vc => prob (snd vc) (a (fst vc)) (map a (parents (snd vc)))) N.

  Lemma jointA_dep : dep (vars N) jointA.
  Proof.
    intros a c E. unfold jointA. apply Qprod_ext. intros [v p] H. cbn [fst snd].
    rewrite (E v) by (apply in_map_iff; exists (v, p); auto). f_equal. apply map_ext_in.
    intros q Hq. apply E. apply (ok_parents N SO v p H); auto.
  Qed.

  Lemma Pr_sumover (P : assign -> bool) : (forall a c, (forall v, In v (vars N) -> a v = c v) -> P a = P c) ->
    Pr N (fun w => P (at_ w)) = sumover dom (vars N) (fun a => if P a then jointA a else 0) (d0 b).
  Proof.
    intros DP. unfold Pr. rewrite Qsum_filter.
    rewrite <- sum_keys.
    - rewrite <- all_worlds_keys. apply Qsum_ext. intros w Hw.
      rewrite (DP (at_ w) (ov w (d0 b))) by (intros v Hv; apply at_ov; auto).
      destruct (P (ov w (d0 b))); auto.
      change (jointA (at_ w) = jointA (ov w (d0 b))). apply jointA_dep. intros v Hv. apply at_ov; auto.
    - apply ok_vars; auto.
    - intros a c E. rewrite (DP a c) by auto. rewrite (jointA_dep a c) by auto. auto.
  Qed.

  Lemma total_sumover (P : assign -> bool) : (forall a c, (forall v, In v (vars N) -> a v = c v) -> P a = P c) ->
    total b (fun w => P (look w)) =
    sumover dom (map nvar (bnodes b)) (fun a => if P a then Qprod (fun n => pval n a) (bnodes b) else 0) (d0 b).
  Proof.
    intros DP. unfold total. rewrite Qsum_filter. rewrite <- sum_keys.
    - unfold dom. rewrite <- worlds_D by auto. apply Qsum_ext. intros w Hw.
      rewrite (DP (look w) (ov w (d0 b))) by (intros v Hv; apply look_ov; auto; apply built_vars; auto).
      destruct (P (ov w (d0 b))); auto. rewrite weight_ov; auto.
    - apply vars_NoDup; auto.
    - intros a c E. rewrite (DP a c) by auto. destruct (P c); auto. apply Qprod_ext. intros n Hn.
      apply (pval_dep b WF n Hn). auto.
  Qed.

  Lemma prod_joint (a : assign) : (forall v, In v (vars N) -> In (a v) (dom v)) ->
    Qprod (fun n => pval n a) (bnodes b) = jointA a.
  Proof.
    intros Va. unfold jointA.
    set (g := fun vf : var * factor =>
      match ffun (snd vf) (map a (fargs (snd vf))) with Ok q => q | Err _ => 0 end).
    transitivity (Qprod g (map (fun n => (nvar n, nfac n)) (bnodes b))).
    { rewrite Qprod_map. apply Qprod_ext. auto. }
    rewrite (Qprod_perm _ _ _ HP). unfold net_factors. rewrite Qprod_map. apply Qprod_ext.
    intros [v c] Hc. cbn [fst snd].
    assert (Hx : In (a v) (states c)).
    { rewrite <- (states_of_In N v c (ok_vars N SO) Hc). rewrite <- dom_states.
      - apply Va. apply in_map_iff. exists (v, c); auto.
      - apply in_map_iff. exists (v, c); auto. }
    assert (Hp : ps_ok N (parents c) (map a (parents c))).
    { apply (Forall2_ps c v); auto. intros p Hp.
      assert (I : In p (vars N)) by (apply (ok_parents N SO v c Hc); auto).
      rewrite <- dom_states by auto. auto. }
    exact (f_equal (fun r => match r with Ok q => q | Err _ => 0 end)
                   (fac_val v c (a v) (map a (parents c)) Hc Hx Hp)).
  Qed.

  Lemma total_Pr (P : assign -> bool) : (forall a c, (forall v, In v (vars N) -> a v = c v) -> P a = P c) ->
    total b (fun w => P (look w)) = Pr N (fun w => P (at_ w)).
  Proof.
    intros DP. rewrite total_sumover, Pr_sumover by auto.
    rewrite (sumover_perm dom _ (vars N)).
    - apply sumover_ext. intros a _ Hd. destruct (P a); auto. apply prod_joint. auto.
    - intros a c E. rewrite (DP a c) by auto. destruct (P c); auto. apply Qprod_ext. intros n Hn.
      apply (pval_dep b WF n Hn). auto.
    - apply built_perm.
  Qed.

  Lemma total_observed obs : incl (map fst obs) (vars N) ->
    total b (matches obs) = Pr N (observed obs).
  Proof.
    intros I. apply (total_Pr (fun a => forallb (fun e => label_eqb (a (fst e)) (snd e)) obs)).
    intros a c E. clear -I E. induction obs as [|e obs IH]; auto. cbn [forallb]. f_equal.
    - exact (f_equal (fun z => label_eqb z (snd e)) (E (fst e) (I _ (or_introl eq_refl)))).
    - apply IH. intros x Hx. apply I. right; auto.
  Qed.

  Lemma total_and obs v x : incl (map fst obs) (vars N) -> In v (vars N) ->
    total b (fun w => matches obs w && label_eqb (look w v) x)%bool = Pr_and N obs v x.
  Proof.
    intros I Hv. unfold Pr_and, is_.
    apply (total_Pr (fun a => forallb (fun e => label_eqb (a (fst e)) (snd e)) obs && label_eqb (a v) x)%bool).
    intros a c E. rewrite (E v Hv). f_equal. clear -I E. induction obs as [|e obs IH]; auto. cbn [forallb]. f_equal.
    - exact (f_equal (fun z => label_eqb z (snd e)) (E (fst e) (I _ (or_introl eq_refl)))).
    - apply IH. intros y Hy. apply I. right; auto.
  Qed.

  Lemma built_stochastic : columns_sum_1 N -> stochastic b.
  Proof.
    intros C n a Hn Hp. destruct (built_node n Hn) as (c & Hc & E & Ep).
    assert (Hps : forall p, In p (parents c) -> In (a p) (states_of N p)).
    { intros p Hq. assert (I : In p (vars N)) by (apply (ok_parents N SO _ c Hc); auto).
      rewrite <- built_domain' by auto. apply Hp. rewrite Ep. auto. }
    rewrite (built_domain _ c Hc). rewrite <- (C (nvar n) c (map a (parents c)) Hc).
    - apply Qsum_ext. intros x Hx.
      assert (Nn : ~ In (nvar n) (parents c)) by (apply (parents_not_self N _ c SO Hc)).
      rewrite (built_pval n c); auto.
      + rewrite upd_same. f_equal. apply map_ext_in. intros p Hq. apply upd_other. intros ->. auto.
      + rewrite upd_same. auto.
      + intros p Hq. rewrite upd_other; auto. intros ->. auto.
    - apply (Forall2_ps c (nvar n)); auto.
  Qed.
End Built.
