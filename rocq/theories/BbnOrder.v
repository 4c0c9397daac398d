(** * BbnOrder: the order in which a query lists its answers. *)
From Coq Require Import List Bool Arith Lia String QArith Qcanon Permutation.
From Verif Require Import Base QcX BbnModel SumOver Forest Elim Triang Kruskal RTree Sched Calib BbnTables BbnProofs BbnQuery.
Import ListNotations.
Local Open Scope Qc_scope.
Local Open Scope list_scope.

Definition addk (acc : list key) (k : key) : list key := if memb key_eqb k acc then acc else acc ++ [k].

Lemma addk_all l acc : (forall k, In k l -> In k acc) -> fold_left addk l acc = acc.
Proof.
  revert acc. induction l as [|k l IH]; intros acc H; auto. cbn [fold_left].
  assert (E : addk acc k = acc).
  { unfold addk. replace (memb key_eqb k acc) with true; auto. symmetry.
    apply (memb_In _ key_eqb_spec). apply H; left; auto. }
  rewrite E. apply IH. intros x Hx. apply H. right; auto.
Qed.

Lemma addk_block (k : key) n acc : ~ In k acc -> fold_left addk (repeat k (S n)) acc = acc ++ [k].
Proof.
  intros H. cbn [repeat fold_left].
  assert (E : addk acc k = acc ++ [k]).
  { unfold addk. replace (memb key_eqb k acc) with false; auto. symmetry. apply (memb_false _ key_eqb_spec). auto. }
  rewrite E. apply addk_all. intros x Hx. apply repeat_spec in Hx. subst. apply in_app_iff. right; left; auto.
Qed.

Lemma addk_blocks v l n acc : NoDup l -> (forall x, In x l -> ~ In [(v, x)] acc) ->
  fold_left addk (flat_map (fun x => repeat [(v, x)] (S n)) l) acc = acc ++ map (fun x => [(v, x)]) l.
Proof.
  revert acc. induction l as [|x l IH]; intros acc ND H; cbn [flat_map map].
  - rewrite app_nil_r. auto.
  - rewrite fold_left_app, addk_block by (apply H; left; auto). inversion ND; subst.
    rewrite IH; auto.
    + rewrite <- app_assoc. auto.
    + intros y Hy Hin. apply in_app_iff in Hin as [Hin|[[= ->]|[]]]; [|auto]. revert Hin. apply H. right; auto.
Qed.

Section Order.
  Variable dom : var -> list value.
  Variable d : assign.
  Hypothesis Hd : forall v, In (d v) (dom v).

  Lemma keysD_ne X : keysD dom X <> [].
  Proof.
    assert (H : In (key_of X d) (keysD dom X)) by (apply key_of_In; auto). intros E. rewrite E in H. destruct H.
  Qed.

  Lemma map_const_repeat {A B} (f : A -> B) c l : (forall x, In x l -> f x = c) -> map f l = repeat c (List.length l).
  Proof.
    induction l as [|x l IH]; intros H; auto. cbn [map repeat List.length]. f_equal.
    - apply H; left; auto.
    - apply IH. intros y Hy. apply H; right; auto.
  Qed.

  Lemma map_flat_map' {A B C} (f : B -> C) (g : A -> list B) l : map f (flat_map g l) = flat_map (fun x => map f (g x)) l.
  Proof. induction l as [|x l IH]; auto. cbn [flat_map]. rewrite map_app, IH. auto. Qed.

  Lemma first_order X v : NoDup X -> In v X -> NoDup (dom v) ->
    fold_left addk (map (fun k => [(v, ov k d v)]) (keysD dom X)) [] = map (fun x => [(v, x)]) (dom v).
  Proof.
    intros NX Hv ND. induction X as [|u X IH]; [destruct Hv|]. inversion NX as [|? ? Nu NX']; subst.
    assert (Ek : keysD dom (u :: X) = flat_map (fun x => map (cons (u, x)) (keysD dom X)) (dom u)).
    { unfold keysD. cbn [map cart]. rewrite flat_map_concat_map, map_map, <- flat_map_concat_map. auto. }
    rewrite Ek, map_flat_map'.
    destruct (String.eqb_spec u v) as [->|Ne].
    - destruct (keysD dom X) as [|k0 ks] eqn:Es; [exfalso; apply (keysD_ne X); auto|].
      rewrite (flat_map_ext _ (fun x => repeat [(v, x)] (S (List.length ks)))).
      + rewrite addk_blocks; auto.
      + intros x. rewrite map_map. rewrite (map_const_repeat _ [(v, x)]); auto.
        intros k _. unfold ov. cbn [dget]. rewrite String.eqb_refl. auto.
    - destruct Hv as [?|Hv]; [congruence|].
      rewrite (flat_map_ext _ (fun _ => map (fun k => [(v, ov k d v)]) (keysD dom X))).
      2:{ intros x. rewrite map_map. apply map_ext. intros k. unfold ov. cbn [dget].
          destruct (String.eqb_spec v u); [congruence|auto]. }
      destruct (dom u) as [|x xs] eqn:Eu; [specialize (Hd u); rewrite Eu in Hd; destruct Hd|].
      cbn [flat_map]. rewrite fold_left_app, IH by auto.
      apply addk_all. intros k Hk. apply in_flat_map in Hk as (_ & _ & Hk).
      apply in_map_iff in Hk as (k' & <- & Hk). apply in_map_iff. exists (ov k' d v). split; auto.
      apply (keysD_In dom X k' Hk d Hd NX').
  Qed.

  Lemma project_keys X R (tr : key -> key) t acc t' :
    (forall kv, In kv t -> transform (fst kv) X R = Ok (tr (fst kv))) ->
    foldM (fun acc kv => do e <- transform (fst kv) X R; Ok (tt_add acc e (snd kv))) t acc = Ok t' ->
    dkeys t' = fold_left addk (map (fun kv => tr (fst kv)) t) (dkeys acc).
  Proof.
    revert acc. induction t as [|kv t IH]; intros acc Ht E.
    - cbn [foldM] in E. injection E as <-. auto.
    - cbn [foldM] in E. rewrite (Ht kv (or_introl eq_refl)) in E. cbn [bind] in E.
      rewrite (IH _ (fun kv' H => Ht kv' (or_intror H)) E). cbn [map fold_left]. f_equal.
      unfold tt_add. rewrite (dkeys_dset _ key_eqb_spec). unfold addk, dhas. reflexivity.
  Qed.

  Lemma project_order X v f t : NoDup X -> In v X -> NoDup (dom v) ->
    project_table (ctab dom X f d) X [v] = Ok t -> dkeys t = map (fun x => [(v, x)]) (dom v).
  Proof.
    intros NX Hv ND E. unfold project_table in E.
    rewrite (project_keys X [v] (fun k => key_of [v] (ov k d)) (ctab dom X f d) [] t); auto.
    - unfold ctab. rewrite map_map. cbn [fst]. unfold key_of. cbn [map dkeys]. apply first_order; auto.
    - intros kv H. apply in_map_iff in H as (k & <- & Hk). cbn [fst].
      destruct (keysD_In dom X k Hk d Hd NX) as (Ek & _). rewrite Ek at 1. apply transform_ok.
      intros w [<-|[]]. auto.
  Qed.
End Order.

Lemma add_marginals_keys v t acc m : NoDup (dkeys t) ->
  (forall e, In e (dkeys t) -> exists x, e = [(v, x)] /\ ~ In (v, x) (dkeys acc)) ->
  add_marginals acc t = Ok m -> dkeys m = dkeys acc ++ flat_map (fun e => e) (dkeys t).
Proof.
  unfold add_marginals. revert acc. induction t as [|[e q] t IH]; intros acc ND H E.
  - cbn [foldM] in E. injection E as <-. cbn. rewrite app_nil_r. auto.
  - destruct (H e (or_introl eq_refl)) as (x & -> & Nx). cbn [foldM fst snd bind] in E.
    cbn [dkeys map fst] in ND. inversion ND as [|? ? Ne ND']; subst.
    assert (Ek : dkeys (dset pair_eqb acc (v, x) q) = dkeys acc ++ [(v, x)]).
    { rewrite (dkeys_dset _ pair_eqb_spec). replace (dhas pair_eqb acc (v, x)) with false; auto.
      symmetry. apply (memb_false _ pair_eqb_spec). auto. }
    rewrite (IH (dset pair_eqb acc (v, x) q)); auto.
    + rewrite Ek. cbn [dkeys map fst flat_map]. rewrite <- app_assoc. auto.
    + intros e He. destruct (H e (or_intror He)) as (y & -> & Ny). exists y. split; auto.
      rewrite Ek. intros Hin. apply in_app_iff in Hin as [Hin|[[= ->]|[]]]; auto.
Qed.

Theorem bbn_query_order sc b ev m :
  good_sched sc -> wf_bbn b ->
  (forall v x, In (v, x) ev -> In v (map nvar (bnodes b)) /\ In x (domain_of b v)) ->
  bbn_query sc b ev = Ok m ->
  dkeys m = flat_map (fun n => map (pair (nvar n)) (domain_of b (nvar n))) (bnodes b).
Proof.
  intros GS WF Hev. unfold bbn_query.
  rewrite (proj2 (validate_keyvals_ok b ev) Hev). cbn [bind].
  destruct (build_join_tree_ok sc (bnodes b) GS (wf_topo b WF) (wf_ne b WF) (wf_conn b WF)) as (jt & Ej & JO).
  rewrite Ej. cbn [bind].
  destruct (assign_clusters_ok b WF jt JO) as (asg & Ea & NDa & Pa & Ha). rewrite Ea. cbn [bind].
  destruct (init_ok b WF ev jt JO asg NDa Pa Ha) as (s0 & Es & Em & Hc & Hs). rewrite Es. cbn [bind].
  assert (I0 : PInv b ev jt [] s0).
  { exists (F0 ev asg), (fun _ _ => 1). split; [|split; auto]. apply init_FInv; auto. }
  destruct (propagate_query sc b GS WF ev jt JO s0 I0 Em) as (s1 & M & Ep & I1 & HM). rewrite Ep. cbn [bind].
  assert (Mar : forall n, In n (bnodes b) -> exists t, marginal jt s1 (nvar n) = Ok t /\
      dkeys t = map (fun x => [(nvar n, x)]) (domain_of b (nvar n))).
  { intros n Hn. assert (Hv : In (nvar n) (map nvar (bnodes b))) by (apply in_map; auto).
    destruct (marginal_ok b WF ev jt JO M s1 (nvar n) I1 HM Hv) as (t & Et & _).
    exists t. split; auto. unfold marginal in Et.
    destruct (filter (fun i => smem (nvar n) (nth i (jcliques jt) [])) (jorder jt)) as [|c cs] eqn:Ef; [discriminate|].
    assert (Hcc : In c (c :: cs)) by (left; auto). rewrite <- Ef in Hcc. apply filter_In in Hcc as [Hc1 Hc2].
    apply smem_In in Hc2. rewrite nth_clf in Hc2.
    assert (Lc : (c < List.length (jcliques jt))%nat).
    { apply (Permutation_in _ (jo_order _ _ JO)), in_seq in Hc1. lia. }
    destruct I1 as (F & G & _ & HF & _). rewrite (HF c Lc) in Et. unfold tab in Et.
    rewrite <- (dom_node b (nvar n)) by auto.
    apply (project_order (vdom b) (d0 b) (d0_ok b WF) (clique_vars jt c) (nvar n) (F c)); auto.
    - eapply clique_vars_NoDup; eauto.
    - apply variable_names_In. rewrite nth_clf. auto.
    - apply dom_NoDup; auto. }
  intros E.
  destruct (foldM (fun acc n => do t <- marginal jt s1 (nvar n); add_marginals acc t) (bnodes b) []) as [ms|] eqn:Ec;
    [|discriminate]. cbn [bind] in E.
  assert (K : dkeys ms = flat_map (fun n => map (pair (nvar n)) (domain_of b (nvar n))) (bnodes b)).
  { assert (G : forall l acc ms, incl l (bnodes b) -> NoDup (map nvar l) ->
       (forall n x, In n l -> ~ In (nvar n, x) (dkeys acc)) ->
       foldM (fun acc n => do t <- marginal jt s1 (nvar n); add_marginals acc t) l acc = Ok ms ->
       dkeys ms = dkeys acc ++ flat_map (fun n => map (pair (nvar n)) (domain_of b (nvar n))) l).
    { clear -Mar WF. induction l as [|n l IH]; intros acc ms I ND Fr E; cbn [foldM] in E.
      - injection E as <-. cbn [flat_map]. rewrite app_nil_r. auto.
      - destruct (Mar n (I n (or_introl eq_refl))) as (t & Et & Kt). rewrite Et in E. cbn [bind] in E.
        destruct (add_marginals acc t) as [acc'|] eqn:Ea; [|discriminate]. cbn [bind] in E.
        assert (Ka : dkeys acc' = dkeys acc ++ map (pair (nvar n)) (domain_of b (nvar n))).
        { rewrite (add_marginals_keys (nvar n) t acc acc'); auto.
          - rewrite Kt. f_equal. clear. induction (domain_of b (nvar n)); auto. cbn. f_equal. auto.
          - rewrite Kt. apply NoDup_map_in.
            + apply (wf_dom b WF n). apply I. left; auto.
            + intros x y _ _ [= ->]. auto.
          - intros e He. rewrite Kt in He. apply in_map_iff in He as (x & <- & _). exists x. split; auto.
            apply Fr. left; auto. }
        cbn [map] in ND. inversion ND; subst.
        rewrite (IH acc' ms); auto.
        + rewrite Ka, <- app_assoc. auto.
        + intros x Hx. apply I. right; auto.
        + intros n' x Hn'. rewrite Ka, in_app_iff. intros [Hin|Hin].
          * revert Hin. apply Fr. right; auto.
          * apply in_map_iff in Hin as (y & [= Eq _] & _). apply H1. rewrite Eq. apply in_map; auto. }
    apply (G (bnodes b) [] ms); auto.
    - apply incl_refl.
    - apply (topo_NoDup _ (wf_topo b WF)). }
  destruct ev; injection E as <-; auto.
  rewrite <- K. unfold dkeys. rewrite map_map. apply map_ext. intros kv.
  destruct (Qc_eq_bool (normalizer ms (fst (fst kv))) 0); auto.
Qed.
