(** * BbnQuery: the query of the model against brute-force enumeration. *)
From Coq Require Import List Bool Arith Lia String QArith Qcanon Permutation.
From Verif Require Import Base QcX BbnModel SumOver Forest Elim Triang Kruskal RTree Sched Calib BbnTables BbnProofs.
Import ListNotations.
Local Open Scope Qc_scope.
Local Open Scope list_scope.

(** ** Brute force *)

(** A world gives every node a value of its domain. *)
Definition world := list (var * value).

Definition worlds (b : bbn) : list world :=
  cart (map (fun v => map (pair v) (domain_of b v)) (map nvar (bnodes b))).

Definition look (w : world) (v : var) : value :=
  match dget String.eqb w v with Some x => x | None => LInt 0 end.

(** The value of a node's function in a world. *)
Definition factor_at (f : factor) (w : world) : Qc :=
  match ffun f (map (look w) (fargs f)) with Ok q => q | Err _ => 0 end.

Definition weight (b : bbn) (w : world) : Qc := Qprod (fun n => factor_at (nfac n) w) (bnodes b).

(** Total weight of the worlds that satisfy a test. *)
Definition total (b : bbn) (P : world -> bool) : Qc := Qsum (weight b) (filter P (worlds b)).

Definition matches (ev : list (var * value)) (w : world) : bool :=
  forallb (fun e => label_eqb (look w (fst e)) (snd e)) ev.

Section Brute.
  Variable b : bbn.
  Hypothesis WF : wf_bbn b.
  Let ns := bnodes b.
  Let vars := map nvar ns.
  Let dom := vdom b.

  Lemma worlds_D : worlds b = keysD dom vars.
  Proof.
    unfold worlds, keysD. f_equal. apply map_ext_in. intros v Hv. unfold dom.
    rewrite (dom_node b v); auto.
  Qed.

  Lemma vars_NoDup : NoDup vars.
  Proof. apply (topo_NoDup ns (wf_topo b WF)). Qed.

  Lemma look_ov w v : In w (worlds b) -> In v vars -> look w v = ov w (d0 b) v.
  Proof.
    intros Hw Hv. unfold look, ov. destruct (dget String.eqb w v) eqn:E; auto.
    apply (dget_None _ String.eqb_spec) in E. exfalso. apply E. rewrite worlds_D in Hw.
    destruct (keysD_In dom vars w Hw (d0 b) (d0_ok b WF) vars_NoDup) as (_ & _ & Ef).
    change (In v (map fst (w : key))). rewrite Ef. exact Hv.
  Qed.

  Lemma weight_ov w : In w (worlds b) -> weight b w = Qprod (fun n => pval n (ov w (d0 b))) ns.
  Proof.
    intros Hw. unfold weight. apply Qprod_ext. intros n Hn. unfold factor_at, pval.
    replace (map (look w) (fargs (nfac n))) with (map (ov w (d0 b)) (fargs (nfac n))); auto.
    apply map_ext_in. intros v Hv. symmetry. apply look_ov; auto.
    apply (wf_args b WF n v Hn) in Hv. apply (topo_family ns n (wf_topo b WF) Hn); auto.
  Qed.

  Lemma jointf_weight ev w : In w (worlds b) -> NoDup (map fst ev) -> incl (map fst ev) vars ->
    jointf ev ns (ov w (d0 b)) = if matches ev w then weight b w else 0.
  Proof.
    intros Hw ND I. unfold jointf, wval. rewrite Qprod_mul, <- weight_ov by auto.
    replace (Qprod (fun n => evid ev n (ov w (d0 b))) ns) with (if matches ev w then 1 else 0).
    - destruct (matches ev w); ring.
    - destruct (matches ev w) eqn:M.
      + symmetry. rewrite (Qprod_ext _ (fun _ => 1)); [apply Qprod_one|]. intros n Hn. unfold evid.
        destruct (dget String.eqb ev (nvar n)) as [x|] eqn:E; auto.
        apply (dget_In _ String.eqb_spec) in E. unfold matches in M. rewrite forallb_forall in M.
        specialize (M _ E). cbn [fst snd] in M. rewrite look_ov in M; auto.
        * rewrite M. auto.
        * apply in_map; auto.
      + symmetry. assert (X : exists e, In e ev /\ label_eqb (look w (fst e)) (snd e) = false).
        { clear -M. induction ev as [|e ev IH]; [discriminate|].
          change (label_eqb (look w (fst e)) (snd e) && matches ev w = false)%bool in M.
          destruct (label_eqb (look w (fst e)) (snd e)) eqn:E.
          - destruct (IH M) as (e' & H1 & H2). exists e'. split; auto. right; auto.
          - exists e. split; auto. left; auto. }
        destruct X as ([v x] & He & Ne). cbn [fst snd] in Ne.
        assert (Hv : In v vars) by (apply I; apply in_map_iff; exists (v, x); auto).
        pose proof Hv as Hv'. unfold vars in Hv'. apply in_map_iff in Hv' as (n & En & Hn).
        apply (Qprod_zero _ _ n Hn). unfold evid. rewrite En.
        rewrite (In_dget _ String.eqb_spec ev v x); auto. rewrite <- look_ov by auto. rewrite Ne. auto.
  Qed.

  Lemma total_matches ev : NoDup (map fst ev) -> incl (map fst ev) vars ->
    total b (matches ev) = sumover dom vars (jointf ev ns) (d0 b).
  Proof.
    intros ND I. unfold total. rewrite Qsum_filter.
    rewrite <- sum_keys; [|apply vars_NoDup|eapply dep_ext; apply jointf_dep; auto].
    rewrite <- worlds_D. apply Qsum_ext. intros w Hw. rewrite jointf_weight; auto.
  Qed.

  Lemma sumover_vars_split v f a : In v vars -> ext f ->
    sumover dom vars f a = sumover dom (v :: others b v) f a.
  Proof.
    intros Hv Ef. apply sumover_perm; auto. apply NoDup_Permutation; [apply vars_NoDup| |].
    - constructor; [|apply NoDup_filter, vars_NoDup]. intros H. apply filter_In in H as [_ H].
      rewrite String.eqb_refl in H. discriminate.
    - intros w. simpl. unfold others. rewrite filter_In, negb_true_iff, String.eqb_neq. split.
      + intros H. destruct (String.string_dec v w); auto.
      + intros [<-|[? ?]]; auto.
  Qed.

  Lemma total_msum ev v x : NoDup (map fst ev) -> incl (map fst ev) vars -> In v vars ->
    In x (domain_of b v) ->
    total b (fun w => matches ev w && label_eqb (look w v) x)%bool = msum b ev v x.
  Proof.
    intros ND I Hv Hx. unfold total. rewrite Qsum_filter.
    set (J := jointf ev ns).
    assert (DJ : dep vars J) by (apply jointf_dep; auto).
    set (f := fun a : assign => if label_eqb (a v) x then J a else 0).
    assert (Df : dep vars f).
    { intros a c E. unfold f. rewrite (E v Hv), (DJ a c E). auto. }
    transitivity (sumover dom vars f (d0 b)).
    - rewrite <- sum_keys; [|apply vars_NoDup|eapply dep_ext; eauto].
      rewrite <- worlds_D. apply Qsum_ext. intros w Hw. unfold f, J.
      rewrite jointf_weight, <- look_ov by auto.
      destruct (matches ev w), (label_eqb (look w v) x); auto.
    - rewrite (sumover_vars_split v) by (auto; eapply dep_ext; eauto). cbn [sumover].
      rewrite (Qsum_single _ _ x).
      + unfold msum. apply sumover_ext. intros c Hc _. unfold f.
        assert (E : c v = x).
        { rewrite Hc; [apply upd_same|]. unfold others. rewrite filter_In, String.eqb_refl. intros [_ H]; discriminate H. }
        rewrite E. destruct (label_eqb_spec x x); [|congruence]. auto.
      + apply dom_NoDup; auto.
      + unfold dom. rewrite dom_node; auto.
      + intros y Hy Ny. rewrite (sumover_ext _ _ _ (fun _ => 0)); [apply sumover_zero|].
        intros c Hc _. unfold f.
        assert (E : c v = y).
        { rewrite Hc; [apply upd_same|]. unfold others. rewrite filter_In, String.eqb_refl. intros [_ H]; discriminate H. }
        rewrite E. destruct (label_eqb_spec y x); [congruence|]. auto.
  Qed.

  Lemma msum_total ev v : NoDup (map fst ev) -> incl (map fst ev) vars -> In v vars ->
    Qsum (msum b ev v) (domain_of b v) = total b (matches ev).
  Proof.
    intros ND I Hv. rewrite total_matches by auto.
    assert (DJ : dep vars (jointf ev ns)) by (apply jointf_dep; auto).
    rewrite (sumover_vars_split v) by (auto; eapply dep_ext; eauto). cbn [sumover].
    rewrite <- (dom_node b v Hv). reflexivity.
  Qed.
End Brute.

(** ** Validation *)
Lemma validate_keyvals_ok b ev :
  validate_keyvals b ev = Ok tt <->
  forall v x, In (v, x) ev -> In v (map nvar (bnodes b)) /\ In x (domain_of b v).
Proof.
  induction ev as [|[k v] ev IH]; cbn [validate_keyvals].
  - split; auto. intros _ v x [].
  - destruct (smem k (map nvar (bnodes b))) eqn:E1.
    + destruct (lmem v (domain_of b k)) eqn:E2.
      * rewrite IH. apply smem_In in E1. apply lmem_In in E2. split; intros H.
        -- intros u x [[= <- <-]|Hin]; auto.
        -- intros u x Hin. apply H. right; auto.
      * split; [discriminate|]. intros H. destruct (H k v (or_introl eq_refl)) as [_ H2].
        apply lmem_In in H2. congruence.
    + split; [discriminate|]. intros H. destruct (H k v (or_introl eq_refl)) as [H2 _].
      apply smem_In in H2. congruence.
Qed.

(** ** Collecting the marginals *)
Lemma normalizer_acc (m : marg) v acc :
  fold_left (fun acc kv => if String.eqb (fst (fst kv)) v then acc + snd kv else acc) m acc
  = acc + Qsum (fun kv => if String.eqb (fst (fst kv)) v then snd kv else 0) m.
Proof.
  revert acc. induction m as [|kv m IH]; intros acc; cbn [fold_left].
  - rewrite Qsum_nil. ring.
  - rewrite IH, Qsum_cons. destruct kv as [[u x] q]. cbn [fst snd]. destruct (String.eqb u v); ring.
Qed.

Lemma normalizer_sum m v :
  normalizer m v = Qsum (fun kv => if String.eqb (fst (fst kv)) v then snd kv else 0) m.
Proof. unfold normalizer. rewrite normalizer_acc. ring. Qed.

Lemma Qsum_if_filter {A} (p : A -> bool) f l : Qsum (fun x => if p x then f x else 0) l = Qsum f (filter p l).
Proof. symmetry. apply Qsum_filter. Qed.

Lemma dget_ext_map (m : marg) (g : (var * value) * Qc -> Qc) v :
  dget pair_eqb (map (fun kv => (fst kv, g kv)) m) v
  = match dget pair_eqb m v with Some q => Some (g (v, q)) | None => None end.
Proof.
  induction m as [|[k q] m IH]; simpl; auto.
  destruct (pair_eqb_spec v k) as [->|N]; auto.
Qed.

Section Collect.
  Variable b : bbn.
  Hypothesis WF : wf_bbn b.
  Variable g : var -> value -> Qc.
  Variable mar : var -> res table.
  Hypothesis Hmar : forall v, In v (map nvar (bnodes b)) ->
    exists t, mar v = Ok t /\ NoDup (dkeys t) /\
      (forall e, In e (dkeys t) <-> exists x, In x (domain_of b v) /\ e = [(v, x)]) /\
      (forall x, In x (domain_of b v) -> dget key_eqb t [(v, x)] = Some (g v x)).

  Lemma add_marginals_ok v t acc :
    NoDup (dkeys t) -> NoDup (dkeys acc) ->
    (forall e, In e (dkeys t) -> exists x, e = [(v, x)]) ->
    exists acc', add_marginals acc t = Ok acc' /\ NoDup (dkeys acc') /\
      forall k, dget pair_eqb acc' k =
        match dget key_eqb t [k] with Some q => Some q | None => dget pair_eqb acc k end.
  Proof.
    unfold add_marginals. revert acc. induction t as [|[e q] t IH]; intros acc ND NDa H.
    - exists acc. split; auto.
    - inversion ND as [|? ? Ne ND']; subst. destruct (H e (or_introl eq_refl)) as (x & ->).
      cbn [foldM fst snd bind].
      destruct (IH (dset pair_eqb acc (v, x) q)) as (acc' & E & ND2 & G); auto.
      + apply (dset_NoDup _ pair_eqb_spec); auto.
      + intros e He. apply H. right; auto.
      + exists acc'. split; auto. split; auto. intros k. rewrite G, (dget_dset _ pair_eqb_spec). cbn [dget].
        destruct (pair_eqb_spec k (v, x)) as [->|N].
        * destruct (key_eqb_spec [(v, x)] [(v, x)]); [|congruence].
          assert (Hn : dget key_eqb t [(v, x)] = None) by (apply (dget_None _ key_eqb_spec); auto).
          rewrite Hn. auto.
        * destruct (key_eqb_spec [k] [(v, x)]); [congruence|]. auto.
  Qed.

  Definition in_query (vs : list var) (k : var * value) : bool :=
    smem (fst k) vs && lmem (snd k) (domain_of b (fst k)).

  Lemma collect_ok l : incl (map nvar l) (map nvar (bnodes b)) ->
    forall acc vs, NoDup (dkeys acc) ->
      (forall k, dget pair_eqb acc k = if in_query vs k then Some (g (fst k) (snd k)) else None) ->
      exists ms, foldM (fun acc n => do t <- mar (nvar n); add_marginals acc t) l acc = Ok ms /\
        NoDup (dkeys ms) /\
        (forall k, dget pair_eqb ms k = if in_query (vs ++ map nvar l) k then Some (g (fst k) (snd k)) else None).
  Proof.
    induction l as [|n l IH]; intros I acc vs ND H.
    - exists acc. split; auto. split; auto. intros k. simpl. rewrite app_nil_r. auto.
    - cbn [foldM]. destruct (Hmar (nvar n)) as (t & Et & NDt & K & V); [apply I; left; auto|].
      rewrite Et. cbn [bind].
      destruct (add_marginals_ok (nvar n) t acc NDt ND) as (acc' & E & ND' & G).
      { intros e He. apply K in He as (x & _ & ->). eauto. }
      rewrite E. cbn [bind].
      destruct (IH (fun v Hv => I v (or_intror Hv)) acc' (vs ++ [nvar n]) ND') as (ms & E2 & ND2 & G2).
      + intros [v x]. rewrite G, H. unfold in_query. cbn [fst snd].
        destruct (dget key_eqb t [(v, x)]) as [q|] eqn:D.
        * pose proof (dget_Some_key _ key_eqb_spec _ _ _ D) as Hk. apply K in Hk as (y & Hy & [= -> ->]).
          rewrite (V y Hy) in D. injection D as <-.
          assert (E1 : smem (nvar n) (vs ++ [nvar n]) = true) by (apply smem_In, in_app_iff; right; left; auto).
          apply lmem_In in Hy. rewrite E1, Hy. auto.
        * destruct (lmem x (domain_of b v)) eqn:L; [|rewrite !andb_false_r; auto]. rewrite !andb_true_r.
          replace (smem v (vs ++ [nvar n])) with (smem v vs); auto.
          destruct (smem v vs) eqn:S1, (smem v (vs ++ [nvar n])) eqn:S2; auto.
          -- apply smem_In in S1. apply smem_false in S2. exfalso. apply S2, in_app_iff; auto.
          -- apply smem_In in S2. apply smem_false in S1. apply in_app_iff in S2 as [?|[<-|[]]]; [tauto|].
             apply lmem_In in L. rewrite (V x L) in D. discriminate.
      + exists ms. split; auto. split; auto. intros k. rewrite G2, <- app_assoc. auto.
  Qed.

  Lemma normalizer_ok ms v : NoDup (dkeys ms) ->
    (forall k, dget pair_eqb ms k = if in_query (map nvar (bnodes b)) k then Some (g (fst k) (snd k)) else None) ->
    In v (map nvar (bnodes b)) ->
    normalizer ms v = Qsum (g v) (domain_of b v).
  Proof.
    intros ND H Hv. rewrite normalizer_sum, Qsum_if_filter.
    assert (NDd : NoDup (domain_of b v)).
    { apply in_map_iff in Hv as (n & <- & Hn). apply (wf_dom b WF n Hn). }
    transitivity (Qsum snd (map (fun x => ((v, x), g v x)) (domain_of b v))).
    - apply Qsum_perm, NoDup_Permutation.
      + apply NoDup_filter. apply (NoDup_map_inv fst). auto.
      + apply NoDup_map_in; auto. intros x y _ _ [= -> _]. auto.
      + intros [[u x] q]. rewrite filter_In, in_map_iff. cbn [fst snd]. split.
        * intros [Hin Eu]. apply String.eqb_eq in Eu. subst u.
          apply (In_dget _ pair_eqb_spec) in Hin; auto. rewrite H in Hin. unfold in_query in Hin. cbn [fst snd] in Hin.
          destruct (smem v (map nvar (bnodes b)) && lmem x (domain_of b v))%bool eqn:E; [|discriminate].
          injection Hin as <-. apply andb_true_iff in E as [_ E]. apply lmem_In in E. exists x. auto.
        * intros (y & [= -> -> <-] & Hy). split; [|apply String.eqb_refl].
          apply (dget_In _ pair_eqb_spec). rewrite H. unfold in_query. cbn [fst snd].
          apply smem_In in Hv. apply lmem_In in Hy. rewrite Hv, Hy. auto.
    - rewrite Qsum_map. apply Qsum_ext. auto.
  Qed.
End Collect.

(** ** The query theorem *)
Definition query_value (b : bbn) (ev : list (var * value)) (v : var) (x : value) : Qc :=
  let num := total b (fun w => matches ev w && label_eqb (look w v) x)%bool in
  let z := total b (matches ev) in
  match ev with
  | [] => num
  | _ => if Qc_eq_bool z 0 then num else num / z
  end.

Theorem bbn_query_exact sc b ev :
  good_sched sc -> wf_bbn b -> NoDup (map fst ev) ->
  (forall v x, In (v, x) ev -> In v (map nvar (bnodes b)) /\ In x (domain_of b v)) ->
  exists m, bbn_query sc b ev = Ok m /\ NoDup (dkeys m) /\
    forall v x, dget pair_eqb m (v, x) =
      if in_query b (map nvar (bnodes b)) (v, x) then Some (query_value b ev v x) else None.
Proof.
  intros GS WF ND Hev. unfold bbn_query.
  rewrite (proj2 (validate_keyvals_ok b ev) Hev). cbn [bind].
  destruct (build_join_tree_ok sc (bnodes b) GS (wf_topo b WF) (wf_ne b WF) (wf_conn b WF)) as (jt & Ej & JO).
  rewrite Ej. cbn [bind].
  destruct (assign_clusters_ok b WF jt JO) as (asg & Ea & NDa & Pa & Ha). rewrite Ea. cbn [bind].
  destruct (init_ok b WF ev jt JO asg NDa Pa Ha) as (s0 & Es & Em & Hc & Hs). rewrite Es. cbn [bind].
  assert (I0 : PInv b ev jt [] s0).
  { exists (F0 ev asg), (fun _ _ => 1). split; [|split; auto]. apply init_FInv; auto. }
  destruct (propagate_query sc b GS WF ev jt JO s0 I0 Em) as (s1 & M & Ep & I1 & HM). rewrite Ep. cbn [bind].
  assert (I : incl (map fst ev) (map nvar (bnodes b))).
  { intros v Hv. apply in_map_iff in Hv as ([u x] & <- & H). apply (Hev u x H). }
  destruct (collect_ok b (msum b ev) (marginal jt s1)) with (l := bnodes b) (acc := @nil ((var * value) * Qc)) (vs := @nil var)
    as (ms & Ec & NDm & Hm).
  - intros v Hv. apply (marginal_ok b WF ev jt JO M s1 v I1 HM Hv).
  - apply incl_refl.
  - constructor.
  - intros k. reflexivity.
  - rewrite Ec. cbn [bind]. simpl app in Hm.
    assert (Num : forall v x, In v (map nvar (bnodes b)) -> In x (domain_of b v) ->
      total b (fun w => matches ev w && label_eqb (look w v) x)%bool = msum b ev v x).
    { intros v x Hv Hx. apply total_msum; auto. }
    assert (Nz : forall v, In v (map nvar (bnodes b)) -> normalizer ms v = total b (matches ev)).
    { intros v Hv. rewrite (normalizer_ok b WF (msum b ev) ms v NDm Hm Hv). apply msum_total; auto. }
    assert (Inq : forall v x, in_query b (map nvar (bnodes b)) (v, x) = true ->
                    In v (map nvar (bnodes b)) /\ In x (domain_of b v)).
    { intros v x H. unfold in_query in H. cbn [fst snd] in H. apply andb_true_iff in H as [H1 H2].
      apply smem_In in H1. apply lmem_In in H2. auto. }
    destruct ev as [|e ev'] eqn:Eev.
    + exists ms. split; auto. split; auto. intros v x. rewrite Hm. cbn [fst snd].
      destruct (in_query b (map nvar (bnodes b)) (v, x)) eqn:Q; auto. apply Inq in Q as [H1 H2].
      unfold query_value. rewrite Num by auto. auto.
    + rewrite <- Eev in *. eexists. split; [reflexivity|].
      set (g := fun kv : (var * value) * Qc => let z := normalizer ms (fst (fst kv)) in
                 if Qc_eq_bool z 0 then snd kv else snd kv / z).
      rewrite (map_ext _ (fun kv => (fst kv, g kv))).
      2:{ intros kv. unfold g. cbv zeta. destruct (Qc_eq_bool (normalizer ms (fst (fst kv))) 0); auto.
          destruct kv; auto. }
      split.
      * unfold dkeys. rewrite map_map. simpl. exact NDm.
      * intros v x. rewrite dget_ext_map, Hm. cbn [fst snd].
        destruct (in_query b (map nvar (bnodes b)) (v, x)) eqn:Q; auto. apply Inq in Q as [H1 H2].
        f_equal. unfold g, query_value. cbn [fst snd]. cbv zeta. rewrite Nz, Num by auto.
        destruct ev; [discriminate|]. reflexivity.
Qed.
