(** * BbnBuild: building a network from its factors, and the total mass of a normalised network. *)
From Coq Require Import List Bool Arith Lia String QArith Qcanon Permutation Relations.
From Verif Require Import Base QcX Digraph BbnModel SumOver Forest Elim Triang Kruskal RTree Sched Calib BbnTables BbnProofs BbnQuery.
Import ListNotations.
Local Open Scope Qc_scope.
Local Open Scope list_scope.

(** ** Specification of a factor list

    A list of (variable, its function).  The functions may be listed in any order. *)

Definition other_args (v : var) (f : factor) : list var :=
  filter (fun a => negb (String.eqb a v)) (fargs f).

(** The arrows parent -> variable that the arguments describe. *)
Definition arrows (vfs : list (var * factor)) : list (var * var) :=
  flat_map (fun vf => map (fun a => (a, fst vf)) (other_args (fst vf) (snd vf))) vfs.

Record good_factors (vfs : list (var * factor)) : Prop := {
  gf_vars : NoDup (map fst vfs);
  gf_names : NoDup (map (fun vf => fname (snd vf)) vfs);
  gf_self : forall v f, In (v, f) vfs -> In v (fargs f);
  gf_nodup : forall v f, In (v, f) vfs -> NoDup (fargs f);
  gf_known : forall v f, In (v, f) vfs -> incl (fargs f) (map fst vfs);
  gf_acyclic : acyclic (arrows vfs)
}.

Lemma dset_fresh {V} (d : list (string * V)) k v : ~ In k (dkeys d) -> dset String.eqb d k v = d ++ [(k, v)].
Proof.
  induction d as [|[k' v'] d IH]; cbn [dset]; auto. cbn [dkeys map fst]. intros N.
  destruct (String.eqb_spec k k') as [->|Nk]; [exfalso; apply N; left; auto|].
  rewrite IH; auto. intros H. apply N. right; auto.
Qed.

Lemma factor_nodes_id fs : NoDup (map fname fs) -> factor_nodes fs = fs.
Proof.
  intros ND. unfold factor_nodes.
  assert (G : forall l d, NoDup (dkeys d ++ map fname l) ->
     fold_left (fun d f => dset String.eqb d (fname f) f) l d = d ++ map (fun f => (fname f, f)) l).
  { induction l as [|f l IH]; intros d H; cbn [fold_left map].
    - rewrite app_nil_r; auto.
    - rewrite dset_fresh.
      + rewrite IH; [rewrite <- app_assoc; auto|].
        unfold dkeys. rewrite map_app. cbn [map fst]. rewrite <- app_assoc. exact H.
      + cbn [map] in H. apply NoDup_remove_2 in H. intros H'. apply H, in_app_iff; auto. }
  rewrite G by exact ND. cbn [app]. rewrite map_map. cbn [snd]. apply map_id.
Qed.

Section Gof.
  Variable vfs : list (var * factor).
  Hypothesis GF : good_factors vfs.

  (** Assigned variables keep their own function, and their other arguments were assigned earlier. *)
  Inductive ginv : list (var * factor) -> Prop :=
  | gi_nil : ginv []
  | gi_snoc orig v f : ginv orig -> In (v, f) vfs -> ~ In v (dkeys orig) ->
      incl (other_args v f) (dkeys orig) -> ginv (orig ++ [(v, f)]).

  Lemma owner_unique v f g : In (v, f) vfs -> In (v, g) vfs -> f = g.
  Proof.
    intros H1 H2. pose proof (gf_vars vfs GF) as ND.
    apply (In_dget _ String.eqb_spec vfs v f) in H1; auto.
    apply (In_dget _ String.eqb_spec vfs v g) in H2; auto. congruence.
  Qed.

  Lemma other_args_In v f a : In a (other_args v f) <-> In a (fargs f) /\ a <> v.
  Proof.
    unfold other_args. rewrite filter_In, negb_true_iff, String.eqb_neq. tauto.
  Qed.

  Lemma dkeys_app {V} (d e : list (var * V)) : dkeys (d ++ e) = dkeys d ++ dkeys e.
  Proof. apply map_app. Qed.

  Lemma ginv_NoDup orig : ginv orig -> NoDup (dkeys orig).
  Proof.
    induction 1 as [|orig v f H IH Hin N I]; [constructor|].
    rewrite dkeys_app. cbn [dkeys map fst].
    apply (Permutation_NoDup (Permutation_cons_append _ _)). constructor; auto.
  Qed.

  Lemma ginv_In orig v f : ginv orig -> In (v, f) orig -> In (v, f) vfs.
  Proof.
    induction 1 as [|orig u g H IH Hin N I]; [intros []|].
    rewrite in_app_iff. intros [?|[[= <- <-]|[]]]; auto.
  Qed.

  Lemma ginv_args orig v f a : ginv orig -> In (v, f) orig -> In a (fargs f) -> In a (dkeys orig).
  Proof.
    induction 1 as [|orig u g H IH Hin N I]; [intros []|].
    rewrite in_app_iff, dkeys_app, in_app_iff. intros [Ho|[[= <- <-]|[]]] Ha; auto.
    destruct (String.string_dec a u) as [->|Na]; [right; left; auto|].
    left. apply I, other_args_In; auto.
  Qed.

  Lemma dhas_keys (orig : list (var * factor)) a : dhas String.eqb orig a = true <-> In a (dkeys orig).
  Proof. apply (memb_In _ String.eqb_spec). Qed.

  Lemma gof_step_inv orig v f : ginv orig -> In (v, f) vfs ->
    ginv (gof_step orig f) /\ incl (dkeys orig) (dkeys (gof_step orig f)) /\
    (incl (other_args v f) (dkeys orig) -> In v (dkeys (gof_step orig f))).
  Proof.
    intros G Hin. unfold gof_step.
    set (un := filter (fun a => negb (dhas String.eqb orig a)) (fargs f)).
    assert (Un : forall a, In a un <-> In a (fargs f) /\ ~ In a (dkeys orig)).
    { intros a. unfold un. rewrite filter_In, negb_true_iff, <- not_true_iff_false, dhas_keys. tauto. }
    destruct (in_dec String.string_dec v (dkeys orig)) as [Hv|Nv].
    - assert (E : un = []).
      { destruct un as [|a un'] eqn:E; auto. exfalso.
        destruct (proj1 (Un a) (or_introl eq_refl)) as [Ha Na]. apply Na.
        pose proof (dget_key_Some _ String.eqb_spec orig v Hv) as (g & Hg).
        apply (dget_In _ String.eqb_spec) in Hg.
        assert (f = g) by (apply (owner_unique v); [auto|eapply ginv_In; eauto]). subst g.
        eapply ginv_args; eauto. }
      rewrite E. split; auto. split; [apply incl_refl|]. auto.
    - assert (Hvu : In v un) by (apply Un; split; auto; eapply gf_self; eauto).
      destruct un as [|a [|a' un']] eqn:E.
      + destruct Hvu.
      + destruct Hvu as [->|[]].
        change (dset String.eqb orig v f) with (@dset string factor String.eqb orig v f).
        rewrite (dset_fresh orig v f Nv). split; [|split].
        * constructor; auto. intros a Ha. apply other_args_In in Ha as [Ha Na].
          destruct (in_dec String.string_dec a (dkeys orig)); auto.
          assert (X : In a [v]) by (apply Un; auto). destruct X as [X|[]]; congruence.
        * rewrite dkeys_app. apply incl_appl, incl_refl.
        * intros _. rewrite dkeys_app. apply in_app_iff. right; left; auto.
      + split; auto. split; [apply incl_refl|]. intros I. exfalso.
        assert (NDu : NoDup (a :: a' :: un')).
        { rewrite <- E. apply NoDup_filter. eapply gf_nodup; eauto. }
        assert (X : forall y, In y (a :: a' :: un') -> y = v).
        { intros y Hy. apply Un in Hy as [Hy Ny]. destruct (String.string_dec y v); auto.
          exfalso. apply Ny, I, other_args_In; auto. }
        assert (Ea : a = v) by (apply X; left; auto). assert (Ea' : a' = v) by (apply X; right; left; auto).
        subst. inversion NDu as [|? ? Hn _]; subst. apply Hn. left; auto.
  Qed.

  Lemma gof_pass_inv l : incl l vfs -> forall orig, ginv orig ->
    ginv (gof_pass orig (map snd l)) /\ incl (dkeys orig) (dkeys (gof_pass orig (map snd l))) /\
    (forall v f, In (v, f) l -> incl (other_args v f) (dkeys orig) ->
       In v (dkeys (gof_pass orig (map snd l)))).
  Proof.
    induction l as [|[u g] l IH]; intros I orig G.
    - cbn. split; auto. split; [apply incl_refl|]. intros v f [].
    - change (gof_pass orig (map snd ((u, g) :: l))) with (gof_pass (gof_step orig g) (map snd l)).
      destruct (gof_step_inv orig u g G) as (G1 & I1 & S1); [apply I; left; auto|].
      destruct (IH (fun x Hx => I x (or_intror Hx)) _ G1) as (G2 & I2 & S2).
      split; auto. split; [eapply incl_tran; eauto|]. intros v f [[= <- <-]|H] Ho.
      + apply I2, S1, Ho.
      + apply (S2 v f H). eapply incl_tran; eauto.
  Qed.

  Lemma arrows_In p v : In (p, v) (arrows vfs) <-> exists f, In (v, f) vfs /\ In p (other_args v f).
  Proof.
    unfold arrows. rewrite in_flat_map. split.
    - intros ([u f] & H1 & H2). cbn [fst snd] in H2. apply in_map_iff in H2 as (a & [= -> ->] & H2). eauto.
    - intros (f & H1 & H2). exists (v, f). split; auto. cbn [fst snd]. apply in_map_iff. eauto.
  Qed.

  (** A node of smallest rank among those not yet assigned has all its parents assigned. *)
  Lemma next_assignable orig : ginv orig -> (List.length orig < List.length vfs)%nat ->
    exists v f, In (v, f) vfs /\ ~ In v (dkeys orig) /\ incl (other_args v f) (dkeys orig).
  Proof.
    intros G L.
    destruct (proj1 (acyclic_rank String.eqb String.eqb_spec (arrows vfs)) (gf_acyclic vfs GF)) as (r & Hr).
    assert (Ex : exists v, In v (map fst vfs) /\ ~ In v (dkeys orig)).
    { destruct (Exists_dec (fun v => ~ In v (dkeys orig)) (map fst vfs)) as [E|N].
      - intros v. destruct (in_dec String.string_dec v (dkeys orig)); [right|left]; tauto.
      - apply Exists_exists in E. exact E.
      - exfalso. assert (I : incl (map fst vfs) (dkeys orig)).
        { intros v Hv. destruct (in_dec String.string_dec v (dkeys orig)); auto.
          exfalso. apply N, Exists_exists. exists v; auto. }
        apply (NoDup_incl_length (gf_vars vfs GF)) in I. unfold dkeys in I. rewrite !map_length in I.
        apply Nat.lt_nge in L. apply L. exact I. }
    destruct Ex as (v0 & Hv0 & Nv0).
    assert (W : forall n v, (r v < n)%nat -> In v (map fst vfs) -> ~ In v (dkeys orig) ->
      exists v f, In (v, f) vfs /\ ~ In v (dkeys orig) /\ incl (other_args v f) (dkeys orig)).
    { induction n as [|n IH]; intros v Lv Hv Nv; [lia|].
      apply in_map_iff in Hv as ([u f] & <- & Hf). cbn [fst] in *.
      destruct (Exists_dec (fun a => ~ In a (dkeys orig)) (other_args u f)) as [E|N].
      - intros a. destruct (in_dec String.string_dec a (dkeys orig)); [right|left]; tauto.
      - apply Exists_exists in E as (a & Ha & Na). apply (IH a); auto.
        + assert (r a < r u)%nat; [|lia]. apply Hr. apply arrows_In. eauto.
        + apply (gf_known vfs GF u f Hf). apply other_args_In in Ha. tauto.
      - exists u, f. split; auto. split; auto. intros a Ha.
        destruct (in_dec String.string_dec a (dkeys orig)); auto.
        exfalso. apply N, Exists_exists. exists a; auto. }
    apply (W (S (r v0)) v0); auto.
  Qed.

  Lemma ginv_length orig : ginv orig -> (List.length orig <= List.length vfs)%nat.
  Proof.
    intros G. pose proof (ginv_NoDup _ G) as ND.
    assert (I : incl (dkeys orig) (map fst vfs)).
    { intros v Hv. apply in_map_iff in Hv as ([u f] & <- & H). apply in_map_iff.
      exists (u, f). split; auto. eapply ginv_In; eauto. }
    apply (NoDup_incl_length ND) in I. unfold dkeys in I. rewrite !map_length in I. exact I.
  Qed.

  Lemma gof_loop_ok fuel : forall orig, ginv orig ->
    (List.length vfs - List.length orig <= fuel)%nat ->
    exists out, gof_loop fuel (map snd vfs) orig = Ok out /\ ginv out /\ List.length out = List.length vfs.
  Proof.
    induction fuel as [|fuel IH]; intros orig G L.
    - pose proof (ginv_length orig G).
      cbn [gof_loop]. rewrite map_length.
      destruct (Nat.ltb_spec (List.length orig) (List.length vfs)); [lia|].
      exists orig. split; auto. split; auto. lia.
    - cbn [gof_loop]. rewrite map_length.
      destruct (Nat.ltb_spec (List.length orig) (List.length vfs)) as [Lt|Ge].
      + destruct (gof_pass_inv vfs (incl_refl _) orig G) as (G' & I & P).
        destruct (next_assignable orig G Lt) as (v & f & Hin & Nv & Ho).
        specialize (P v f Hin Ho). apply IH; auto.
        assert (X : (S (List.length orig) <= List.length (gof_pass orig (map snd vfs)))%nat); [|lia].
        assert (ND : NoDup (v :: dkeys orig)) by (constructor; auto; apply ginv_NoDup; auto).
        assert (I' : incl (v :: dkeys orig) (dkeys (gof_pass orig (map snd vfs)))).
        { intros x [<-|Hx]; auto. }
        apply (NoDup_incl_length ND) in I'. cbn [List.length] in I'. unfold dkeys in I'. rewrite !map_length in I'.
        exact I'.
      + pose proof (ginv_length orig G). exists orig. split; auto. split; auto. lia.
  Qed.

  Lemma gof_ok : exists out, get_original_factors (map snd vfs) = Ok out /\ ginv out /\ Permutation out vfs.
  Proof.
    destruct (gof_loop_ok (List.length (map snd vfs)) [] gi_nil) as (out & E & G & L).
    - rewrite map_length. cbn. lia.
    - exists out. split; auto. split; auto. apply NoDup_Permutation_bis.
      + apply (NoDup_map_inv fst). apply (ginv_NoDup out G).
      + lia.
      + intros [v f] H. eapply ginv_In; eauto.
  Qed.

  Lemma name_inj v f u g : In (v, f) vfs -> In (u, g) vfs -> fname f = fname g -> v = u.
  Proof.
    intros H1 H2 E. pose proof (gf_names vfs GF) as ND.
    assert (X : (v, f) = (u, g)); [|congruence].
    clear -H1 H2 E ND. induction vfs as [|x l IH]; [destruct H1|].
    cbn [map] in ND. inversion ND as [|? ? Nx ND']; subst.
    destruct H1 as [->|H1], H2 as [->|H2]; auto.
    - exfalso. apply Nx. cbn [snd]. rewrite E. apply in_map_iff. exists (u, g); auto.
    - exfalso. apply Nx. cbn [snd]. rewrite <- E. apply in_map_iff. exists (v, f); auto.
  Qed.

  Lemma node_parents_ok out v f : ginv out -> Permutation out vfs -> In (v, f) vfs ->
    node_parents out f = Ok (other_args v f).
  Proof.
    intros G P Hin. unfold node_parents.
    set (own := fun a => match dget String.eqb out a with Some g => g | None => f end).
    assert (Hown : forall a, In a (fargs f) -> dget String.eqb out a = Some (own a) /\ In (a, own a) vfs).
    { intros a Ha. unfold own. apply (gf_known vfs GF v f Hin) in Ha.
      assert (Hk : In a (dkeys out)).
      { unfold dkeys. eapply Permutation_in; [|exact Ha]. apply Permutation_map. symmetry; auto. }
      apply (dget_key_Some _ String.eqb_spec) in Hk as (g & Hg).
      change (var) with string in *. rewrite Hg. split; auto. apply (dget_In _ String.eqb_spec) in Hg.
      eapply Permutation_in; eauto. }
    rewrite (mapM_ok_intro _ _ (fun a => (a, own a))).
    2:{ intros a Ha. destruct (Hown a Ha) as [E _].
        change var with string in *. rewrite E. auto. }
    cbn [bind]. f_equal. unfold other_args.
    assert (X : forall l, incl l (fargs f) ->
      map fst (filter (fun p => negb (String.eqb (fname (snd p)) (fname f))) (map (fun a => (a, own a)) l))
      = filter (fun a => negb (String.eqb a v)) l).
    { induction l as [|a l IH]; intros I; auto. cbn [map filter snd].
      destruct (Hown a (I a (or_introl eq_refl))) as [_ Hv].
      assert (Q : String.eqb (fname (own a)) (fname f) = String.eqb a v).
      { destruct (String.eqb_spec a v) as [->|N].
        - rewrite (owner_unique v (own v) f) by auto. apply String.eqb_refl.
        - apply String.eqb_neq. intros E. apply N. eapply name_inj; eauto. }
      rewrite Q. destruct (String.eqb a v); cbn [negb map fst]; rewrite IH; auto;
        intros x Hx; apply I; right; auto. }
    apply X, incl_refl.
  Qed.

  Theorem build_bbn_ok doms : exists b, build_bbn (map snd vfs) doms = Ok b /\ bdomains b = doms /\
    Permutation (map (fun n => (nvar n, nfac n)) (bnodes b)) vfs /\
    (forall n, In n (bnodes b) -> nparents n = other_args (nvar n) (nfac n)) /\
    topo (bnodes b).
  Proof.
    unfold build_bbn. rewrite factor_nodes_id by (rewrite map_map; apply gf_names; auto).
    destruct gof_ok as (out & E & G & P). rewrite E. cbn [bind].
    set (mk := fun vf : var * factor => mkNode (fst vf) (snd vf) (other_args (fst vf) (snd vf))).
    rewrite (mapM_ok_intro _ _ mk).
    2:{ intros [v f] Hin. cbn [fst snd]. rewrite (node_parents_ok out v f); auto.
        apply (ginv_In out); auto. }
    cbn [bind]. eexists. split; [reflexivity|]. cbn [bdomains bnodes]. split; auto. split; [|split].
    - rewrite map_map. cbn [mk nvar nfac].
      rewrite (map_ext (fun x : var * factor => (nvar (mk x), nfac (mk x))) (fun x => x)); [rewrite map_id; auto|].
      intros [v f]; auto.
    - intros n Hn. apply in_map_iff in Hn as ([v f] & <- & _). reflexivity.
    - clear E P. induction G as [|orig v f G IH Hin N I]; [constructor|].
      rewrite map_app. cbn [map]. constructor; auto.
      + rewrite map_map. cbn [mk nvar fst]. exact N.
      + cbn [mk nparents fst snd]. apply NoDup_filter. eapply gf_nodup; eauto.
      + cbn [mk nparents fst snd]. rewrite map_map. exact I.
  Qed.
End Gof.

(** ** Connectedness of the undirected graph *)
Definition weakly_connected {A} (nodes : list A) (es : list (A * A)) : Prop :=
  forall x y, In x nodes -> In y nodes ->
    clos_refl_trans A (fun u v => In (u, v) es \/ In (v, u) es) x y.

Lemma build_connected vfs b : good_factors vfs ->
  Permutation (map (fun n => (nvar n, nfac n)) (bnodes b)) vfs ->
  (forall n, In n (bnodes b) -> nparents n = other_args (nvar n) (nfac n)) ->
  weakly_connected (map fst vfs) (arrows vfs) -> connected (bnodes b).
Proof.
  intros GF P Hp W x y Hx Hy.
  assert (K : forall v, In v (map nvar (bnodes b)) <-> In v (map fst vfs)).
  { intros v. assert (Q : Permutation (map nvar (bnodes b)) (map fst vfs)).
    { rewrite <- P. rewrite map_map. cbn [fst]. apply Permutation_refl. }
    split; apply Permutation_in; auto. symmetry; auto. }
  apply K in Hx, Hy. specialize (W x y Hx Hy). clear Hx Hy.
  apply clos_rt_rt1n. induction W as [u v H|u|u v w _ IH1 _ IH2].
  - apply rt_step.
    assert (A : forall p c, In (p, c) (arrows vfs) -> linked (bnodes b) p c /\ linked (bnodes b) c p).
    { intros p c Ha. apply arrows_In in Ha as (f & Hf & Ho).
      apply (Permutation_in _ (Permutation_sym P)) in Hf. apply in_map_iff in Hf as (n & E & Hn).
      injection E as E1 E2. subst c f. rewrite <- (Hp n Hn) in Ho.
      split; exists n; (split; [auto|]); split; try (left; reflexivity); right; auto. }
    destruct H as [H|H]; apply A in H; tauto.
  - apply rt_refl.
  - eapply rt_trans; eauto.
Qed.

(** ** A network of conditional distributions has total mass 1 *)
Section Mass.
  Variable b : bbn.
  Hypothesis WF : wf_bbn b.
  Let dom := vdom b.

  (** The columns of every node's table sum to one. *)
  Definition stochastic : Prop := forall n a, In n (bnodes b) ->
    (forall p, In p (nparents n) -> In (a p) (domain_of b p)) ->
    Qsum (fun x => pval n (upd a (nvar n) x)) (domain_of b (nvar n)) = 1.

  Hypothesis ST : stochastic.

  Lemma pval_dep n : In n (bnodes b) -> dep (family n) (pval n).
  Proof.
    intros Hn a c E. unfold pval. replace (map a (fargs (nfac n))) with (map c (fargs (nfac n))); auto.
    apply map_ext_in. intros v Hv. symmetry. apply E. apply (wf_args b WF n v Hn); auto.
  Qed.

  Lemma mass_prefix ns : topo ns -> incl ns (bnodes b) -> forall a,
    sumover dom (map nvar ns) (fun a => Qprod (fun n => pval n a) ns) a = 1.
  Proof.
    induction 1 as [|ns n H IH N1 N2 I]; intros Inc a.
    - reflexivity.
    - rewrite map_app. cbn [map]. rewrite sumover_app.
      assert (Hn : In n (bnodes b)) by (apply Inc, in_app_iff; right; left; auto).
      assert (Inc' : incl ns (bnodes b)) by (intros x Hx; apply Inc, in_app_iff; auto).
      rewrite <- (IH Inc' a). apply sumover_ext. intros c _ Hd.
      cbn [sumover].
      assert (D : dep (map nvar ns) (fun a => Qprod (fun n => pval n a) ns)).
      { apply dep_prod. intros m Hm. apply (dep_incl (family m)); [|apply pval_dep; auto].
        intros v Hv. apply (proj2 (topo_family ns m H Hm) v Hv). }
      transitivity (Qsum (fun x => Qprod (fun n => pval n c) ns * pval n (upd c (nvar n) x)) (dom (nvar n))).
      + apply Qsum_ext. intros x _. rewrite Qprod_app.
        rewrite (D (upd c (nvar n) x) c).
        * cbn [Qprod fold_right map]. unfold Qprod. cbn [fold_right map]. ring.
        * intros v Hv. apply upd_other. intros ->. auto.
      + rewrite Qsum_mul_l. unfold dom.
        assert (Hnv : In (nvar n) (map nvar (bnodes b))) by (apply in_map; auto).
        rewrite (dom_node b (nvar n) Hnv).
        rewrite ST; [ring|auto|]. intros p Hp.
        specialize (I p Hp). specialize (Hd p I). unfold dom in Hd. rewrite (dom_node b p) in Hd; auto.
        apply in_map_iff in I as (m & <- & Hm). apply in_map; auto.
  Qed.

  Lemma total_mass : total b (fun _ => true) = 1.
  Proof.
    transitivity (total b (matches [])); [reflexivity|].
    rewrite (total_matches b WF []); [|constructor|intros v []].
    rewrite <- (mass_prefix (bnodes b) (wf_topo b WF) (incl_refl _) (d0 b)).
    apply sumover_ext. intros c _ _. unfold jointf. apply Qprod_ext. intros n _.
    unfold wval, evid. cbn [dget]. ring.
  Qed.
End Mass.
