(** * BbnTables: the truth tables of the join tree represent functions of assignments. *)
From Coq Require Import List Bool Arith Lia String QArith Qcanon Permutation.
From Verif Require Import Base QcX BbnModel SumOver.
Import ListNotations.
Local Open Scope Qc_scope.
Local Open Scope list_scope.

Lemma pair_eqb_spec (x y : var * value) : reflect (x = y) (pair_eqb x y).
Proof.
  destruct x as [a b], y as [c d]. unfold pair_eqb; cbn [fst snd].
  destruct (String.eqb_spec a c) as [->|N]; [|constructor; congruence].
  destruct (label_eqb_spec b d) as [->|N]; constructor; congruence.
Qed.

Lemma key_eqb_spec (x y : key) : reflect (x = y) (key_eqb x y).
Proof.
  revert y. induction x as [|a x IH]; intros [|b y]; cbn [key_eqb]; try (constructor; congruence).
  destruct (pair_eqb_spec a b) as [->|N]; cbn [andb]; [|constructor; congruence].
  destruct (IH y) as [->|N]; constructor; congruence.
Qed.

Definition key_of (vs : list var) (a : assign) : key := map (fun v => (v, a v)) vs.

(** The assignment that follows [k] where it is defined and [a] elsewhere. *)
Definition ov (k : key) (a : assign) : assign :=
  fun v => match dget String.eqb k v with Some x => x | None => a v end.

Lemma ov_key_of vs a b v : In v vs -> ov (key_of vs a) b v = a v.
Proof.
  unfold ov. intros H. induction vs as [|w vs IH]; [destruct H|].
  cbn [key_of map dget]. destruct (String.eqb_spec v w) as [->|N]; auto.
  apply IH. destruct H; congruence.
Qed.

Lemma ov_key_of_out vs a b v : ~ In v vs -> ov (key_of vs a) b v = b v.
Proof.
  unfold ov. intros H. induction vs as [|w vs IH]; auto.
  cbn [key_of map dget]. destruct (String.eqb_spec v w) as [->|N]; [exfalso; apply H; left; auto|].
  apply IH. intros ?; apply H; right; auto.
Qed.

Lemma key_of_ext vs a b : (forall v, In v vs -> a v = b v) -> key_of vs a = key_of vs b.
Proof. intros H. apply map_ext_in. intros v Hv. rewrite H; auto. Qed.

Lemma key_of_inj vs a b : key_of vs a = key_of vs b -> forall v, In v vs -> a v = b v.
Proof.
  induction vs as [|w vs IH]; simpl; [tauto|]. intros [= E1 E2] v [<-|H]; auto.
Qed.

Definition agree (vs : list var) (c a : assign) : bool := forallb (fun v => label_eqb (c v) (a v)) vs.

Lemma agree_true vs c a : agree vs c a = true <-> forall v, In v vs -> c v = a v.
Proof.
  unfold agree. rewrite forallb_forall. split; intros H v Hv.
  - specialize (H v Hv). destruct (label_eqb_spec (c v) (a v)); auto. discriminate.
  - rewrite H by auto. destruct (label_eqb_spec (a v) (a v)); auto.
Qed.

Lemma key_eqb_agree vs c a : key_eqb (key_of vs c) (key_of vs a) = agree vs c a.
Proof.
  destruct (key_eqb_spec (key_of vs c) (key_of vs a)) as [E|N].
  - symmetry. apply agree_true. apply key_of_inj; auto.
  - destruct (agree vs c a) eqn:E; auto. exfalso. apply N. apply key_of_ext. apply agree_true; auto.
Qed.

Lemma agree_congr vs ws c a : (forall v, In v vs <-> In v ws) -> agree vs c a = agree ws c a.
Proof.
  intros H. destruct (agree vs c a) eqn:E1, (agree ws c a) eqn:E2; auto; exfalso.
  - assert (agree ws c a = true); [|congruence]. apply agree_true. intros v Hv.
    apply (proj1 (agree_true _ _ _) E1), H; auto.
  - assert (agree vs c a = true); [|congruence]. apply agree_true. intros v Hv.
    apply (proj1 (agree_true _ _ _) E2), H; auto.
Qed.

Lemma sumover_zero dom vs a : sumover dom vs (fun _ => 0) a = 0.
Proof. revert a. induction vs as [|v vs IH]; simpl; intros a; auto. apply Qsum_all_zero. auto. Qed.

Definition ovr (vs : list var) (a d : assign) : assign := fun v => if smem v vs then a v else d v.

(** Summing over [vs] with the values pinned to those of [a]. *)
Lemma sumover_pin dom vs f a d : NoDup vs -> ext f ->
  (forall v, In v vs -> In (a v) (dom v) /\ NoDup (dom v)) ->
  sumover dom vs (fun c => if agree vs c a then f c else 0) d = f (ovr vs a d).
Proof.
  intros ND E. revert f d E. induction vs as [|v vs IH]; intros f d E Hd; [simpl; apply E; reflexivity|].
  inversion ND as [|? ? Nv ND']; subst. cbn [sumover].
  destruct (Hd v (or_introl eq_refl)) as [Ha NDv].
  rewrite (Qsum_ext _ (fun x => if label_eqb x (a v)
             then sumover dom vs (fun c => if agree vs c a then f c else 0) (upd d v x) else 0)).
  - rewrite (Qsum_single _ _ (a v)); auto.
    + destruct (label_eqb_spec (a v) (a v)) as [_|N]; [|congruence].
      rewrite IH; auto; [|intros w Hw; apply Hd; right; auto].
      apply E. intros w. unfold ovr, upd. cbn [smem].
      change (smem w (v :: vs)) with (String.eqb w v || smem w vs)%bool.
      destruct (String.eqb_spec w v) as [->|Nw]; simpl; auto.
      destruct (smem v vs) eqn:S; auto.
    + intros y _ Ny. destruct (label_eqb_spec y (a v)); [congruence|auto].
  - intros x Hx. destruct (label_eqb_spec x (a v)) as [->|N].
    + apply sumover_ext. intros b Hb _. cbn [agree forallb].
      rewrite (Hb v Nv), upd_same. destruct (label_eqb_spec (a v) (a v)); [|congruence]. auto.
    + rewrite (sumover_ext dom vs _ (fun _ => 0)); [apply sumover_zero|].
      intros b Hb _. cbn [agree forallb]. rewrite (Hb v Nv), upd_same.
      destruct (label_eqb_spec x (a v)); [congruence|]. auto.
Qed.

Section Tables.
  Variable dom : var -> list value.

  Definition keysD (vs : list var) : list key := cart (map (fun v => map (pair v) (dom v)) vs).

  Lemma keysD_In vs k : In k (keysD vs) -> forall d, (forall v, In (d v) (dom v)) ->
    NoDup vs -> k = key_of vs (ov k d) /\ (forall v, In (ov k d v) (dom v)) /\ map fst k = vs.
  Proof.
    intros H. unfold keysD in H. apply cart_In in H. revert k H. induction vs as [|v vs IH]; intros k H d Hd ND; simpl in H.
    - inversion H; subst. split; auto. 
    - inversion H as [|e l k' ls He H']; subst. inversion ND as [|? ? Nv ND']; subst.
      apply in_map_iff in He as (x & <- & Hx). destruct (IH k' H' d Hd ND') as (E1 & E2 & E3).
      split; [|split].
      + cbn [key_of map]. f_equal.
        * unfold ov. cbn [dget]. rewrite String.eqb_refl. auto.
        * rewrite E1 at 1. apply key_of_ext. intros w Hw. unfold ov at 2. cbn [dget].
          destruct (String.eqb_spec w v); [subst; contradiction|]. reflexivity.
      + intros w. unfold ov. cbn [dget]. destruct (String.eqb_spec w v) as [->|N]; auto. apply E2.
      + simpl. rewrite E3; auto.
  Qed.

  Lemma key_of_In vs a : (forall v, In v vs -> In (a v) (dom v)) -> In (key_of vs a) (keysD vs).
  Proof.
    intros H. unfold keysD. apply cart_In. induction vs as [|v vs IH]; simpl; constructor.
    - apply in_map, H. left; auto.
    - apply IH. intros w Hw. apply H. right; auto.
  Qed.

  Lemma ov_cons v x k a : forall w, ov ((v, x) :: k) a w = upd (ov k a) v x w.
  Proof. intros w. unfold ov, upd. cbn [dget]. destruct (String.eqb w v); reflexivity. Qed.

  Lemma sum_keys vs f a : NoDup vs -> ext f ->
    Qsum (fun k => f (ov k a)) (keysD vs) = sumover dom vs f a.
  Proof.
    intros ND E. revert a. induction vs as [|v vs IH]; intros a.
    - unfold keysD. simpl. rewrite (E (ov [] a) a); [ring|]. intros; reflexivity.
    - inversion ND as [|? ? Nv ND']; subst. unfold keysD. cbn [map cart sumover].
      rewrite Qsum_flat_map, Qsum_map. apply Qsum_ext. intros x Hx.
      rewrite Qsum_map. fold (keysD vs). rewrite <- IH by auto. apply Qsum_ext. intros k Hk.
      apply E. intros w. rewrite ov_cons. unfold upd, ov.
      destruct (String.eqb_spec w v) as [->|N]; auto.
      destruct (dget String.eqb k v) eqn:G; auto. exfalso. apply Nv.
      apply (dget_Some_key _ String.eqb_spec) in G.
      unfold keysD in Hk. apply cart_In in Hk.
      clear -Hk G. revert k Hk G. induction vs as [|u vs IHv]; intros k Hk G.
      + inversion Hk; subst. destruct G.
      + inversion Hk as [|e l k' ls He Hk']; subst. apply in_map_iff in He as (y & <- & _).
        simpl in G. destruct G as [->|G]; [left; auto|right; eauto].
  Qed.

  Lemma keysD_NoDup vs : (forall v, In v vs -> NoDup (dom v)) -> NoDup (keysD vs).
  Proof.
    intros H. unfold keysD. induction vs as [|v vs IH]; simpl; [repeat constructor; auto|].
    assert (IH' : NoDup (cart (map (fun v => map (pair v) (dom v)) vs))).
    { apply IH. intros w Hw. apply H; right; auto. }
    assert (NDv : NoDup (dom v)) by (apply H; left; auto). clear IH H.
    induction (dom v) as [|x xs IHx]; simpl; [constructor|]. inversion NDv; subst.
    rewrite map_cons || idtac.
    assert (N1 : NoDup (map (cons (v, x)) (cart (map (fun v => map (pair v) (dom v)) vs)))).
    { apply FinFun.Injective_map_NoDup; auto. intros p q [= ->]; auto. }
    assert (Hd : forall p, In p (map (cons (v, x)) (cart (map (fun v => map (pair v) (dom v)) vs))) ->
       ~ In p (flat_map (fun x => map (cons x) (cart (map (fun v => map (pair v) (dom v)) vs))) (map (pair v) xs))).
    { intros p Hp Hq. apply in_map_iff in Hp as (r & <- & _). apply in_flat_map in Hq as (y & Hy & Hq).
      apply in_map_iff in Hq as (s & [= Ey _] & _). apply in_map_iff in Hy as (z & Ez & Hz). congruence. }
    specialize (IHx H2). revert N1 Hd IHx.
    generalize (flat_map (fun x => map (cons x) (cart (map (fun v => map (pair v) (dom v)) vs))) (map (pair v) xs)).
    generalize (map (cons (v, x)) (cart (map (fun v => map (pair v) (dom v)) vs))).
    clear. intros l1 l2 N1 Hd N2. induction l1 as [|p l1 IH]; simpl; auto. inversion N1; subst.
    constructor.
    - rewrite in_app_iff. intros [?|?]; auto. apply (Hd p); auto. left; auto.
    - apply IH; auto. intros q Hq. apply Hd. right; auto.
  Qed.

  (** ** transform *)
  Lemma index_of_key v X a : In v X -> exists i, index_of v X = Some i /\ nth_error (key_of X a) i = Some (v, a v).
  Proof.
    induction X as [|w X IH]; [intros []|]. intros H. cbn [index_of]. destruct (String.eqb_spec w v) as [->|N].
    - exists O. split; auto.
    - destruct H as [H|H]; [congruence|]. destruct (IH H) as (i & E1 & E2). exists (S i). rewrite E1. split; auto.
  Qed.

  Lemma transform_ok X R a : incl R X -> transform (key_of X a) X R = Ok (key_of R a).
  Proof.
    intros I. unfold transform. rewrite (mapM_ok_intro _ R (fun v => (v, a v))); auto.
    intros v Hv. destruct (index_of_key v X a (I v Hv)) as (i & -> & ->). auto.
  Qed.

  (** ** project *)
  Definition ctab (X : list var) (f : assign -> Qc) (d : assign) : table :=
    map (fun k => (k, f (ov k d))) (keysD X).

  Definition hits (tr : key -> key) (e : key) (t : table) : Qc :=
    Qsum (fun kv => if key_eqb (tr (fst kv)) e then snd kv else 0) t.

  Lemma tget0_tt_add t k v e : tget0 (tt_add t k v) e = tget0 t e + (if key_eqb k e then v else 0).
  Proof.
    unfold tget0, tt_add. rewrite (dget_dset _ key_eqb_spec).
    destruct (key_eqb_spec e k) as [->|N].
    - destruct (key_eqb_spec k k); [|congruence]. destruct (dget key_eqb t k); ring.
    - destruct (key_eqb_spec k e); [congruence|]. ring.
  Qed.

  Lemma project_gen X R (tr : key -> key) t acc :
    (forall kv, In kv t -> transform (fst kv) X R = Ok (tr (fst kv))) ->
    NoDup (dkeys acc) ->
    exists t', foldM (fun acc kv => do e <- transform (fst kv) X R; Ok (tt_add acc e (snd kv))) t acc = Ok t' /\
      NoDup (dkeys t') /\
      (forall e, tget0 t' e = tget0 acc e + hits tr e t) /\
      (forall e, In e (dkeys t') <-> In e (dkeys acc) \/ exists kv, In kv t /\ tr (fst kv) = e).
  Proof.
    revert acc. induction t as [|kv t IH]; intros acc Ht ND.
    - exists acc. split; auto. split; auto. split.
      + intros e. unfold hits. simpl. ring.
      + intros e. split; auto. intros [?|(kv & [] & _)]; auto.
    - cbn [foldM]. rewrite (Ht kv (or_introl eq_refl)). cbn [bind].
      destruct (IH (tt_add acc (tr (fst kv)) (snd kv))) as (t' & E & ND' & G1 & G2).
      + intros kv' H. apply Ht. right; auto.
      + apply (dset_NoDup _ key_eqb_spec); auto.
      + exists t'. split; auto. split; auto. split.
        * intros e. rewrite G1, tget0_tt_add. unfold hits. simpl. ring.
        * intros e. rewrite G2. unfold tt_add. rewrite (dkeys_dset_In _ key_eqb_spec). split.
          -- intros [[->|?]|(kv' & ? & ?)]; eauto.
             ++ right. exists kv. split; auto. left; auto.
             ++ right. exists kv'. split; auto. right; auto.
          -- intros [?|(kv' & [<-|?] & <-)]; eauto.
  Qed.

  Variable d : assign.
  Hypothesis Hd : forall v, In (d v) (dom v).

  Lemma sum_project X R f a : NoDup X -> incl R X -> dep X f ->
    (forall v, In v X -> In (a v) (dom v) /\ NoDup (dom v)) ->
    hits (fun k => key_of R (ov k d)) (key_of R a) (ctab X f d)
    = sumover dom (filter (fun x => negb (smem x R)) X) f a.
  Proof.
    intros ND I D Ha. unfold hits, ctab. rewrite Qsum_map. cbn [fst snd].
    rewrite (Qsum_ext _ (fun k => (fun c => if agree R c a then f c else 0) (ov k d))).
    2:{ intros k _. rewrite key_eqb_agree. reflexivity. }
    pose proof (dep_ext _ _ D) as Ef.
    assert (Ep : ext (fun c => if agree R c a then f c else 0)).
    { intros b c E. rewrite (Ef b c E). replace (agree R b a) with (agree R c a); auto.
      unfold agree. clear -E. induction R; simpl; auto. rewrite E, IHR; auto. }
    rewrite (sum_keys X (fun c => if agree R c a then f c else 0)) by auto.
    set (XR := filter (fun x => smem x R) X). set (D' := filter (fun x => negb (smem x R)) X).
    assert (P : Permutation X (XR ++ D')).
    { unfold XR, D'. clear. induction X as [|x X IH]; simpl; auto.
      destruct (smem x R); simpl.
      - constructor; auto.
      - apply Permutation_cons_app; auto. }
    rewrite (sumover_perm dom X (XR ++ D') _ d Ep P), sumover_app.
    assert (HXR : forall v, In v XR <-> In v R).
    { intros v. unfold XR. rewrite filter_In, smem_In. split; [tauto|]. auto. }
    assert (HD : forall v, In v D' <-> In v X /\ ~ In v R).
    { intros v. unfold D'. rewrite filter_In, negb_true_iff, smem_false. tauto. }
    rewrite (sumover_ext dom XR _ (fun c => if agree XR c a then sumover dom D' f c else 0)).
    - etransitivity; [apply (sumover_pin dom XR (sumover dom D' f) a d)|].
      + apply NoDup_filter; auto.
      + apply sumover_ext_fun; auto.
      + intros v Hv. apply Ha. apply I, HXR; auto.
      + apply (sumover_agree dom D' f X); auto. intros v Hv Nv. unfold ovr.
        destruct (smem v XR) eqn:S; auto. apply smem_false in S. exfalso. apply Nv, HD. split; auto.
        rewrite <- HXR; auto.
    - intros c _ _. rewrite <- (agree_congr R XR c a) by (intros v; rewrite HXR; tauto).
      destruct (agree R c a) eqn:Ag.
      + apply sumover_ext. intros b Hb _. replace (agree R b a) with true; auto. symmetry.
        apply agree_true. intros v Hv. rewrite Hb by (rewrite HD; tauto). apply (proj1 (agree_true _ _ _) Ag); auto.
      + rewrite (sumover_ext dom D' _ (fun _ => 0)); [apply sumover_zero|].
        intros b Hb _. replace (agree R b a) with false; auto. symmetry.
        destruct (agree R b a) eqn:Ag2; auto. rewrite <- Ag. symmetry. apply agree_true. intros v Hv.
        rewrite <- Hb by (rewrite HD; tauto). apply (proj1 (agree_true _ _ _) Ag2); auto.
  Qed.

  Definition rep (R : list var) (t : table) (g : assign -> Qc) : Prop :=
    forall a, (forall v, In (a v) (dom v)) -> dget key_eqb t (key_of R a) = Some (g a).

  Theorem project_ok X R f : NoDup X -> incl R X -> dep X f -> (forall v, In v X -> NoDup (dom v)) ->
    exists t', project_table (ctab X f d) X R = Ok t' /\ NoDup (dkeys t') /\
      rep R t' (sumover dom (filter (fun x => negb (smem x R)) X) f) /\
      (forall e, In e (dkeys t') <-> exists a, (forall v, In (a v) (dom v)) /\ e = key_of R a).
  Proof.
    intros ND I D NDd.
    destruct (project_gen X R (fun k => key_of R (ov k d)) (ctab X f d) []) as (t' & E & ND' & G1 & G2).
    - intros kv H. apply in_map_iff in H as (k & <- & Hk). cbn [fst].
      destruct (keysD_In X k Hk d Hd ND) as (E & _). rewrite E at 1. apply transform_ok; auto.
    - constructor.
    - exists t'. split; [exact E|]. split; auto.
      assert (K : forall a, (forall v, In (a v) (dom v)) -> In (key_of R a) (dkeys t')).
      { intros a Ha. apply G2. right. exists (key_of X a, f (ov (key_of X a) d)). split.
        - apply in_map_iff. exists (key_of X a). split; auto. apply key_of_In; auto.
        - cbn [fst]. apply key_of_ext. intros v Hv. apply ov_key_of; auto. }
      split.
      + intros a Ha. destruct (dget_key_Some _ key_eqb_spec _ _ (K a Ha)) as (w & Ew).
        rewrite Ew. f_equal. rewrite <- (sum_project X R f a) by auto.
        specialize (G1 (key_of R a)). unfold tget0 in G1. rewrite Ew in G1. simpl in G1. rewrite G1. ring.
      + intros e. split.
        * intros H. apply G2 in H as [[]|(kv & Hkv & <-)].
          apply in_map_iff in Hkv as (k & <- & Hk). cbn [fst].
          destruct (keysD_In X k Hk d Hd ND) as (_ & V & _). eauto.
        * intros (a & Ha & ->). auto.
  Qed.

  Theorem absorb_ok X R f new old g' g : NoDup X -> incl R X ->
    rep R new g' -> rep R old g ->
    (forall a, (forall v, In (a v) (dom v)) -> g a = 0 -> f a = 0) ->
    absorb_table (ctab X f d) new old X R = Ok (ctab X (fun a => f a * (g' a / g a)) d).
  Proof.
    intros ND I Rn Ro S. unfold absorb_table, ctab.
    rewrite (mapM_ok_intro _ _ (fun kv : key * Qc => (fst kv, (fun a => f a * (g' a / g a)) (ov (fst kv) d)))).
    - rewrite map_map. auto.
    - intros kv H. apply in_map_iff in H as (k & <- & Hk). cbn [fst snd]. unfold absorb_entry. cbn [fst snd].
      destruct (keysD_In X k Hk d Hd ND) as (E & V & _). rewrite E at 1. rewrite transform_ok by auto. cbn [bind].
      destruct (Qc_eq_bool_spec (f (ov k d)) 0) as [Z|Nz].
      + rewrite Z. do 2 f_equal. ring.
      + rewrite (Ro _ V). destruct (Qc_eq_bool_spec (g (ov k d)) 0) as [Zg|Ng]; [exfalso; auto|].
        unfold tget0. rewrite (Rn _ V). auto.
  Qed.
End Tables.
