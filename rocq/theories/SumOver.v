(** * SumOver: sums over the values of a list of variables.

    Proof-side notion: assignments are total functions from variables to values, and
    [sumover dom vs f a] sums [f] over all ways to change [a] on [vs] within the domains. *)
From Coq Require Import List Bool Arith Lia String QArith Qcanon Permutation.
From Verif Require Import Base QcX BbnModel.
Import ListNotations.
Local Open Scope Qc_scope.

Definition assign := var -> value.

Definition upd (a : assign) (v : var) (x : value) : assign :=
  fun w => if String.eqb w v then x else a w.

Lemma upd_same a v x : upd a v x v = x.
Proof. unfold upd. rewrite String.eqb_refl; auto. Qed.

Lemma upd_other a v x w : w <> v -> upd a v x w = a w.
Proof. intros H. unfold upd. apply String.eqb_neq in H. rewrite H; auto. Qed.

Section SumOver.
  Variable dom : var -> list value.

  Fixpoint sumover (vs : list var) (f : assign -> Qc) (a : assign) : Qc :=
    match vs with
    | [] => f a
    | v :: vs' => Qsum (fun x => sumover vs' f (upd a v x)) (dom v)
    end.

  (** [f] only looks at the variables [ws]. *)
  Definition dep (ws : list var) (f : assign -> Qc) : Prop :=
    forall a b, (forall v, In v ws -> a v = b v) -> f a = f b.

  Definition ext (f : assign -> Qc) : Prop :=
    forall a b, (forall v, a v = b v) -> f a = f b.

  Lemma dep_ext ws f : dep ws f -> ext f.
  Proof. intros H a b E. apply H. auto. Qed.

  Lemma dep_incl ws ws' f : incl ws ws' -> dep ws f -> dep ws' f.
  Proof. intros I H a b E. apply H. auto. Qed.

  Lemma dep_mul ws f g : dep ws f -> dep ws g -> dep ws (fun a => f a * g a).
  Proof. intros Hf Hg a b E. rewrite (Hf a b), (Hg a b); auto. Qed.

  Lemma dep_prod {A} ws (f : A -> assign -> Qc) l :
    (forall x, In x l -> dep ws (f x)) -> dep ws (fun a => Qprod (fun x => f x a) l).
  Proof. intros H a b E. apply Qprod_ext. intros x Hx. apply H; auto. Qed.

  (** Summing does not look at the summed variables. *)
  Lemma sumover_agree vs f ws a b :
    dep ws f -> (forall v, In v ws -> ~ In v vs -> a v = b v) -> sumover vs f a = sumover vs f b.
  Proof.
    revert a b. induction vs as [|v vs IH]; simpl; intros a b D E.
    - apply D. intros; apply E; auto.
    - apply Qsum_ext. intros x _. apply IH; auto. intros w Hw N.
      unfold upd. destruct (String.eqb_spec w v); auto. apply E; auto. intros [->|?]; auto.
  Qed.

  Lemma sumover_dep vs f ws ws' :
    dep ws f -> (forall v, In v ws -> ~ In v vs -> In v ws') -> dep ws' (sumover vs f).
  Proof. intros D I a b E. eapply sumover_agree; eauto. Qed.

  Lemma sumover_ext_fun vs f : ext f -> ext (sumover vs f).
  Proof.
    revert f. induction vs as [|v vs IH]; simpl; intros f E a b H; auto.
    apply Qsum_ext. intros x _. apply IH; auto. intros w. unfold upd.
    destruct (String.eqb w v); auto.
  Qed.

  (** Pointwise equal functions (on assignments that differ from [a] on [vs] only, within the
      domains) have equal sums. *)
  Lemma sumover_ext vs f g a :
    (forall b, (forall v, ~ In v vs -> b v = a v) -> (forall v, In v vs -> In (b v) (dom v)) ->
               f b = g b) ->
    sumover vs f a = sumover vs g a.
  Proof.
    revert a. induction vs as [|v vs IH]; simpl; intros a H.
    - apply H; auto. intros v [].
    - apply Qsum_ext. intros x Hx. apply IH. intros b Hb Hd. apply H.
      + intros w N. rewrite Hb by tauto. apply upd_other. intros ->; tauto.
      + intros w [<-|Hw].
        * destruct (in_dec String.string_dec v vs); auto. rewrite Hb by auto. rewrite upd_same; auto.
        * auto.
  Qed.

  Lemma sumover_app vs ws f a : sumover (vs ++ ws) f a = sumover vs (sumover ws f) a.
  Proof. revert a. induction vs as [|v vs IH]; simpl; intros a; auto. apply Qsum_ext; auto. Qed.

  Lemma sumover_swap v w f a :
    ext f -> sumover [v; w] f a = sumover [w; v] f a.
  Proof.
    intros E. destruct (String.eqb_spec v w) as [->|N]; auto. simpl.
    rewrite Qsum_swap. apply Qsum_ext. intros y _. apply Qsum_ext. intros x _.
    apply E. intros u. unfold upd.
    destruct (String.eqb_spec u w), (String.eqb_spec u v); subst; auto; congruence.
  Qed.

  Lemma sumover_perm vs ws f a : ext f -> Permutation vs ws -> sumover vs f a = sumover ws f a.
  Proof.
    intros E P. revert a. induction P; intros a; simpl; auto.
    - apply Qsum_ext; auto.
    - pose proof (sumover_swap y x (sumover l f) a) as H. simpl in H. apply H.
      apply sumover_ext_fun; auto.
    - rewrite IHP1; auto.
  Qed.

  Lemma sumover_mul_l vs g f ws a :
    dep ws g -> (forall v, In v ws -> ~ In v vs) ->
    sumover vs (fun b => g b * f b) a = g a * sumover vs f a.
  Proof.
    revert a. induction vs as [|v vs IH]; simpl; intros a D N; auto.
    rewrite <- Qsum_mul_l. apply Qsum_ext. intros x _. rewrite IH; auto.
    - f_equal. apply D. intros w Hw. apply upd_other. intros ->. apply (N v); auto.
    - intros w Hw Hv. apply (N w); auto.
  Qed.

  Lemma sumover_mul_split vs ws f g wf wg a :
    dep wf f -> dep wg g ->
    (forall v, In v wf -> ~ In v ws) -> (forall v, In v wg -> ~ In v vs) ->
    sumover (vs ++ ws) (fun b => f b * g b) a = sumover vs f a * sumover ws g a.
  Proof.
    intros Df Dg Nf Ng. rewrite sumover_app.
    transitivity (sumover vs (fun b => sumover ws g b * f b) a).
    - apply sumover_ext. intros b _ _. rewrite (sumover_mul_l ws f g wf); auto. ring.
    - rewrite (sumover_mul_l vs (sumover ws g) f wg).
      + ring.
      + eapply sumover_dep; eauto.
      + auto.
  Qed.

  Lemma sumover_nonneg vs f a : (forall b, 0 <= f b) -> 0 <= sumover vs f a.
  Proof.
    intros H. revert a. induction vs as [|v vs IH]; simpl; intros a; auto.
    apply Qsum_nonneg. auto.
  Qed.

  Lemma sumover_nonneg_dom vs f a :
    (forall b, (forall v, ~ In v vs -> b v = a v) -> (forall v, In v vs -> In (b v) (dom v)) -> 0 <= f b) ->
    0 <= sumover vs f a.
  Proof.
    revert a. induction vs as [|v vs IH]; simpl; intros a H.
    - apply H; auto. intros v [].
    - apply Qsum_nonneg. intros x Hx. apply IH. intros b Hb Hd. apply H.
      + intros w N. rewrite Hb by tauto. apply upd_other. intros ->; tauto.
      + intros w [<-|Hw]; auto.
        destruct (in_dec String.string_dec v vs); auto. rewrite Hb by auto. rewrite upd_same; auto.
  Qed.

  (** A vanishing sum of non-negative terms has vanishing terms. *)
  Lemma sumover_zero_inv vs f a ws :
    dep ws f ->
    (forall b, (forall v, ~ In v vs -> b v = a v) -> (forall v, In v vs -> In (b v) (dom v)) -> 0 <= f b) ->
    sumover vs f a = 0 ->
    (forall v, In v vs -> In (a v) (dom v)) -> f a = 0.
  Proof.
    intros D. revert a. induction vs as [|v vs IH]; simpl; intros a Hn Hz Hd; auto.
    assert (E : sumover vs f (upd a v (a v)) = 0).
    { refine (Qsum_zero_inv (fun x => sumover vs f (upd a v x)) (dom v) _ Hz (a v) _); auto.
      intros x Hx. apply sumover_nonneg_dom. intros b Hb Hbd. apply Hn.
      - intros w N. rewrite Hb by tauto. apply upd_other. intros ->; tauto.
      - intros w [<-|Hw]; auto.
        destruct (in_dec String.string_dec v vs); auto. rewrite Hb by auto. rewrite upd_same; auto. }
    assert (U : forall w, upd a v (a v) w = a w).
    { intros w. unfold upd. destruct (String.eqb_spec w v); subst; auto. }
    rewrite <- (D (upd a v (a v)) a) by auto.
    apply IH; auto.
    - intros b Hb Hbd. apply Hn.
      + intros w N. rewrite Hb by tauto. apply U.
      + intros w [<-|Hw]; auto.
        destruct (in_dec String.string_dec v vs); auto. rewrite Hb by auto. rewrite U; auto.
    - intros w Hw. rewrite U; auto.
  Qed.
End SumOver.
