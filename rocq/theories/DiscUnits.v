(** * DiscUnits: the discretiser does not depend on units, on the order of the data or on earlier fits. *)
From Coq Require Import List Bool Arith ZArith Lia String QArith Qround Qcanon Lqa Permutation Sorting.Sorted.
From Verif Require Import Base QcX DiscModel DiscProofs DiscThms.
Import ListNotations.
Local Open Scope string_scope.
Local Open Scope list_scope.
Local Open Scope Qc_scope.

(** Fitting on [data] and then discretising [test]. *)
Definition fit_then (d : disc) (data test : list Qc) : res (list nat) :=
  do d' <- disc_fit d data; disc_transform d' test.

Section Units.
  Variables a c : Qc.
  Hypothesis A : 0 < a.
  Definition aff (x : Qc) : Qc := a * x + c.

  Lemma aff_le x y : Qcleb (aff x) (aff y) = Qcleb x y.
  Proof.
    apply eq_true_iff_eq. rewrite !Qcleb_iff. unfold aff. split; intros H.
    - destruct (Qclt_le_dec y x) as [L|L]; auto. exfalso.
      assert (0 < a * (x - y)). { rewrite <- (Qcmult_0_r a). rewrite (Qcmult_comm a 0), (Qcmult_comm a (x - y)). apply Qcmult_lt_compat_r; auto. apply Qclt_minus_iff in L. exact L. }
      apply Qcle_minus_iff in H. replace (a * y + c + - (a * x + c)) with (- (a * (x - y))) in H by ring.
      apply Qclt_not_le in H0. apply H0. apply Qcle_minus_iff. replace (0 + - (a * (x - y))) with (- (a * (x - y))) by ring. auto.
    - apply Qcplus_le_compat; [|apply Qcle_refl]. rewrite (Qcmult_comm a x), (Qcmult_comm a y). apply Qcmult_le_compat_r; auto. apply Qclt_le_weak; auto.
  Qed.

  Lemma insert_aff x l : insert_s Qcleb (aff x) (map aff l) = map aff (insert_s Qcleb x l).
  Proof. induction l as [|y l IH]; cbn; auto. rewrite aff_le. destruct (Qcleb x y); cbn; auto. rewrite IH. auto. Qed.
  Lemma sort_aff l : qsort (map aff l) = map aff (qsort l).
  Proof. unfold qsort. induction l as [|x l IH]; cbn; auto. rewrite IH. apply insert_aff. Qed.

  Lemma nth_aff i l : (i < List.length l)%nat -> nth i (map aff l) 0 = aff (nth i l 0).
  Proof. intros H. rewrite (nth_indep _ 0 (aff 0)) by (rewrite map_length; auto). apply map_nth. Qed.

  Lemma quantile_aff x q : x <> [] -> 0 <= q -> q <= 1 -> quantile1 (map aff x) q = aff (quantile1 x q).
  Proof.
    intros NE Q0 Q1. unfold quantile1. rewrite map_length.
    assert (L : (0 < List.length x)%nat) by (destruct x; [congruence|cbn; lia]).
    destruct (position_range (List.length x) q L Q0 Q1) as [P0 P1]. unfold position in *.
    set (h := q * Qc_of_Z (Z.of_nat (List.length x) - 1)) in *.
    assert (B : (Z.to_nat (Qfloor (this h)) < List.length x)%nat).
    { destruct (floor_spec h) as [F _]. assert (F1 := Qcle_trans _ _ _ F P1). apply of_Z_le_inv in F1. lia. }
    rewrite !nth_aff by lia. unfold aff. ring.
  Qed.

  Lemma np_quantile_aff x qs : np_quantile (map aff x) qs = do l <- np_quantile x qs; Ok (map aff l).
  Proof.
    unfold np_quantile. destruct x as [|y x]; [reflexivity|]. cbn [map]. destruct (forallb _ qs) eqn:F; cbn [negb bind]; [|reflexivity].
    f_equal. rewrite map_map. apply map_ext_in. intros q Hq. rewrite forallb_forall in F. specialize (F q Hq).
    apply andb_true_iff in F as [F0 F1]. rewrite Qcleb_iff in F0, F1. apply (quantile_aff (y :: x)); auto. discriminate.
  Qed.

  Lemma set_twice d l m : set_splits (set_splits d l) m = set_splits d m.
  Proof. reflexivity. Qed.

  (** The fitted split points move with the data. *)
  Lemma fit_aff d data :
    match disc_fit d data with
    | Ok d' => exists l, d' = set_splits d l /\ disc_fit d (map aff data) = Ok (set_splits d (map aff l))
    | Err x => disc_fit d (map aff data) = Err x
    end.
  Proof.
    unfold disc_fit. rewrite sort_aff.
    destruct (String.eqb (method d) "uniform").
    { destruct (num_buckets d) as [k|]; cbn [attr bind]; [|reflexivity].
      destruct (qsort data) as [|y x]; [reflexivity|]. cbn [np_max np_min map bind].
      eexists. split; [reflexivity|]. f_equal. f_equal. rewrite map_map. apply map_ext. intros n.
      change (aff y :: map aff x) with (map aff (y :: x)).
      assert (E : last (map aff (y :: x)) 0 = aff (last (y :: x) 0)).
      { rewrite <- !nd_last by discriminate. rewrite map_length. apply nth_aff. cbn. lia. }
      rewrite E. unfold aff, Qcdiv. ring. }
    destruct (String.eqb (method d) "quantile").
    { destruct (num_buckets d) as [k|]; cbn [attr bind]; [|reflexivity]. destruct (Z.eqb k 0); [reflexivity|].
      rewrite np_quantile_aff. destruct (np_quantile _ _) as [l|e]; cbn [bind]; [|reflexivity]. exists l. auto. }
    destruct (String.eqb (method d) "outlier").
    { destruct (outlier_percentile d) as [p|]; cbn [attr bind]; [|reflexivity].
      rewrite np_quantile_aff. destruct (np_quantile _ _) as [l|e]; cbn [bind]; [|reflexivity]. exists l. auto. }
    destruct (String.eqb (method d) "percentiles"); [|reflexivity].
    destruct (percentile_split_points d) as [ps|]; cbn [attr bind]; [|reflexivity]. unfold np_percentile.
    rewrite np_quantile_aff. destruct (np_quantile _ _) as [l|e]; cbn [bind]; [|reflexivity]. exists l. auto.
  Qed.

  Lemma search_aff l v : searchsorted_right (map aff l) (aff v) = searchsorted_right l v.
  Proof. induction l as [|x l IH]; cbn; auto. rewrite aff_le, IH. auto. Qed.
  Lemma monotone_aff le l : (forall x y, le (aff x) (aff y) = le x y) -> monotone le (map aff l) = monotone le l.
  Proof. intros H. induction l as [|x [|y l] IH]; cbn in *; auto. rewrite H, IH. auto. Qed.

  Lemma digitize_aff test l : digitize (map aff test) (map aff l) = digitize test l.
  Proof.
    unfold digitize. rewrite !monotone_aff; [|intros; apply aff_le|intros; apply aff_le].
    destruct (monotone Qcleb l). { f_equal. rewrite map_map. apply map_ext. intros v. apply search_aff. }
    destruct (monotone _ l); [|reflexivity]. f_equal. rewrite map_map. apply map_ext. intros v.
    rewrite map_length, <- map_rev, search_aff. auto.
  Qed.

  Theorem units d data test : fit_then d (map aff data) (map aff test) = fit_then d data test.
  Proof.
    unfold fit_then. pose proof (fit_aff d data) as F. destruct (disc_fit d data) as [d'|e].
    - destruct F as (l & -> & ->). cbn [bind]. unfold disc_transform. cbn [numeric_split_points set_splits]. apply digitize_aff.
    - rewrite F. reflexivity.
  Qed.
End Units.

Lemma sort_unique x y : Permutation x y -> nondecreasing x -> nondecreasing y -> x = y.
Proof.
  revert y. induction x as [|u x IH]; intros y P Sx Sy; [apply Permutation_nil in P; auto|].
  destruct y as [|v y]; [apply Permutation_sym, Permutation_nil in P; discriminate|].
  inversion Sx as [|? ? Sx' Fx]; subst. inversion Sy as [|? ? Sy' Fy]; subst.
  rewrite Forall_forall in Fx, Fy.
  assert (E : u = v).
  { assert (Hu : In u (v :: y)) by (apply (Permutation_in _ P); left; auto).
    assert (Hv : In v (u :: x)) by (apply (Permutation_in _ (Permutation_sym P)); left; auto).
    destruct Hu as [|Hu]; auto. destruct Hv as [|Hv]; auto. apply Qcle_antisym; auto. }
  subst v. f_equal. apply IH; auto. apply Permutation_cons_inv in P. auto.
Qed.

Theorem fit_order d data data' : Permutation data data' -> disc_fit d data = disc_fit d data'.
Proof.
  intros P. unfold disc_fit. assert (E : qsort data = qsort data').
  { apply sort_unique; try apply qsort_sorted. rewrite <- !qsort_perm. auto. }
  rewrite E. reflexivity.
Qed.

Lemma fit_forgets d l data : disc_fit (set_splits d l) data = disc_fit d data.
Proof. reflexivity. Qed.

Lemma fit_sets d data d' : disc_fit d data = Ok d' -> exists l, d' = set_splits d l.
Proof.
  intros E. pose proof (fit_aff 1 0 eq_refl d data) as F. rewrite E in F. destruct F as (l & -> & _). eauto.
Qed.

Theorem refit d0 calls data test :
  fit_then (fold_left try_fit calls d0) data test = fit_then d0 data test.
Proof.
  assert (G : forall d, disc_fit (fold_left try_fit calls d) data = disc_fit d data).
  { induction calls as [|x calls IH]; intros d; [reflexivity|]. cbn [fold_left]. rewrite IH. unfold try_fit.
    destruct (disc_fit d x) as [d'|] eqn:E; auto. destruct (fit_sets d x d' E) as (l & ->). apply fit_forgets. }
  unfold fit_then. rewrite G. reflexivity.
Qed.
