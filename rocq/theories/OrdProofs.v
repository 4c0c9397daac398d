(** * OrdProofs: the class probabilities of ordinal variables are a proportional odds distribution. *)
From Coq Require Import List Bool Arith ZArith Lia String QArith Qcanon Reals Lra Sorting.
From Verif Require Import Base QcX NotearsModel NotearsProofs AcycLink TorchModel TorchProofs SklModel.
Import ListNotations.
Local Open Scope nat_scope.

(** ** Specification *)

(** The share of values up to [c]. *)
Definition upto (vals : list Qc) (c : Qc) : R := (INR (List.length (filter (fun x => qle x c) vals)) / INR (List.length vals))%R.

Definition distribution (ps : list R) : Prop := Forall (fun p => 0 < p)%R ps /\ rsum ps = 1%R.

(** ** Sums *)
Lemma cumsum_length l : forall acc, List.length (cumsum acc l) = List.length l.
Proof. induction l; intros acc; cbn; auto. Qed.

Lemma cumsum_nth {A} (f : A -> Qc) l : forall k acc, k < List.length l -> nth k (cumsum acc (map f l)) 0%Qc = (acc + Qsum f (firstn (S k) l))%Qc.
Proof.
  induction l as [|x l IH]; intros k acc H; [cbn in H; lia|]. destruct k as [|k].
  - cbn [map cumsum nth firstn]. rewrite Qsum_cons, Qsum_nil. ring.
  - cbn [map cumsum nth]. rewrite IH by (cbn in H; lia). change (firstn (S (S k)) (x :: l)) with (x :: firstn (S k) l). rewrite Qsum_cons. ring.
Qed.

Lemma removelast_length {A} (l : list A) : List.length (removelast l) = List.length l - 1.
Proof. induction l as [|x [|y l] IH]; cbn in *; auto. rewrite IH. lia. Qed.

Lemma removelast_nth {A} (l : list A) d : forall k, k < List.length l - 1 -> nth k (removelast l) d = nth k l d.
Proof.
  induction l as [|x [|y l] IH]; intros k H; [cbn in H; lia|cbn in H; lia|]. destruct k as [|k]; [reflexivity|].
  change (nth k (removelast (y :: l)) d = nth k (y :: l) d). apply IH. cbn in *. lia.
Qed.

Definition qnat (n : nat) : Qc := Q2Qc (inject_Z (Z.of_nat n)).

Lemma realq_qnat n : realq (qnat n) = INR n.
Proof.
  unfold realq, qnat. replace (this (Q2Qc (inject_Z (Z.of_nat n)))) with (Qred (inject_Z (Z.of_nat n))) by reflexivity.
  rewrite (Qreals.Qeq_eqR _ (inject_Z (Z.of_nat n))) by apply Qred_correct. unfold Q2R, inject_Z. cbn. rewrite <- INR_IZR_INZ. field.
Qed.

Lemma realq_plus a b : realq (a + b)%Qc = (realq a + realq b)%R.
Proof. unfold realq. rewrite <- Qreals.Q2R_plus. apply Qreals.Qeq_eqR. apply Qred_correct. Qed.
Lemma realq_mult a b : realq (a * b)%Qc = (realq a * realq b)%R.
Proof. unfold realq. rewrite <- Qreals.Q2R_mult. apply Qreals.Qeq_eqR. apply Qred_correct. Qed.
Lemma realq_opp a : realq (- a)%Qc = (- realq a)%R.
Proof. unfold realq. rewrite <- Qreals.Q2R_opp. apply Qreals.Qeq_eqR. apply Qred_correct. Qed.
Lemma realq_inj a b : realq a = realq b -> a = b.
Proof. intros H. apply Qc_eq_iff. apply Qreals.eqR_Qeq. exact H. Qed.
Lemma realq_inv a : a <> 0%Qc -> realq (/ a)%Qc = (/ realq a)%R.
Proof.
  intros H. unfold realq. rewrite <- Qreals.Q2R_inv by (intros E; apply H; apply Qc_eq_iff; exact E). apply Qreals.Qeq_eqR. apply Qred_correct.
Qed.
Lemma realq_div a b : b <> 0%Qc -> realq (a / b)%Qc = (realq a / realq b)%R.
Proof. intros H. unfold Qcdiv, Rdiv. rewrite realq_mult, realq_inv; auto. Qed.
Lemma realq_minus a b : realq (a - b)%Qc = (realq a - realq b)%R.
Proof. unfold Qcminus, Rminus. rewrite realq_plus, realq_opp; auto. Qed.
Lemma realq_1 : realq 1%Qc = 1%R.
Proof. unfold realq, Q2R. cbn. field. Qed.

Lemma firstn_nth {A} (l : list A) m d : forall i, i < m -> nth i (firstn m l) d = nth i l d.
Proof. revert m. induction l as [|x l IH]; intros m i H; [rewrite firstn_nil; destruct i; auto|]. destruct m; [lia|]. destruct i; cbn; auto. apply IH. lia. Qed.

Lemma firstn_In {A} (x : A) l m : In x (firstn m l) -> In x l.
Proof. revert m. induction l as [|y l IH]; intros m H; [rewrite firstn_nil in H; auto|]. destruct m; [destruct H|]. destruct H as [->|H]; [left; auto|right; eauto]. Qed.
Lemma filter_length_le' {A} (P : A -> bool) l : List.length (filter P l) <= List.length l.
Proof. induction l as [|x l IH]; cbn; auto. destruct (P x); cbn; lia. Qed.
Lemma NoDup_incl_NoDup' {A} (l : list A) m : NoDup l -> NoDup (firstn m l).
Proof.
  revert m. induction l as [|x l IH]; intros m H; [rewrite firstn_nil; constructor|]. destruct m; cbn; [constructor|]. apply NoDup_cons_iff in H. destruct H as [N H].
  constructor; auto. intros I. apply N. apply (firstn_In _ _ _ I).
Qed.
Lemma filter_lt {A} (P : A -> bool) l x : In x l -> P x = false -> List.length (filter P l) < List.length l.
Proof.
  induction l as [|y l IH]; intros I H; [destruct I|]. cbn. pose proof (filter_length_le' P l). destruct I as [->|I]; [rewrite H; lia|].
  specialize (IH I H). destruct (P y); cbn; lia.
Qed.
Lemma filter_filter' {A} (P Q : A -> bool) l : (forall x, P x = true -> Q x = true) -> filter P l = filter P (filter Q l).
Proof.
  intros H. induction l as [|x l IH]; auto. cbn. destruct (P x) eqn:E; [rewrite (H _ E); cbn; rewrite E, IH; auto|].
  destruct (Q x); cbn; [rewrite E|]; auto.
Qed.
Lemma nth_map_seq_R (f : nat -> R) m k d : k < m -> nth k (map f (seq 0 m)) d = f k.
Proof. intros H. rewrite (nth_indep _ d (f 0)) by (rewrite map_length, seq_length; auto). rewrite map_nth, seq_nth; auto. Qed.

  Lemma sorted_nth (l : list Qc) : StronglySorted (fun a b => qle a b = true) l -> forall i j, i < j < List.length l -> qle (nth i l 0%Qc) (nth j l 0%Qc) = true.
  Proof.
    induction 1 as [|a l S IH F]; intros i j H; [cbn in H; lia|]. destruct j as [|j]; [lia|]. destruct i as [|i]; cbn [nth].
    - rewrite Forall_forall in F. apply F. apply nth_In. cbn in H. lia.
    - apply IH. cbn in H. lia.
  Qed.

  Lemma filter_sum (P : Qc -> bool) (l : list Qc) : qnat (List.length (filter P l)) = Qsum (fun x => if P x then 1%Qc else 0%Qc) l.
  Proof.
    induction l as [|x l IH]; [reflexivity|]. cbn [filter]. rewrite Qsum_cons. destruct (P x).
    - cbn [List.length]. rewrite <- IH. apply realq_inj. rewrite realq_plus, !realq_qnat, realq_1, S_INR. ring.
    - rewrite IH. ring.
  Qed.

(** ** The cumulative shares *)
Section Shares.
  Context (vals : list Qc).
  Let cs := categories vals.
  Let n := List.length vals.

  Lemma cats_sorted : StronglySorted (fun a b => qle a b = true) cs.
  Proof.
    apply isort_sorted.
    - intros a b. destruct (qle a b) eqn:E; auto. right. apply qle_false in E. apply qle_iff. apply Qclt_le_weak. auto.
    - intros a b c H1 H2. apply qle_iff in H1, H2. apply qle_iff. eapply Qcle_trans; eauto.
  Qed.


  Lemma cats_lt i j : i < j < List.length cs -> (nth i cs 0 < nth j cs 0)%Qc.
  Proof.
    intros H. pose proof (sorted_nth _ cats_sorted i j H) as L. apply qle_iff in L. apply Qcle_lt_or_eq in L. destruct L as [L|L]; auto.
    exfalso. assert (i = j); [|lia]. apply (proj1 (NoDup_nth cs 0%Qc) (categories_NoDup vals)); auto; lia.
  Qed.

  Lemma cats_firstn k x : k < List.length cs -> In x vals -> (In x (firstn (S k) cs) <-> qle x (nth k cs 0%Qc) = true).
  Proof.
    intros Hk Hx. apply categories_In in Hx. apply (In_nth _ _ 0%Qc) in Hx. destruct Hx as (i & Hi & <-). fold cs in Hi |- *. split.
    - intros H. apply (In_nth _ _ 0%Qc) in H. destruct H as (j & Hj & E). rewrite firstn_length in Hj. rewrite firstn_nth in E by lia.
      rewrite <- E. destruct (Nat.eq_dec j k) as [->|N]; [apply qle_iff; apply Qcle_refl|]. apply qle_iff, Qclt_le_weak, cats_lt. lia.
    - intros H. apply qle_iff in H. destruct (Nat.le_gt_cases i k) as [L|L].
      + rewrite <- (firstn_nth cs (S k)) by lia. apply nth_In. rewrite firstn_length. lia.
      + exfalso. apply (Qcle_not_lt _ _ H). apply cats_lt. lia.
  Qed.


  Lemma share_sum k : k < List.length cs ->
    Qsum (share vals) (firstn (S k) cs) = (qnat (List.length (filter (fun x => qle x (nth k cs 0%Qc)) vals)) / qnat n)%Qc.
  Proof.
    intros Hk. rewrite (Qsum_ext _ (fun c => Qsum (fun x => if Qc_eq_bool x c then 1 else 0)%Qc vals * / qnat n)%Qc).
    2:{ intros c _. unfold share. fold (qnat n). rewrite <- filter_sum. reflexivity. }
    rewrite Qsum_mul_r, Qsum_swap, filter_sum. unfold Qcdiv. f_equal. apply Qsum_ext. intros x Hx.
    destruct (qle x (nth k cs 0%Qc)) eqn:E.
    - rewrite (Qsum_single _ _ x).
      + destruct (Qc_eq_bool_spec x x); congruence.
      + apply (NoDup_incl_NoDup' cs (S k)). apply categories_NoDup.
      + apply cats_firstn; auto.
      + intros y _ N. destruct (Qc_eq_bool_spec x y); congruence.
    - apply Qsum_all_zero. intros y Hy. destruct (Qc_eq_bool_spec x y) as [->|N]; auto. apply cats_firstn in Hy; auto. congruence.
  Qed.

  Hypothesis Nv : vals <> [].

  Lemma n_pos : (0 < INR n)%R.
  Proof. apply lt_0_INR. unfold n. destruct vals; [congruence|cbn; lia]. Qed.

  Lemma cum_spec : map realq (cum_class_probs vals) = map (fun k => upto vals (nth k cs 0%Qc)) (seq 0 (List.length cs - 1)).
  Proof.
    apply (nth_ext _ _ 0%R 0%R).
    - rewrite !map_length, seq_length. unfold cum_class_probs. rewrite removelast_length, cumsum_length, map_length. reflexivity.
    - intros k Hk. rewrite map_length in Hk. unfold cum_class_probs in Hk. rewrite removelast_length, cumsum_length, map_length in Hk. fold cs in Hk.
      rewrite (nth_map_seq_R _ _ k) by auto. rewrite <- realq_0. rewrite map_nth. unfold cum_class_probs. rewrite removelast_nth by (rewrite cumsum_length, map_length; auto).
      rewrite cumsum_nth by (fold cs; lia). fold cs. rewrite share_sum by lia. rewrite realq_plus, realq_0, realq_div.
      + rewrite !realq_qnat. unfold upto. fold n. ring.
      + intros E. pose proof n_pos. apply (f_equal realq) in E. rewrite realq_qnat, realq_0 in E. lra.
  Qed.

  Lemma upto_bounds k : k < List.length cs - 1 -> (0 < upto vals (nth k cs 0%Qc) < 1)%R.
  Proof.
    intros Hk. unfold upto. fold n. pose proof n_pos as Np. assert (A : (0 < List.length (filter (fun x => qle x (nth k cs 0%Qc)) vals) < n)%nat).
    { split.
      - assert (I : In (nth k cs 0%Qc) (filter (fun x => qle x (nth k cs 0%Qc)) vals)).
        { apply filter_In. split; [apply categories_In, nth_In; fold cs; lia|]. apply qle_iff, Qcle_refl. }
        destruct (filter _ vals); [destruct I|cbn; lia].
      - apply (filter_lt _ vals (nth (S k) cs 0%Qc)); [apply categories_In, nth_In; fold cs; lia|]. apply qle_false. apply cats_lt. lia. }
    destruct A as [A1 A2]. apply lt_INR in A1, A2. cbn in A1. split; [apply Rdiv_lt_0_compat; auto|]. apply (Rmult_lt_reg_r (INR n)); auto.
    unfold Rdiv. rewrite Rmult_assoc, Rinv_l; lra.
  Qed.

  Lemma upto_mono k : S k < List.length cs -> (upto vals (nth k cs 0%Qc) < upto vals (nth (S k) cs 0%Qc))%R.
  Proof.
    intros Hk. unfold upto. fold n. pose proof n_pos as Np. apply Rmult_lt_compat_r; [apply Rinv_0_lt_compat; auto|]. apply lt_INR.
    assert (L := cats_lt k (S k) ltac:(lia)).
    rewrite (filter_filter' (fun x => qle x (nth k cs 0%Qc)) (fun x => qle x (nth (S k) cs 0%Qc)) vals).
    - apply (filter_lt _ _ (nth (S k) cs 0%Qc)).
      + apply filter_In. split; [apply categories_In, nth_In; fold cs; lia|]. apply qle_iff, Qcle_refl.
      + apply qle_false. auto.
    - intros x H. apply qle_iff in H. apply qle_iff. eapply Qcle_trans; [exact H|]. apply Qclt_le_weak. auto.
  Qed.
End Shares.

(** ** From cumulative probabilities to probabilities *)
Definition diffs (l : list R) : list R := map (fun ab => (snd ab - fst ab)%R) (combine l (tl l)).

Lemma diffs_cons a b l : diffs (a :: b :: l) = (b - a)%R :: diffs (b :: l).
Proof. reflexivity. Qed.
Lemma diffs_length a l : List.length (diffs (a :: l)) = List.length l.
Proof. unfold diffs. rewrite map_length, combine_length. cbn [tl List.length]. apply Nat.min_r. lia. Qed.
Lemma diffs_sum l : forall a k, k <= List.length l -> rsum (firstn k (diffs (a :: l))) = (nth k (a :: l) 0 - a)%R.
Proof.
  induction l as [|b l IH]; intros a k H.
  - cbn in H. assert (k = 0) as -> by lia. cbn. lra.
  - destruct k as [|k]; [cbn; lra|]. rewrite diffs_cons. cbn [firstn rsum fold_right]. fold (rsum (firstn k (diffs (b :: l)))). rewrite IH by (cbn in H; lia).
    change (nth (S k) (a :: b :: l) 0%R) with (nth k (b :: l) 0%R). lra.
Qed.
Lemma rsum_app l m : rsum (l ++ m) = (rsum l + rsum m)%R.
Proof. unfold rsum. induction l; cbn; [lra|]. rewrite IHl. lra. Qed.

Lemma combine_nth' {A B} (l : list A) (m : list B) a b k : k < List.length l -> k < List.length m -> nth k (combine l m) (a, b) = (nth k l a, nth k m b).
Proof. revert l m. induction k as [|k IH]; intros [|x l] [|y m] H1 H2; cbn in *; auto; try lia. apply IH; lia. Qed.

Lemma last_nth {A} (l : list A) d : last l d = nth (List.length l - 1) l d.
Proof. induction l as [|x [|y l] IH]; auto. change (last (x :: y :: l) d) with (last (y :: l) d). rewrite IH. cbn. rewrite Nat.sub_0_r. auto. Qed.

Section Cum.
  Context (c0 : R) (r : list R).
  Let cum := c0 :: r.
  Let ps := c0 :: diffs cum ++ [(1 - last cum 0)%R].

  Lemma cum_firstn k : k < List.length cum -> rsum (firstn (S k) ps) = nth k cum 0%R.
  Proof.
    intros H. unfold ps. cbn [firstn]. unfold cum in *. rewrite firstn_app, diffs_length. cbn in H.
    replace (k - List.length r) with 0 by lia. cbn [firstn]. rewrite app_nil_r. cbn [rsum fold_right]. fold (rsum (firstn k (diffs (c0 :: r)))).
    rewrite diffs_sum by lia. lra.
  Qed.

  Lemma cum_total : rsum ps = 1%R.
  Proof.
    unfold ps. cbn [rsum fold_right]. fold (rsum (diffs cum ++ [(1 - last cum 0)%R])). rewrite rsum_app. unfold cum.
    assert (E := diffs_sum r c0 (List.length r) (le_n _)). rewrite firstn_all2 in E by (rewrite diffs_length; lia). rewrite E, last_nth. cbn [List.length].
    replace (S (List.length r) - 1) with (List.length r) by lia. unfold rsum. cbn [fold_right]. lra.
  Qed.

  Lemma cum_length : List.length ps = S (List.length cum).
  Proof. unfold ps. cbn [List.length]. rewrite app_length. unfold cum. rewrite diffs_length. cbn [List.length]. lia. Qed.

  Lemma cum_positive : (forall k, k < List.length cum -> (0 < nth k cum 0 < 1)%R) -> (forall k, S k < List.length cum -> (nth k cum 0 < nth (S k) cum 0)%R) ->
    Forall (fun p => 0 < p)%R ps.
  Proof.
    intros B M. constructor; [specialize (B 0); cbn in B; apply B; lia|]. apply Forall_app. split.
    - apply Forall_forall. intros x Hx. apply (In_nth _ _ 0%R) in Hx. destruct Hx as (k & Hk & <-). unfold cum in Hk. rewrite diffs_length in Hk.
      unfold diffs. rewrite (nth_indep _ 0%R ((fun ab => (snd ab - fst ab)%R) (0%R, 0%R))) by (fold (diffs cum); unfold cum; rewrite diffs_length; auto).
      rewrite (map_nth (fun ab => (snd ab - fst ab)%R)), combine_nth' by (cbn; lia). cbn [fst snd]. specialize (M k). cbn [List.length cum] in M.
      change (tl cum) with r. change (nth (S k) cum 0%R) with (nth k r 0%R) in M. specialize (M ltac:(unfold cum; cbn; lia)). lra.
    - constructor; [|constructor]. rewrite last_nth. specialize (B (List.length cum - 1)). unfold cum in *. cbn [List.length] in *. specialize (B ltac:(lia)). lra.
  Qed.
End Cum.

(** ** The theorem *)
Lemma odds_sigmoid (f z : R) : (0 < f < 1)%R -> let s := sigmoid (ln (f / (1 - f)) - z)%R in (0 < s < 1 /\ s / (1 - s) = f / (1 - f) * exp (- z))%R.
Proof.
  intros H. cbv zeta. unfold sigmoid. replace (- (ln (f / (1 - f)) - z))%R with (z + - ln (f / (1 - f)))%R by ring. rewrite exp_plus, (exp_Ropp (ln _)), exp_ln by (apply Rdiv_lt_0_compat; lra).
  assert (E := exp_pos z). rewrite (exp_Ropp z). assert (P : (0 < exp z * / (f / (1 - f)))%R).
  { apply Rmult_lt_0_compat; auto. apply Rinv_0_lt_compat, Rdiv_lt_0_compat; lra. }
  set (t := (exp z * / (f / (1 - f)))%R) in *. split.
  - split; [apply Rinv_0_lt_compat; lra|]. rewrite <- Rinv_1. apply Rinv_lt_contravar; lra.
  - assert (T : (1 - / (1 + t) = t / (1 + t))%R) by (field; lra). rewrite T. unfold t. field. repeat split; try lra.
    fold t. assert (G : (t * f = exp z * (1 - f))%R) by (unfold t; field; lra). nra.
Qed.

Lemma odds_increasing (f g z : R) : (0 < f)%R -> (f < g)%R -> (g < 1)%R -> (sigmoid (ln (f / (1 - f)) - z) < sigmoid (ln (g / (1 - g)) - z))%R.
Proof.
  intros H1 H2 H3. unfold sigmoid. apply Rinv_lt_contravar.
  - apply Rmult_lt_0_compat; match goal with |- (0 < 1 + exp ?x)%R => pose proof (exp_pos x); lra end.
  - apply Rplus_lt_compat_l. apply exp_increasing. apply Ropp_lt_contravar. apply Rplus_lt_compat_r. apply ln_increasing; [apply Rdiv_lt_0_compat; lra|].
    apply (Rmult_lt_reg_r ((1 - f) * (1 - g))); [nra|]. field_simplify; nra.
Qed.

Theorem ordinal_probs vals z : 2 <= List.length (nodup Qc_eq_dec vals) ->
  exists ps, get_probs (log_cum_odds vals) z = Ok ps /\ List.length ps = List.length (nodup Qc_eq_dec vals) /\ distribution ps /\
    forall k, S k < List.length ps ->
      let P := rsum (firstn (S k) ps) in let F := upto vals (nth k (categories vals) 0%Qc) in
      (0 < P < 1 /\ 0 < F < 1 /\ P / (1 - P) = F / (1 - F) * exp (- z))%R.
Proof.
  intros H. assert (Nv : vals <> []) by (intros ->; cbn in H; lia). rewrite <- nodup_isort_length in *.
  set (m := List.length (categories vals) - 1).
  set (f := fun k => upto vals (nth k (categories vals) 0%Qc)).
  assert (O : map (fun o => sigmoid (o - z)) (log_cum_odds vals) = map (fun k => sigmoid (ln (f k / (1 - f k)) - z)%R) (seq 0 m)).
  { unfold log_cum_odds. rewrite map_map. transitivity (map (fun c => sigmoid (ln (c / (1 - c)) - z)%R) (map realq (cum_class_probs vals))); [rewrite map_map; auto|].
    rewrite cum_spec by auto. rewrite map_map. auto. }
  unfold get_probs. rewrite O. set (cum := map (fun k => sigmoid (ln (f k / (1 - f k)) - z)%R) (seq 0 m)).
  assert (Lc : List.length cum = m) by (unfold cum; rewrite map_length, seq_length; auto).
  assert (Nc : forall k, k < m -> nth k cum 0%R = sigmoid (ln (f k / (1 - f k)) - z)%R) by (intros k Hk; unfold cum; apply nth_map_seq_R; auto).
  assert (B : forall k, k < m -> (0 < f k < 1)%R) by (intros k Hk; apply upto_bounds; auto).
  destruct cum as [|c0 r] eqn:Ec; [unfold m in Lc; cbn in Lc; lia|]. clearbody cum. subst cum. eexists. split; [reflexivity|].
  fold (diffs (c0 :: r)). rewrite cum_length. split; [rewrite Lc; unfold m; lia|]. split; [split|].
  - apply cum_positive; rewrite Lc; intros k Hk; rewrite ?Nc by lia.
    + apply (odds_sigmoid (f k) z). apply B. auto.
    + apply odds_increasing; [apply B; lia| |apply B; auto]. apply upto_mono; auto. unfold m in Hk. lia.
  - apply cum_total.
  - intros k Hk. cbv zeta. rewrite Lc in Hk. rewrite cum_firstn by lia. rewrite Nc by lia. fold (f k).
    destruct (odds_sigmoid (f k) z) as [S E]; [apply B; lia|]. split; [exact S|]. split; [apply B; lia|exact E].
Qed.
