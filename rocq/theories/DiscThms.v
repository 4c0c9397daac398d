(** * DiscThms: specification of the discretiser and its theorems. *)
From Coq Require Import List Bool Arith ZArith Lia String QArith Qround Qcanon Lqa Permutation Sorting.Sorted.
From Verif Require Import Base QcX DiscModel DiscProofs.
Import ListNotations.
Local Open Scope string_scope.
Local Open Scope list_scope.
Local Open Scope Qc_scope.

(** ** Specification *)

(** The documented combinations of arguments. *)
Definition documented (a : disc_args) : Prop :=
  In (a_method a) ["uniform"; "quantile"; "outlier"; "fixed"; "percentiles"] /\
  (a_method a = "uniform" \/ a_method a = "quantile" -> a_num_buckets a <> None) /\
  (a_method a = "outlier" -> a_outlier a <> None) /\
  (forall p, a_outlier a = Some p -> 0 <= p /\ p < Q2Qc (1 # 2)) /\
  (a_method a = "fixed" -> a_numeric a <> None) /\
  (forall l, a_numeric a = Some l -> nondecreasing l) /\
  (a_method a = "percentiles" -> a_percentiles a <> None) /\
  (forall l, a_percentiles a = Some l -> nondecreasing l /\ forall p, In p l -> 0 <= p /\ p <= 1).

(** A discretiser after its construction and any calls of [fit]; a call that raises changes nothing. *)
Definition try_fit (d : disc) (data : list Qc) : disc := match disc_fit d data with Ok d' => d' | Err _ => d end.
Definition reached_disc (d : disc) : Prop :=
  exists a d0 calls, disc_init a = Ok d0 /\ d = fold_left try_fit calls d0.

(** [i] is the bucket of [v]: the split points before position [i] are at most [v], the others above. *)
Definition in_bucket (splits : list Qc) (v : Qc) (i : nat) : Prop :=
  (i <= List.length splits)%nat /\
  (forall j s, nth_error splits j = Some s -> (j < i)%nat -> s <= v) /\
  (forall j s, nth_error splits j = Some s -> (i <= j)%nat -> v < s).

Definition split_count (d : disc) (n : nat) : Prop :=
  (method d = "uniform" \/ method d = "quantile" -> exists k, num_buckets d = Some k /\ n = Z.to_nat (k - 1)) /\
  (method d = "outlier" -> n = 2%nat) /\
  (method d = "percentiles" -> exists l, percentile_split_points d = Some l /\ n = List.length l).

(** ** Proofs *)
Ltac sb := repeat match goal with H : context [String.eqb ?a ?b] |- _ => destruct (String.eqb_spec a b) | |- context [String.eqb ?a ?b] => destruct (String.eqb_spec a b) end.

Lemma init_cases a :
  (documented a /\ disc_init a = Ok (mkDisc (a_method a) (a_num_buckets a) (a_outlier a) (a_numeric a) (a_percentiles a))) \/
  (~ documented a /\ disc_init a = Err ValueError).
Proof.
  assert (Dec : forall b : bool, b = true \/ b = false) by (intros []; auto).
  unfold disc_init.
  destruct (smem (a_method a) allowed_methods) eqn:E1; cbn [negb].
  2:{ right; split; auto. intros (H & _). apply not_true_iff_false in E1. apply E1. apply (memb_In _ String.eqb_spec). exact H. }
  apply (memb_In _ String.eqb_spec) in E1.
  destruct (smem (a_method a) ["uniform"; "quantile"] && is_none (a_num_buckets a)) eqn:E2.
  { right; split; auto. intros (_ & H & _). exfalso. apply andb_true_iff in E2. destruct E2 as [E2 E3].
    apply (memb_In _ String.eqb_spec) in E2. destruct (a_num_buckets a); try discriminate.
    apply H; auto. cbn in E2. intuition. }
  destruct (String.eqb (a_method a) "outlier" && is_none (a_outlier a)) eqn:E3.
  { right; split; auto. intros (_ & _ & H & _). exfalso. apply andb_true_iff in E3. destruct E3 as [E3 E4].
    apply String.eqb_eq in E3. destruct (a_outlier a); try discriminate. apply H; auto. }
  destruct (on_some (a_outlier a) (fun p => negb (Qcleb 0 p && Qcltb p half))) eqn:E4.
  { right; split; auto. intros (_ & _ & _ & H & _). exfalso. destruct (a_outlier a) as [p|]; try discriminate. cbn in E4.
    destruct (H p eq_refl) as [H0 H1]. apply negb_true_iff, andb_false_iff in E4.
    destruct E4 as [E4|E4]; [apply Qcleb_iff in H0|apply Qcltb_iff in H1; unfold half in E4]; congruence. }
  destruct (String.eqb (a_method a) "fixed" && is_none (a_numeric a)) eqn:E5.
  { right; split; auto. intros (_ & _ & _ & _ & H & _). exfalso. apply andb_true_iff in E5. destruct E5 as [E5 E6].
    apply String.eqb_eq in E5. destruct (a_numeric a); try discriminate. apply H; auto. }
  destruct (on_some (a_numeric a) unsorted) eqn:E6.
  { right; split; auto. intros (_ & _ & _ & _ & _ & H & _). exfalso. destruct (a_numeric a) as [l|]; try discriminate. cbn in E6.
    specialize (H l eq_refl). rewrite (proj2 (unsorted_false l) H) in E6. discriminate. }
  destruct (String.eqb (a_method a) "percentiles" && is_none (a_percentiles a)) eqn:E7.
  { right; split; auto. intros (_ & _ & _ & _ & _ & _ & H & _). exfalso. apply andb_true_iff in E7. destruct E7 as [E7 E8].
    apply String.eqb_eq in E7. destruct (a_percentiles a); try discriminate. apply H; auto. }
  destruct (on_some (a_percentiles a) (fun l => negb (forallb (fun p => Qcleb 0 p && Qcleb p 1) l))) eqn:E8.
  { right; split; auto. intros (_ & _ & _ & _ & _ & _ & _ & H). exfalso. destruct (a_percentiles a) as [l|]; try discriminate. cbn in E8.
    destruct (H l eq_refl) as [_ H']. apply negb_true_iff in E8.
    assert (T : forallb (fun p => Qcleb 0 p && Qcleb p 1) l = true); [|congruence].
    apply forallb_forall. intros p Hp. destruct (H' p Hp). apply andb_true_iff. rewrite !Qcleb_iff. auto. }
  destruct (on_some (a_percentiles a) unsorted) eqn:E9.
  { right; split; auto. intros (_ & _ & _ & _ & _ & _ & _ & H). exfalso. destruct (a_percentiles a) as [l|]; try discriminate. cbn in E9.
    destruct (H l eq_refl) as [H' _]. rewrite (proj2 (unsorted_false l) H') in E9. discriminate. }
  left. split; auto. unfold documented. split; [exact E1|]. split.
  { intros H N. rewrite N in E2. cbn in E2. rewrite andb_true_r in E2.
    destruct H as [H|H]; rewrite H in E2; discriminate. }
  split. { intros H N. rewrite H, N in E3. discriminate. }
  split. { intros p H. rewrite H in E4. cbn in E4. apply negb_false_iff, andb_true_iff in E4.
    rewrite Qcleb_iff, Qcltb_iff in E4. exact E4. }
  split. { intros H N. rewrite H, N in E5. discriminate. }
  split. { intros l H. rewrite H in E6. apply unsorted_false. exact E6. }
  split. { intros H N. rewrite H, N in E7. discriminate. }
  intros l H. rewrite H in E8, E9. cbn in E8, E9. split; [apply unsorted_false; auto|].
  intros p Hp. apply negb_false_iff in E8. rewrite forallb_forall in E8. specialize (E8 p Hp).
  apply andb_true_iff in E8. rewrite !Qcleb_iff in E8. exact E8.
Qed.

Lemma init_spec a :
  (documented a -> disc_init a = Ok (mkDisc (a_method a) (a_num_buckets a) (a_outlier a) (a_numeric a) (a_percentiles a))) /\
  (~ documented a -> disc_init a = Err ValueError).
Proof. destruct (init_cases a) as [[? ?]|[? ?]]; split; tauto. Qed.

Lemma init_iff a : (exists d, disc_init a = Ok d) <-> documented a.
Proof.
  destruct (init_cases a) as [[? E]|[? E]]; rewrite E; split; try tauto; eauto. intros [d T]; discriminate.
Qed.

(** The invariant of reachable discretisers. *)
Definition disc_inv (d : disc) : Prop :=
  documented (mkArgs (method d) (num_buckets d) (outlier_percentile d) (numeric_split_points d) (percentile_split_points d)).

Lemma range_nth k i d : (i < List.length (range k))%nat -> nth i (range k) d = i.
Proof. unfold range. rewrite seq_length. intros. rewrite seq_nth by auto. auto. Qed.
Lemma range_length k : List.length (range k) = Z.to_nat k.
Proof. apply seq_length. Qed.

Lemma nd_map_range (f : nat -> Qc) k : (forall i, f i <= f (Datatypes.S i)) -> nondecreasing (map f (range k)).
Proof.
  intros H. apply nd_of_nth. intros i Hi. rewrite map_length, range_length in Hi.
  rewrite !(nth_indep _ 0 (f 0%nat)) by (rewrite map_length, range_length; lia).
  rewrite !map_nth, !range_nth by (rewrite range_length; lia). apply H.
Qed.

Lemma qsort_ne l : l <> [] -> qsort l <> [].
Proof. intros H N. apply H. pose proof (qsort_perm l) as P. rewrite N in P. apply Permutation_nil. symmetry; auto. Qed.

Lemma max_last x : x <> [] -> np_max x = Ok (nth (List.length x - 1) x 0).
Proof. intros H. rewrite nd_last by auto. destruct x; [congruence|reflexivity]. Qed.
Lemma min_first x : x <> [] -> np_min x = Ok (nth 0 x 0).
Proof. destruct x; [congruence|reflexivity]. Qed.

Lemma quantile_ok x qs : x <> [] -> (forall q, In q qs -> 0 <= q /\ q <= 1) -> np_quantile x qs = Ok (map (quantile1 x) qs).
Proof.
  intros Hx H. unfold np_quantile. destruct x; [congruence|].
  replace (forallb _ qs) with true; [reflexivity|]. symmetry. apply forallb_forall. intros q0 Hq.
  rewrite andb_true_iff, !Qcleb_iff. auto.
Qed.

Lemma nd_map_quantile x qs : nondecreasing x -> x <> [] -> (forall q, In q qs -> 0 <= q /\ q <= 1) -> nondecreasing qs ->
  nondecreasing (map (quantile1 x) qs).
Proof.
  intros Hs Hx Hq H. induction H as [|q qs H IH F]; [constructor|]. cbn. constructor.
  - apply IH. intros; apply Hq; cbn; auto.
  - rewrite Forall_forall in F |- *. intros v Hv. apply in_map_iff in Hv. destruct Hv as (q' & <- & Hq').
    apply quantile_mono; auto; apply Hq; cbn; auto.
Qed.

Lemma div_pos (a b : Qc) : 0 <= a -> 0 < b -> a <= b -> 0 <= a / b /\ a / b <= 1.
Proof.
  intros Ha Hb H. assert (N : b <> 0) by (apply Qclt_not_eq in Hb; congruence).
  split; [apply Qc_div_nonneg; auto; apply Qclt_le_weak; auto|].
  replace 1 with (b / b) by (field; auto). unfold Qcdiv. apply mul_le_mono; auto.
  apply Qc_inv_nonneg, Qclt_le_weak; auto.
Qed.

Lemma of_Z_pos k : (0 < k)%Z -> 0 < Qc_of_Z k.
Proof. intros. change 0 with (Qc_of_Z 0). apply of_Z_lt; auto. Qed.

Definition kth (k : Z) (n : nat) : Qc := 1 / Qc_of_Z k * Qc_of_Z (Z.of_nat n + 1).

Lemma kth_range k q : In q (map (kth k) (range (k - 1))) -> 0 <= q /\ q <= 1.
Proof.
  intros H. apply in_map_iff in H. destruct H as (n & <- & Hn). unfold range in Hn. apply in_seq in Hn. unfold kth.
  replace (1 / Qc_of_Z k * Qc_of_Z (Z.of_nat n + 1)) with (Qc_of_Z (Z.of_nat n + 1) / Qc_of_Z k).
  - apply div_pos; [change 0 with (Qc_of_Z 0); apply of_Z_le; lia|apply of_Z_pos; lia|apply of_Z_le; lia].
  - unfold Qcdiv. ring.
Qed.

Lemma kth_nd k : nondecreasing (map (kth k) (range (k - 1))).
Proof.
  destruct (Z_lt_dec 0 k) as [Hk|Hk].
  - apply nd_map_range. intros i. unfold kth. rewrite !(Qcmult_comm (1 / Qc_of_Z k)). apply Qcmult_le_compat_r.
    + apply of_Z_le. lia.
    + unfold Qcdiv. rewrite Qcmult_1_l. apply Qc_inv_nonneg, Qclt_le_weak, of_Z_pos; auto.
  - unfold range. replace (Z.to_nat (k - 1)) with 0%nat by lia. constructor.
Qed.

Lemma percent_id p : p * Qc_of_Z 100 / Qc_of_Z 100 = p.
Proof. field. discriminate. Qed.

(** What [fit] computes, method by method. *)
Lemma fit_uniform d k data : method d = "uniform" -> num_buckets d = Some k -> data <> [] ->
  let x := qsort data in let mn := nth 0 x 0 in let mx := nth (List.length x - 1) x 0 in
  disc_fit d data = Ok (set_splits d (map (fun n => mn + (mx - mn) / Qc_of_Z k * Qc_of_Z (Z.of_nat n + 1)) (range (k - 1)))).
Proof.
  intros M K N x mn mx. unfold disc_fit. rewrite M, K. cbn [String.eqb Ascii.eqb Bool.eqb attr bind].
  fold x. rewrite (max_last x), (min_first x) by (apply qsort_ne; auto). reflexivity.
Qed.

Lemma fit_quantile d k data : method d = "quantile" -> num_buckets d = Some k -> k <> 0%Z -> data <> [] ->
  disc_fit d data = Ok (set_splits d (map (quantile1 (qsort data)) (map (kth k) (range (k - 1))))).
Proof.
  intros M K K0 N. unfold disc_fit. rewrite M, K. cbn [String.eqb Ascii.eqb Bool.eqb attr bind].
  apply Z.eqb_neq in K0. rewrite K0.
  change (map (fun n => 1 / Qc_of_Z k * Qc_of_Z (Z.of_nat n + 1)) (range (k - 1))) with (map (kth k) (range (k - 1))).
  rewrite quantile_ok; [reflexivity|apply qsort_ne; auto|apply kth_range].
Qed.

Lemma half_le (p : Qc) : p < half -> p <= 1 - p.
Proof. intros H. unfold half in H. assert (E : (this (Q2Qc (1 # 2)) == 1 # 2)%Q) by reflexivity. unfold Qclt in H. rewrite E in H. ql. Qed.

Lemma fit_outlier d p data : method d = "outlier" -> outlier_percentile d = Some p -> 0 <= p -> p < half -> data <> [] ->
  disc_fit d data = Ok (set_splits d (map (quantile1 (qsort data)) [p; 1 - p])).
Proof.
  intros M P P0 P1 N. unfold disc_fit. rewrite M, P. cbn [String.eqb Ascii.eqb Bool.eqb attr bind].
  pose proof (half_le p P1). rewrite quantile_ok; [reflexivity|apply qsort_ne; auto|].
  intros q [<-|[<-|[]]]; split; ql.
Qed.

Lemma fit_percentiles d ps data : method d = "percentiles" -> percentile_split_points d = Some ps ->
  (forall p, In p ps -> 0 <= p /\ p <= 1) -> data <> [] ->
  disc_fit d data = Ok (set_splits d (map (quantile1 (qsort data)) ps)).
Proof.
  intros M P R N. unfold disc_fit. rewrite M, P. cbn [String.eqb Ascii.eqb Bool.eqb attr bind].
  unfold np_percentile. rewrite map_map. rewrite (map_ext _ (fun p => p)), map_id by (apply percent_id).
  rewrite quantile_ok; [reflexivity|apply qsort_ne; auto|auto].
Qed.

Lemma fit_empty d : forall d', disc_fit d [] <> Ok d'.
Proof.
  intros d'. unfold disc_fit. change (qsort []) with (@nil Qc).
  destruct (String.eqb (method d) "uniform"); [destruct (num_buckets d); discriminate|].
  destruct (String.eqb (method d) "quantile"); [destruct (num_buckets d); cbn [attr bind]; [destruct (Z.eqb _ _)|]; discriminate|].
  destruct (String.eqb (method d) "outlier"); [destruct (outlier_percentile d); discriminate|].
  destruct (String.eqb (method d) "percentiles"); [destruct (percentile_split_points d)|]; discriminate.
Qed.

(** [fit]: for a reachable discretiser. *)
Definition fits (d : disc) (data : list Qc) : Prop :=
  method d <> "fixed" /\ data <> [] /\ ~ (method d = "quantile" /\ num_buckets d = Some 0%Z).

Lemma disc_method d : disc_inv d -> method d <> "fixed" -> method d = "uniform" \/ method d = "quantile" \/ method d = "outlier" \/ method d = "percentiles".
Proof. intros (H & _) N. cbn in H. intuition congruence. Qed.

Lemma fit_inv d data d' : disc_inv d -> disc_fit d data = Ok d' ->
  exists l, d' = set_splits d l /\ nondecreasing l /\ split_count d (List.length l) /\
    (forall s, In s l -> (exists a, In a data /\ a <= s) /\ (exists a, In a data /\ s <= a)) /\ fits d data.
Proof.
  intros I E. destruct (list_eq_dec Qc_eq_dec data []) as [->|N]; [exfalso; exact (fit_empty d d' E)|].
  assert (NF : method d <> "fixed").
  { intros M. unfold disc_fit in E. rewrite M in E. discriminate. }
  pose proof (qsort_ne data N) as Nx. pose proof (qsort_sorted data) as Sx.
  assert (In0 : In (nth 0 (qsort data) 0) data).
  { apply (Permutation_in _ (Permutation_sym (qsort_perm data))), nth_In. destruct (qsort data); [congruence|cbn; lia]. }
  assert (In1 : In (nth (List.length (qsort data) - 1) (qsort data) 0) data).
  { apply (Permutation_in _ (Permutation_sym (qsort_perm data))), nth_In. destruct (qsort data); [congruence|cbn; lia]. }
  assert (MM : nth 0 (qsort data) 0 <= nth (List.length (qsort data) - 1) (qsort data) 0).
  { apply nd_nth; auto; [lia|]. destruct (qsort data); [congruence|cbn; lia]. }
  assert (Q : forall qs, (forall q, In q qs -> 0 <= q /\ q <= 1) -> forall s, In s (map (quantile1 (qsort data)) qs) ->
     (exists a, In a data /\ a <= s) /\ (exists a, In a data /\ s <= a)).
  { intros qs Hq s Hs. apply in_map_iff in Hs. destruct Hs as (q & <- & Hqq). destruct (Hq q Hqq).
    destruct (quantile_bounds (qsort data) q) as [B0 B1]; auto. split; eexists; (split; [|eassumption]); auto. }
  pose proof I as (_ & Hnb & Hop & Hop2 & _ & _ & Hps & Hps2). cbn in Hnb, Hop, Hop2, Hps, Hps2.
  destruct (disc_method d I NF) as [M|[M|[M|M]]].
  - destruct (num_buckets d) as [k|] eqn:K; [|exfalso; apply Hnb; auto].
    rewrite (fit_uniform d k data M K N) in E. injection E as <-.
    set (mn := nth 0 (qsort data) 0) in *. set (mx := nth (List.length (qsort data) - 1) (qsort data) 0) in *.
    eexists. split; [reflexivity|].
    destruct (Z_lt_dec 0 k) as [Hk|Hk].
    2:{ unfold range. replace (Z.to_nat (k - 1)) with 0%nat by lia. cbn [seq map List.length]. split; [constructor|].
        split; [|split; [intros s []|]].
        - split; [intros _; exists k; rewrite K; split; auto; lia|]. split; intros; congruence.
        - split; [auto|split; [auto|]]. intros [T _]; congruence. }
    assert (W : 0 <= (mx - mn) / Qc_of_Z k).
    { apply Qc_div_nonneg; [ql|apply Qclt_le_weak, of_Z_pos; auto]. }
    split.
    { apply nd_map_range. intros i. apply Qcplus_le_compat; [apply Qcle_refl|].
      rewrite !(Qcmult_comm ((mx - mn) / Qc_of_Z k)). apply Qcmult_le_compat_r; auto. apply of_Z_le. lia. }
    split.
    { rewrite map_length, range_length. split; [intros _; exists k; auto|]. split; intros; congruence. }
    split; [|split; [auto|split; [auto|]]; intros [T _]; congruence].
    intros s Hs. apply in_map_iff in Hs. destruct Hs as (n & <- & Hn). unfold range in Hn. apply in_seq in Hn.
    assert (P : 0 <= Qc_of_Z (Z.of_nat n + 1)) by (change 0 with (Qc_of_Z 0); apply of_Z_le; lia).
    split; [exists mn|exists mx]; split; auto.
    + assert (T : 0 <= (mx - mn) / Qc_of_Z k * Qc_of_Z (Z.of_nat n + 1)) by (apply Qc_mul_nonneg; auto).
      revert T. generalize ((mx - mn) / Qc_of_Z k * Qc_of_Z (Z.of_nat n + 1)). intros; ql.
    + assert (T : (mx - mn) / Qc_of_Z k * Qc_of_Z (Z.of_nat n + 1) <= (mx - mn) / Qc_of_Z k * Qc_of_Z k).
      { rewrite !(Qcmult_comm ((mx - mn) / Qc_of_Z k)). apply Qcmult_le_compat_r; auto. apply of_Z_le. lia. }
      replace ((mx - mn) / Qc_of_Z k * Qc_of_Z k) with (mx - mn) in T.
      2:{ field. intros Z0. pose proof (of_Z_pos k Hk) as Z1. apply Qclt_not_eq in Z1. congruence. }
      revert T. generalize ((mx - mn) / Qc_of_Z k * Qc_of_Z (Z.of_nat n + 1)). intros; ql.
  - destruct (num_buckets d) as [k|] eqn:K; [|exfalso; apply Hnb; auto].
    assert (K0 : k <> 0%Z).
    { intros ->. unfold disc_fit in E. rewrite M, K in E. discriminate E. }
    rewrite (fit_quantile d k data M K K0 N) in E. injection E as <-. eexists. split; [reflexivity|].
    split; [apply nd_map_quantile; auto; [apply kth_range|apply kth_nd]|].
    split; [|split; [apply Q, kth_range|split; [auto|split; [auto|]]; rewrite K; intros [_ [= ?]]; congruence]].
    rewrite !map_length, range_length. split; [intros _; exists k; auto|]. split; intros; congruence.
  - destruct (outlier_percentile d) as [p|] eqn:K; [|exfalso; apply Hop; auto].
    destruct (Hop2 p eq_refl) as [P0 P1]. rewrite (fit_outlier d p data M K P0 P1 N) in E. injection E as <-.
    pose proof (half_le p P1).
    assert (R : forall q, In q [p; 1 - p] -> 0 <= q /\ q <= 1) by (intros q [<-|[<-|[]]]; split; ql).
    exists (map (quantile1 (qsort data)) [p; 1 - p]). split; [reflexivity|].
    split; [apply nd_map_quantile; auto; apply SSorted_cons; [repeat constructor|repeat constructor; auto]|].
    split; [|split; [apply Q, R|split; [auto|split; [auto|]]; intros [T _]; congruence]].
    split; [intros [T|T]; congruence|]. split; [reflexivity|intros; congruence].
  - destruct (percentile_split_points d) as [ps|] eqn:K; [|exfalso; apply Hps; auto].
    destruct (Hps2 ps eq_refl) as [Sp R]. rewrite (fit_percentiles d ps data M K R N) in E. injection E as <-.
    eexists. split; [reflexivity|]. split; [apply nd_map_quantile; auto|].
    split; [|split; [apply Q, R|split; [auto|split; [auto|]]; intros [T _]; congruence]].
    split; [intros [T|T]; congruence|]. split; [intros; congruence|]. intros _. exists ps. rewrite map_length. auto.
Qed.

Lemma fit_ok d data : disc_inv d -> fits d data -> exists d', disc_fit d data = Ok d'.
Proof.
  intros I (NF & N & NQ). pose proof I as (_ & Hnb & Hop & Hop2 & _ & _ & Hps & Hps2). cbn in Hnb, Hop, Hop2, Hps, Hps2.
  destruct (disc_method d I NF) as [M|[M|[M|M]]].
  - destruct (num_buckets d) as [k|] eqn:K; [|exfalso; apply Hnb; auto]. eexists. apply fit_uniform; eauto.
  - destruct (num_buckets d) as [k|] eqn:K; [|exfalso; apply Hnb; auto]. eexists. apply fit_quantile; eauto.
    intros ->. apply NQ; auto.
  - destruct (outlier_percentile d) as [p|] eqn:K; [|exfalso; apply Hop; auto]. destruct (Hop2 p eq_refl). eexists. apply fit_outlier; eauto.
  - destruct (percentile_split_points d) as [ps|] eqn:K; [|exfalso; apply Hps; auto].
    destruct (Hps2 ps eq_refl). eexists. apply fit_percentiles; eauto.
Qed.

Lemma init_inv a d : disc_init a = Ok d -> disc_inv d /\ documented a /\
  d = mkDisc (a_method a) (a_num_buckets a) (a_outlier a) (a_numeric a) (a_percentiles a).
Proof.
  intros E. assert (D : documented a) by (apply init_iff; eauto).
  rewrite (proj1 (init_spec a) D) in E. injection E as <-. split; [|auto]. unfold disc_inv. cbn. destruct a; exact D.
Qed.

Lemma set_splits_inv d l : disc_inv d -> method d <> "fixed" -> nondecreasing l -> disc_inv (set_splits d l).
Proof.
  intros (A & B & C & D & E & F & G & H) N S. unfold disc_inv, documented in *. cbn in *.
  split; [auto|]. split; [auto|]. split; [auto|]. split; [auto|]. split; [discriminate|]. split; [intros l' [= <-]; auto|]. split; auto.
Qed.

Lemma reached_disc_inv d : reached_disc d -> disc_inv d.
Proof.
  intros (a & d0 & calls & E & ->). destruct (init_inv a d0 E) as [I _]. clear E.
  revert d0 I. induction calls as [|x calls IH]; intros d0 I; auto. cbn. apply IH. unfold try_fit.
  destruct (disc_fit d0 x) as [d'|] eqn:F; auto. destruct (fit_inv d0 x d' I F) as (l & -> & S & _ & _ & (NF & _)).
  apply set_splits_inv; auto.
Qed.

(** ** C24 *)
Theorem transform_spec d splits data : reached_disc d -> numeric_split_points d = Some splits ->
  exists out, disc_transform d data = Ok out /\
    Forall2 (fun v i => i = List.length (filter (fun s => Qcleb s v) splits) /\ forall j, i = j <-> in_bucket splits v j) data out /\
    (forall n m v v' i i', nth_error data n = Some v -> nth_error data m = Some v' ->
       nth_error out n = Some i -> nth_error out m = Some i' -> v <= v' -> (i <= i')%nat).
Proof.
  intros R E. apply reached_disc_inv in R. destruct R as (_ & _ & _ & _ & _ & S & _). specialize (S splits E).
  exists (map (searchsorted_right splits) data). unfold disc_transform. rewrite E, digitize_sorted by auto.
  split; [auto|]. split.
  - clear E. induction data as [|v data IH]; constructor; auto. split; [apply search_count; auto|].
    intros j. unfold in_bucket.
    assert (Ne : forall k s, nth_error splits k = Some s -> (k < List.length splits)%nat /\ nth k splits 0 = s).
    { intros k s H. split; [apply nth_error_Some; congruence|apply nth_error_nth; auto]. }
    assert (Ne' : forall k, (k < List.length splits)%nat -> nth_error splits k = Some (nth k splits 0)).
    { intros k H. apply nth_error_nth'; auto. }
    split.
    + intros <-. pose proof (search_le splits v) as L. split; auto.
      destruct (proj1 (search_spec splits v _ S L) eq_refl) as [H1 H2]. split; intros k s Hk Hj; destruct (Ne k s Hk) as [Hl <-]; auto.
    + intros (L & H1 & H2). apply search_spec; auto. split; intros k Hk.
      * apply (H1 k); auto. apply Ne'. lia.
      * intros Hl. apply (H2 k); auto.
  - intros n m v v' i i' Hn Hm Hi Hi' Hv. rewrite nth_error_map in Hi, Hi'. rewrite Hn in Hi. rewrite Hm in Hi'.
    injection Hi as <-. injection Hi' as <-. apply search_mono; auto.
Qed.

(** ** C25 *)
Theorem fit_spec d data : reached_disc d -> fits d data ->
  exists d' splits, disc_fit d data = Ok d' /\ d' = set_splits d splits /\
    nondecreasing splits /\ split_count d (List.length splits) /\
    (forall s, In s splits -> (exists a, In a data /\ a <= s) /\ (exists a, In a data /\ s <= a)).
Proof.
  intros R F. apply reached_disc_inv in R. destruct (fit_ok d data R F) as [d' E].
  destruct (fit_inv d data d' R E) as (l & -> & S & C & B & _). exists (set_splits d l), l. auto.
Qed.

Theorem fit_fails d data : reached_disc d -> ~ fits d data -> exists e, disc_fit d data = Err e.
Proof.
  intros R F. apply reached_disc_inv in R. destruct (disc_fit d data) as [d'|e] eqn:E; eauto.
  exfalso. apply F. destruct (fit_inv d data d' R E) as (l & _ & _ & _ & _ & H). exact H.
Qed.

(** Uniform: the split points divide the range evenly. *)
Theorem uniform_even d k data mn mx : reached_disc d -> method d = "uniform" -> num_buckets d = Some k -> data <> [] ->
  In mn data -> In mx data -> (forall a, In a data -> mn <= a /\ a <= mx) ->
  exists splits, disc_fit d data = Ok (set_splits d splits) /\ List.length splits = Z.to_nat (k - 1) /\
    forall i s, nth_error splits i = Some s -> s = mn + (mx - mn) * Qc_of_Z (Z.of_nat i + 1) / Qc_of_Z k.
Proof.
  intros _ M K N Hmn Hmx B. eexists. split; [apply fit_uniform; eauto|].
  pose proof (qsort_perm data) as P. pose proof (qsort_sorted data) as S. pose proof (qsort_ne data N) as Nx.
  assert (E0 : nth 0 (qsort data) 0 = mn).
  { apply Qcle_antisym.
    - apply nd_bounds; auto. apply (Permutation_in _ P); auto.
    - apply B. apply (Permutation_in _ (Permutation_sym P)), nth_In. destruct (qsort data); [congruence|cbn; lia]. }
  assert (E1 : nth (List.length (qsort data) - 1) (qsort data) 0 = mx).
  { apply Qcle_antisym.
    - apply B. apply (Permutation_in _ (Permutation_sym P)), nth_In. destruct (qsort data); [congruence|cbn; lia].
    - apply nd_bounds; auto. apply (Permutation_in _ P); auto. }
  rewrite E0, E1. rewrite map_length, range_length. split; [auto|]. intros i s Hs.
  pose proof Hs as Hl. apply nth_error_In in Hl. clear Hl.
  assert (Hl : (i < Z.to_nat (k - 1))%nat).
  { rewrite <- range_length, <- (map_length (fun n => mn + (mx - mn) / Qc_of_Z k * Qc_of_Z (Z.of_nat n + 1))). apply nth_error_Some. congruence. }
  rewrite nth_error_map in Hs. destruct (nth_error (range (k - 1)) i) as [n|] eqn:En; [|discriminate].
  apply (nth_error_nth _ _ 0%nat) in En. rewrite range_nth in En by (rewrite range_length; auto). subst n.
  cbn in Hs. injection Hs as <-. unfold Qcdiv. ring.
Qed.

(** The share of the data below a quantile. *)
Lemma quantile_counts x q : nondecreasing x -> x <> [] -> 0 <= q -> q <= 1 ->
  Qc_of_Z (Z.of_nat (below (quantile1 x q) x)) < position (List.length x) q + 1 /\
  position (List.length x) q < Qc_of_Z (Z.of_nat (upto (quantile1 x q) x)) /\
  (NoDup x -> position (List.length x) q <= Qc_of_Z (Z.of_nat (below (quantile1 x q) x))).
Proof.
  intros S Hx H0 H1. destruct (quantile_parts x q Hx H0 H1) as (lo & w & -> & Hlo & W0 & W1 & P & E).
  set (hi := Nat.min (lo + 1) (List.length x - 1)) in *.
  set (s := nth lo x 0 * (1 - w) + nth hi x 0 * w) in *. rewrite P.
  assert (B : nth lo x 0 <= nth hi x 0) by (apply nd_nth; auto; unfold hi; lia).
  destruct (interp_bounds _ _ w B W0 ltac:(ql)) as [I0 I1]. fold s in I0, I1.
  assert (Slo : w = 0 -> s = nth lo x 0) by (intros ->; unfold s; ring).
  split; [|split].
  - destruct (Qc_eq_dec w 0) as [->|Nw].
    + assert (L : (below s x <= lo)%nat).
      { apply count_le with 0; [lia|]. intros j Hj Hl. unfold Qcltb. rewrite negb_false_iff. apply Qcleb_iff.
        rewrite (Slo eq_refl). apply nd_nth; auto. }
      assert (T : Qc_of_Z (Z.of_nat (below s x)) <= Qc_of_Z (Z.of_nat lo)) by (apply of_Z_le; lia). ql.
    + assert (Hhi : hi = (lo + 1)%nat).
      { unfold hi. destruct (Nat.eq_dec (lo + 1) (List.length x)); [|lia]. exfalso. auto. }
      assert (L : (below s x <= lo + 1)%nat).
      { apply count_le with 0; [lia|]. intros j Hj Hl. unfold Qcltb. rewrite negb_false_iff. apply Qcleb_iff.
        eapply Qcle_trans; [exact I1|]. rewrite Hhi. apply nd_nth; auto. }
      assert (T : Qc_of_Z (Z.of_nat (below s x)) <= Qc_of_Z (Z.of_nat lo + 1)) by (apply of_Z_le; lia).
      rewrite of_Z_add in T. change (Qc_of_Z 1) with 1 in T.
      assert (Wp : 0 < w) by (apply Qcle_lt_or_eq in W0; destruct W0; congruence). clearbody s. ql.
  - assert (L : (lo + 1 <= upto s x)%nat).
    { apply count_ge with 0; [lia|]. intros j Hj. apply Qcleb_iff. eapply Qcle_trans; [|exact I0]. apply nd_nth; auto; lia. }
    assert (T : Qc_of_Z (Z.of_nat lo + 1) <= Qc_of_Z (Z.of_nat (upto s x))) by (apply of_Z_le; lia).
    rewrite of_Z_add in T. change (Qc_of_Z 1) with 1 in T. clearbody s. ql.
  - intros ND. assert (Str : forall i j, (i < j)%nat -> (j < List.length x)%nat -> nth i x 0 < nth j x 0).
    { intros i j Hi Hj. destruct (Qcle_lt_or_eq _ _ (nd_nth x i j S ltac:(lia) Hj)) as [T|T]; auto. exfalso.
      apply (NoDup_nth x 0) in T; auto; lia. }
    destruct (Qc_eq_dec w 0) as [->|Nw].
    + assert (L : (lo <= below s x)%nat).
      { apply count_ge with 0; [lia|]. intros j Hj. apply Qcltb_iff. rewrite (Slo eq_refl). apply Str; auto. }
      assert (T : Qc_of_Z (Z.of_nat lo) <= Qc_of_Z (Z.of_nat (below s x))) by (apply of_Z_le; lia). clearbody s. ql.
    + assert (Hhi : hi = (lo + 1)%nat /\ (lo + 1 < List.length x)%nat).
      { unfold hi. destruct (Nat.eq_dec (lo + 1) (List.length x)); [exfalso; auto|lia]. }
      destruct Hhi as [Hhi Hl].
      assert (Wp : 0 < w) by (apply Qcle_lt_or_eq in W0; destruct W0; congruence).
      destruct (interp_strict (nth lo x 0) (nth hi x 0) w) as [J0 J1]; auto.
      { rewrite Hhi. apply Str; lia. }
      fold s in J0, J1.
      assert (L : (lo + 1 <= below s x)%nat).
      { apply count_ge with 0; [lia|]. intros j Hj. apply Qcltb_iff. eapply Qcle_lt_trans; [|exact J0]. apply nd_nth; auto; lia. }
      assert (T : Qc_of_Z (Z.of_nat lo + 1) <= Qc_of_Z (Z.of_nat (below s x))) by (apply of_Z_le; lia).
      rewrite of_Z_add in T. change (Qc_of_Z 1) with 1 in T. clearbody s. ql.
Qed.

Lemma position_perm (x data : list Qc) q : Permutation data x -> position (List.length x) q = q * (Qc_of_Z (Z.of_nat (List.length data)) - 1).
Proof.
  intros P. unfold position. rewrite (Permutation_length P). unfold Z.sub. rewrite of_Z_add. reflexivity.
Qed.

(** The values for which the split points of a fitted discretiser are quantiles. *)
Definition asked_quantiles (d : disc) (qs : list Qc) : Prop :=
  (method d = "quantile" /\ exists k, num_buckets d = Some k /\ (k <> 0)%Z /\
     qs = map (fun n => Qc_of_Z (Z.of_nat n + 1) / Qc_of_Z k) (seq 0 (Z.to_nat (k - 1)))) \/
  (method d = "outlier" /\ exists p, outlier_percentile d = Some p /\ qs = [p; 1 - p]) \/
  (method d = "percentiles" /\ percentile_split_points d = Some qs).

Lemma asked_fit d qs data : disc_inv d -> asked_quantiles d qs -> data <> [] ->
  disc_fit d data = Ok (set_splits d (map (quantile1 (qsort data)) qs)) /\ forall q, In q qs -> 0 <= q /\ q <= 1.
Proof.
  intros I A N. pose proof I as (_ & Hnb & Hop & Hop2 & _ & _ & Hps & Hps2). cbn in *.
  destruct A as [(M & k & K & K0 & ->)|[(M & p & K & ->)|(M & K)]].
  - assert (E : map (fun n => Qc_of_Z (Z.of_nat n + 1) / Qc_of_Z k) (seq 0 (Z.to_nat (k - 1))) = map (kth k) (range (k - 1))).
    { apply map_ext. intros n. unfold kth, Qcdiv. ring. }
    rewrite E. split; [apply fit_quantile; auto|apply kth_range].
  - destruct (Hop2 p K) as [P0 P1]. pose proof (half_le p P1). split; [apply fit_outlier; auto|].
    intros q [<-|[<-|[]]]; split; ql.
  - destruct (Hps2 qs K) as [S R]. split; [apply fit_percentiles; auto|auto].
Qed.

Theorem quantile_shares d qs data : reached_disc d -> asked_quantiles d qs -> data <> [] ->
  exists splits, disc_fit d data = Ok (set_splits d splits) /\
    Forall2 (fun q s =>
      let pos := q * (Qc_of_Z (Z.of_nat (List.length data)) - 1) in
      Qc_of_Z (Z.of_nat (List.length (filter (fun v => Qcltb v s) data))) < pos + 1 /\
      pos < Qc_of_Z (Z.of_nat (List.length (filter (fun v => Qcleb v s) data))) /\
      (NoDup data -> pos <= Qc_of_Z (Z.of_nat (List.length (filter (fun v => Qcltb v s) data))))) qs splits.
Proof.
  intros R A N. apply reached_disc_inv in R. destruct (asked_fit d qs data R A N) as [E B].
  eexists. split; [exact E|]. clear E A.
  induction qs as [|q qs IH]; constructor.
  - cbv zeta. destruct (B q (or_introl eq_refl)) as [B0 B1].
    destruct (quantile_counts (qsort data) q (qsort_sorted data) (qsort_ne data N) B0 B1) as (C1 & C2 & C3).
    rewrite (position_perm (qsort data) data q (qsort_perm data)) in C1, C2, C3.
    unfold below, upto in *.
    rewrite (filter_perm_len (fun v => Qcltb v (quantile1 (qsort data) q)) data (qsort data) (qsort_perm data)).
    rewrite (filter_perm_len (fun v => Qcleb v (quantile1 (qsort data) q)) data (qsort data) (qsort_perm data)).
    split; [auto|]. split; [auto|]. intros ND. apply C3. apply (Permutation_NoDup (qsort_perm data)); auto.
  - apply IH. intros q' H'. apply B. cbn; auto.
Qed.

(** Bucket sizes of the quantile method on distinct values. *)
Definition bucket_size (out : list nat) (i : nat) : nat := count_occ Nat.eq_dec out i.

Lemma search_lt l v i : nondecreasing l -> (i < List.length l)%nat -> (searchsorted_right l v <= i)%nat <-> v < nth i l 0.
Proof.
  intros S Hi. pose proof (search_le l v) as L.
  destruct (proj1 (search_spec l v _ S L) eq_refl) as [H1 H2]. split.
  - intros H. apply H2; auto.
  - intros H. destruct (Nat.le_gt_cases (searchsorted_right l v) i); auto. exfalso. specialize (H1 i H0). ql.
Qed.

Definition cum (f : Qc -> nat) (data : list Qc) (i : nat) : nat := List.length (filter (fun v => Nat.leb (f v) i) data).
Lemma size_cum f data i : (bucket_size (map f data) (Datatypes.S i) = cum f data (Datatypes.S i) - cum f data i)%nat /\ (cum f data i <= cum f data (Datatypes.S i))%nat.
Proof.
  unfold bucket_size, cum. induction data as [|v data IH]; [cbn; lia|]. cbn [map filter count_occ].
  destruct IH as [IH1 IH2].
  destruct (Nat.eq_dec (f v) (Datatypes.S i)) as [E|E], (Nat.leb_spec (f v) (Datatypes.S i)) as [L|L], (Nat.leb_spec (f v) i) as [M|M]; cbn [List.length]; lia.
Qed.
Lemma size_0 f data : bucket_size (map f data) 0 = cum f data 0.
Proof.
  unfold bucket_size, cum. induction data as [|v data IH]; auto. cbn [map filter count_occ].
  destruct (Nat.eq_dec (f v) 0) as [E|E], (Nat.leb_spec (f v) 0) as [L|L]; cbn [List.length]; lia.
Qed.

Theorem quantile_even d k data : reached_disc d -> method d = "quantile" -> num_buckets d = Some k -> (1 <= k)%Z ->
  data <> [] -> NoDup data ->
  exists out, disc_fit_transform d data = Ok out /\ List.length out = List.length data /\
    (forall i, In i out -> (Z.of_nat i < k)%Z) /\
    forall i j, (Z.of_nat i < k)%Z -> (Z.of_nat j < k)%Z -> (bucket_size out i <= bucket_size out j + 1)%nat.
Proof.
  intros R M K K1 N ND.
  destruct (quantile_shares d (map (fun n => Qc_of_Z (Z.of_nat n + 1) / Qc_of_Z k) (seq 0 (Z.to_nat (k - 1)))) data R) as (splits & E & F); auto.
  { left. split; auto. exists k. split; auto. split; auto. lia. }
  assert (I := reached_disc_inv d R).
  destruct (fit_inv d data _ I E) as (l & El & S & C & _). assert (l = splits) as -> by (injection El as <-; auto). clear El.
  destruct C as (C & _). destruct (C (or_intror M)) as (k' & Ek & Len). rewrite K in Ek. injection Ek as <-.
  exists (map (searchsorted_right splits) data). unfold disc_fit_transform. rewrite E. cbn [bind].
  unfold disc_transform. cbn [numeric_split_points set_splits]. rewrite digitize_sorted by auto. split; [auto|].
  split; [apply map_length|].
  assert (Lt : forall v, (Z.of_nat (searchsorted_right splits v) < k)%Z) by (intros v; pose proof (search_le splits v); lia).
  split. { intros i Hi. apply in_map_iff in Hi. destruct Hi as (v & <- & _). auto. }
  set (f := searchsorted_right splits) in *. set (n := Z.of_nat (List.length data)).
  assert (Hn : (1 <= n)%Z) by (unfold n; destruct data; [congruence|cbn; lia]).
  (* cumulated sizes *)
  assert (Cum : forall i, (Z.of_nat i + 1 < k)%Z ->
     ((Z.of_nat i + 1) * (n - 1) <= k * Z.of_nat (cum f data i) < (Z.of_nat i + 1) * (n - 1) + k)%Z).
  { intros i Hi. assert (Hl : (i < List.length splits)%nat) by lia.
    assert (Ec : cum f data i = List.length (filter (fun v => Qcltb v (nth i splits 0)) data)).
    { unfold cum. f_equal. apply filter_ext. intros v. unfold f.
      destruct (Qcltb v (nth i splits 0)) eqn:T.
      - apply Nat.leb_le. apply search_lt; auto. apply Qcltb_iff; auto.
      - apply Nat.leb_gt. destruct (Nat.le_gt_cases (searchsorted_right splits v) i) as [T'|T']; auto.
        apply search_lt in T'; auto. apply Qcltb_iff in T'. congruence. }
    rewrite Ec. clear Ec.
    assert (G : forall (A B : Type) (P : A -> B -> Prop) (la : list A) (lb : list B) a b i, Forall2 P la lb -> (i < List.length la)%nat -> P (nth i la a) (nth i lb b)).
    { clear. intros A B P la lb a b i H. revert i. induction H; intros [|i] Hi; cbn in *; try lia; auto. apply IHForall2. lia. }
    specialize (G _ _ _ _ _ 0 0 i F). rewrite map_length, seq_length in G. specialize (G ltac:(lia)). cbv zeta in G.
    rewrite (nth_indep (map (fun n => Qc_of_Z (Z.of_nat n + 1) / Qc_of_Z k) (seq 0 (Z.to_nat (k - 1)))) 0 (Qc_of_Z (Z.of_nat 0 + 1) / Qc_of_Z k)) in G by (rewrite map_length, seq_length; lia).
    rewrite (map_nth (fun n => Qc_of_Z (Z.of_nat n + 1) / Qc_of_Z k)) in G. rewrite seq_nth in G by lia. cbn [Nat.add] in G.
    destruct G as (G1 & _ & G2). specialize (G2 ND). set (c := List.length (filter (fun v => Qcltb v (nth i splits 0)) data)) in *.
    fold n in G1, G2. clearbody c.
    assert (Kp := of_Z_pos k ltac:(lia)).
    assert (K0 : Qc_of_Z k <> 0) by (apply Qclt_not_eq in Kp; congruence).
    assert (Em : Qc_of_Z (Z.of_nat i + 1) / Qc_of_Z k * (Qc_of_Z n - 1) * Qc_of_Z k = Qc_of_Z ((Z.of_nat i + 1) * (n - 1))).
    { rewrite of_Z_mul. replace (n - 1)%Z with (n + (-1))%Z by lia. rewrite (of_Z_add n).
      assert (E1 : Qc_of_Z (-1) = - (1)) by (apply Qc_is_canon; reflexivity). rewrite E1.
      clear -K0. revert K0. generalize (Qc_of_Z k), (Qc_of_Z n), (Qc_of_Z (Z.of_nat i + 1)). intros kk nn ii K0. field. auto. }
    split.
    - apply of_Z_le_inv. rewrite <- Em, of_Z_mul, (Qcmult_comm (Qc_of_Z k)). apply mul_le_mono; [auto|apply Qclt_le_weak; auto].
    - apply of_Z_lt_inv. rewrite of_Z_add, <- Em, of_Z_mul, (Qcmult_comm (Qc_of_Z k)).
      replace (Qc_of_Z (Z.of_nat i + 1) / Qc_of_Z k * (Qc_of_Z n - 1) * Qc_of_Z k + Qc_of_Z k)
        with ((Qc_of_Z (Z.of_nat i + 1) / Qc_of_Z k * (Qc_of_Z n - 1) + 1) * Qc_of_Z k) by ring.
      apply Qcmult_lt_compat_r; auto. }
  assert (Last : forall i, (Z.of_nat i + 1 = k)%Z -> Z.of_nat (cum f data i) = n).
  { intros i Hi. unfold cum, n. rewrite filter_all_true; auto. intros v _. apply Nat.leb_le. specialize (Lt v). lia. }
  assert (Size : forall i, (Z.of_nat i < k)%Z -> (n - 1 - k < k * Z.of_nat (bucket_size (map f data) i) <= n - 1 + k)%Z).
  { intros i Hi. destruct i as [|i].
    - rewrite size_0. destruct (Z.eq_dec (Z.of_nat 0 + 1) k) as [Ek|Nk].
      + rewrite (Last 0%nat Ek). cbn in Ek. subst k. lia.
      + specialize (Cum 0%nat ltac:(lia)). cbn [Z.of_nat] in Cum. lia.
    - destruct (size_cum f data i) as [Es Ls]. rewrite Es, Nat2Z.inj_sub by auto. clear Es Ls.
      pose proof (Cum i ltac:(lia)) as C0. destruct (Z.eq_dec (Z.of_nat (Datatypes.S i) + 1) k) as [Ek|Nk].
      + rewrite (Last (Datatypes.S i) Ek). set (ci := Z.of_nat (cum f data i)) in *.
        assert (Ei : (Z.of_nat i + 1 = k - 1)%Z) by lia. rewrite Ei in C0. clear -C0 Hn K1. nia.
      + pose proof (Cum (Datatypes.S i) ltac:(lia)) as C1. replace (Z.of_nat (Datatypes.S i)) with (Z.of_nat i + 1)%Z in C1 by lia.
        set (ci := Z.of_nat (cum f data i)) in *. set (cj := Z.of_nat (cum f data (Datatypes.S i))) in *.
        clear -C0 C1 Hn K1. nia. }
  intros i j Hi Hj. pose proof (Size i Hi). pose proof (Size j Hj). apply Nat2Z.inj_le. rewrite Nat2Z.inj_add.
  set (si := Z.of_nat (bucket_size (map f data) i)) in *. set (sj := Z.of_nat (bucket_size (map f data) j)) in *.
  clear -H H0 K1. change (Z.of_nat 1) with 1%Z. nia.
Qed.

(** ** C26 *)
Theorem fixed_not_fitted d data : reached_disc d -> method d = "fixed" -> disc_fit d data = Err RuntimeError.
Proof. intros _ M. unfold disc_fit. rewrite M. reflexivity. Qed.
