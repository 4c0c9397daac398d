(** * SemBin: the labels of binary variables. *)
From Coq Require Import List Bool Arith ZArith Lia String QArith Qcanon Permutation Reals Lra.
From Verif Require Import Base Names Digraph NetModel SmModel SmProofs QcX NotearsModel NotearsProofs TorchModel DiscModel MapperModel MapperProofs MapperThms AcycLink OrdProofs PoisModel PoisProofs GenModel SemModel SemProofs SemThms SemEq SemMain.
From Verif Require DiscProofs.
Import ListNotations.
Local Open Scope string_scope.
Local Open Scope list_scope.
Local Open Scope nat_scope.

Lemma filter_perm_length {A} (p : A -> bool) l l' : Permutation l l' -> List.length (filter p l) = List.length (filter p l').
Proof. induction 1; cbn [filter]; auto; try lia; repeat destruct (p _); cbn [List.length]; lia. Qed.

(** A list that is at most [t] up to position [k] and above [t] afterwards. *)
Lemma count_above (t : Qc) (x : list Qc) k : k <= List.length x -> (forall i, i < k -> (nth i x 0 <= t)%Qc) -> (forall i, k <= i -> i < List.length x -> (t < nth i x 0)%Qc) ->
  List.length (filter (qlt t) x) = List.length x - k.
Proof.
  revert k. induction x as [|a x IH]; intros k Hk H1 H2; [reflexivity|]. cbn [filter]. cbn [List.length] in *. destruct k as [|k].
  - pose proof (H2 0 ltac:(lia) ltac:(lia)) as Q. cbn [nth] in Q. apply qlt_iff in Q. rewrite Q. cbn [List.length]. rewrite (IH 0); [lia|lia|intros i Hi; lia|]. intros i _ Hi. apply (H2 (S i)); lia.
  - pose proof (H1 0 ltac:(lia)) as Q. cbn [nth] in Q. apply qlt_false in Q. rewrite Q. rewrite (IH k); [lia|lia| |]. + intros i Hi. apply (H1 (S i)). lia. + intros i Hi Hi'. apply (H2 (S i)); lia.
Qed.

Lemma nondecreasing_strict x i j : DiscProofs.nondecreasing x -> NoDup x -> i < j -> j < List.length x -> (nth i x 0 < nth j x 0)%Qc.
Proof.
  intros S N Hij Hj. assert (L : (nth i x 0 <= nth j x 0)%Qc) by (apply DiscProofs.nd_nth; auto; lia). apply Qcle_lt_or_eq in L. destruct L as [L|L]; auto. apply (proj1 (NoDup_nth x 0%Qc) N) in L; lia.
Qed.

(** How many values are above the quantile a / 20 of distinct values. *)
Lemma above_quantile l q (a : Z) : NoDup l -> l <> [] -> (q * Qc_of_Z 20 = Qc_of_Z a)%Qc -> (0 <= a)%Z -> (a <= 20)%Z ->
  exists lo, (20 * Z.of_nat lo <= a * (Z.of_nat (List.length l) - 1))%Z /\ (a * (Z.of_nat (List.length l) - 1) < 20 * (Z.of_nat lo + 1))%Z /\ lo < List.length l /\
    List.length (filter (qlt (quantile1 (qsort l) q)) l) = List.length l - 1 - lo.
Proof.
  intros N Hl Hq A0 A1. pose proof (DiscProofs.qsort_perm l) as P. pose proof (DiscProofs.qsort_sorted l) as Sx. set (x := qsort l) in *. assert (Nx : NoDup x) by (eapply Permutation_NoDup; eauto). pose proof (Permutation_length P) as L.
  assert (Hx : x <> []) by (intros E; rewrite E in L; destruct l; [congruence|discriminate]).
  assert (P20 : (0 < Qc_of_Z 20)%Qc) by reflexivity.
  assert (Q0 : (0 <= q)%Qc). { apply (Qcmult_lt_0_le_reg_r 0 q (Qc_of_Z 20)); auto. rewrite Hq. replace (0 * Qc_of_Z 20)%Qc with (Qc_of_Z 0) by reflexivity. apply DiscProofs.of_Z_le. auto. }
  assert (Q1 : (q <= 1)%Qc). { apply (Qcmult_lt_0_le_reg_r q 1 (Qc_of_Z 20)); auto. rewrite Hq. replace (1 * Qc_of_Z 20)%Qc with (Qc_of_Z 20) by reflexivity. apply DiscProofs.of_Z_le. auto. }
  destruct (DiscProofs.quantile_parts x q Hx Q0 Q1) as (lo & w & Eq & Hlo & W0 & W1 & Pos & Last).
  assert (E20 : (Qc_of_Z (a * (Z.of_nat (List.length l) - 1)) = Qc_of_Z (20 * Z.of_nat lo) + w * Qc_of_Z 20)%Qc).
  { rewrite !DiscProofs.of_Z_mul, <- Hq. unfold DiscProofs.position in Pos. rewrite <- L in Pos. transitivity (Qc_of_Z 20 * (q * Qc_of_Z (Z.of_nat (List.length l) - 1)))%Qc; [ring|]. rewrite Pos. ring. }
  exists lo. split; [|split; [|split; [lia|]]].
  - apply DiscProofs.of_Z_le_inv. rewrite E20. assert (Q : (0 <= w * Qc_of_Z 20)%Qc) by (apply Qc_mul_nonneg; auto; discriminate). revert Q. generalize (w * Qc_of_Z 20)%Qc (Qc_of_Z (20 * Z.of_nat lo)). intros. DiscProofs.ql.
  - apply DiscProofs.of_Z_lt_inv. rewrite E20. replace (20 * (Z.of_nat lo + 1))%Z with (20 * Z.of_nat lo + 20)%Z by lia. rewrite DiscProofs.of_Z_add. assert (Q : (w * Qc_of_Z 20 < 1 * Qc_of_Z 20)%Qc) by (apply Qcmult_lt_compat_r; auto). rewrite Qcmult_1_l in Q. revert Q. generalize (w * Qc_of_Z 20)%Qc (Qc_of_Z (20 * Z.of_nat lo)) (Qc_of_Z 20). intros. DiscProofs.ql.
  - rewrite (filter_perm_length _ _ _ P). rewrite (count_above _ x (S lo)); [lia|lia| |].
    + intros i Hi. rewrite Eq. assert (B : (nth lo x 0 <= nth (Nat.min (lo + 1) (List.length x - 1)) x 0)%Qc) by (apply DiscProofs.nd_nth; auto; lia).
      destruct (DiscProofs.interp_bounds _ _ w B W0 ltac:(DiscProofs.ql)) as [I0 _]. eapply Qcle_trans; [|exact I0]. apply DiscProofs.nd_nth; auto; lia.
    + intros i Hi Hi'. rewrite Eq. replace (Nat.min (lo + 1) (List.length x - 1)) with (S lo) by lia. assert (B : (nth lo x 0 < nth (S lo) x 0)%Qc) by (apply nondecreasing_strict; auto; lia).
      apply Qclt_le_trans with (nth (S lo) x 0%Qc); [|apply DiscProofs.nd_nth; auto; lia].
      apply Qcle_lt_or_eq in W0. destruct W0 as [W0|W0]; [apply DiscProofs.interp_strict; auto|]. rewrite <- W0. replace (nth lo x 0 * (1 - 0) + nth (S lo) x 0 * 0)%Qc with (nth lo x 0%Qc) by ring. auto.
Qed.

(** With two or more distinct latent values both labels occur, each in about 5% of the rows at least. *)
Theorem both_labels l th : threshold l th -> NoDup l -> 2 <= List.length l ->
  let ones := List.length (filter (qlt th) l) in
  List.length l <= 20 * ones + 1 /\ List.length l <= 20 * (List.length l - ones) /\ 0 < ones /\ ones < List.length l.
Proof.
  intros (T1 & T2 & T3) N L. cbv zeta. set (pos := List.length (filter (qlt 0) l)) in *. assert (Hl : l <> []) by (destruct l; [cbn in L; lia|discriminate]).
  destruct (Nat.lt_ge_cases (20 * pos) (List.length l)) as [C1|C1].
  - rewrite (T1 C1). destruct (above_quantile l (Q2Qc (1 # 20)) 1 N Hl) as (lo & L1 & L2 & L3 & ->); try lia. apply Qc_is_canon. reflexivity.
  - destruct (Nat.lt_ge_cases (19 * List.length l) (20 * pos)) as [C2|C2].
    + rewrite (T2 C2). destruct (above_quantile l (Q2Qc (19 # 20)) 19 N Hl) as (lo & L1 & L2 & L3 & ->); try lia. apply Qc_is_canon. reflexivity.
    + rewrite (T3 C1 C2). fold pos. lia.
Qed.

(** A larger latent value never gets a smaller label. *)
Lemma labels_mono l i j : i < List.length l -> j < List.length l -> (nth i l 0 <= nth j l 0)%Qc -> (nth i (binary_labels l) 0 <= nth j (binary_labels l) 0)%Qc.
Proof.
  intros Hi Hj H. destruct (binary_spec l) as (th & _ & ->). unfold above. rewrite (nth_indep _ 0%Qc (indicator (qlt th 0%Qc))) by (rewrite map_length; auto). rewrite (nth_indep _ 0%Qc (indicator (qlt th 0%Qc)) (n := j)) by (rewrite map_length; auto). rewrite !(map_nth (fun x => indicator (qlt th x))).
  destruct (qlt th (nth i l 0%Qc)) eqn:E1, (qlt th (nth j l 0%Qc)) eqn:E2; cbn [indicator]; try discriminate.
  apply qlt_iff in E1. apply qlt_false in E2. exfalso. apply (Qclt_not_le _ _ E1). eapply Qcle_trans; eauto.
Qed.

Lemma qsort_repeat (q : Qc) n : qsort (repeat q n) = repeat q n.
Proof.
  apply (isort_sorted_id Qcleb DiscProofs.Qcleb_total DiscProofs.Qcleb_trans DiscProofs.Qcleb_antisym).
  induction n as [|n IH]; cbn [repeat]; constructor; auto. apply Forall_forall. intros x Hx. apply repeat_spec in Hx. subst. apply DiscProofs.Qcleb_iff, Qcle_refl.
Qed.
Lemma nth_repeat_in (q : Qc) n i : i < n -> nth i (repeat q n) 0%Qc = q.
Proof. intros H. apply (repeat_spec n q). apply nth_In. rewrite repeat_length. auto. Qed.
Lemma quantile_repeat (q p : Qc) n : 0 < n -> (0 <= p)%Qc -> (p <= 1)%Qc -> quantile1 (repeat q n) p = q.
Proof.
  intros Hn P0 P1. destruct (DiscProofs.quantile_parts (repeat q n) p) as (lo & w & -> & Hlo & _); auto. { destruct n; [lia|discriminate]. }
  rewrite repeat_length in *. rewrite !nth_repeat_in by lia. ring.
Qed.

(** Equal values all get the label 0. *)
Lemma constant_labels (q : Qc) n : 0 < n -> binary_labels (repeat q n) = map (fun _ => 0%Qc) (repeat q n).
Proof.
  intros Hn. destruct (binary_spec (repeat q n)) as (th & (T1 & T2 & T3) & ->). rewrite qsort_repeat, !quantile_repeat in * by (auto; discriminate).
  rewrite repeat_length in *. assert (Th : th = q).
  { assert (C : List.length (filter (qlt 0) (repeat q n)) = 0 \/ List.length (filter (qlt 0) (repeat q n)) = n).
    { clear. destruct (qlt 0 q) eqn:E; [right|left]; induction n as [|n IH]; cbn [repeat filter]; auto; rewrite E; cbn [List.length]; auto. }
    destruct C as [C|C]; rewrite C in *; [apply T1; lia|apply T2; lia]. }
  subst th. unfold above. apply map_ext_in. intros x Hx. apply repeat_spec in Hx. subst. assert (E : qlt q q = false) by (apply qlt_false, Qcle_refl). rewrite E. reflexivity.
Qed.
