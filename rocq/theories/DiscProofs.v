(** * DiscProofs: lemmas about the discretiser. *)
From Coq Require Import List Bool Arith ZArith Lia String QArith Qround Qcanon Lqa Permutation Sorting.Sorted.
From Verif Require Import Base QcX DiscModel.
Import ListNotations.
Local Open Scope string_scope.
Local Open Scope list_scope.
Local Open Scope Qc_scope.

Ltac ql := unfold Qcminus in *; qlra.

Lemma Qcleb_iff a b : Qcleb a b = true <-> a <= b.
Proof. unfold Qcleb. rewrite Qle_bool_iff. reflexivity. Qed.

Lemma Qcltb_iff a b : Qcltb a b = true <-> a < b.
Proof.
  unfold Qcltb. destruct (Qcleb b a) eqn:E; cbn; split; try discriminate; auto.
  - apply Qcleb_iff in E. intros H. exfalso. ql.
  - intros _. destruct (Qclt_le_dec a b) as [H|H]; auto. apply Qcleb_iff in H. congruence.
Qed.

Lemma Qcleb_false a b : Qcleb a b = false <-> b < a.
Proof. rewrite <- Qcltb_iff. unfold Qcltb. destruct (Qcleb a b); cbn; intuition congruence. Qed.

Lemma Qcleb_total a b : Qcleb a b = true \/ Qcleb b a = true.
Proof. rewrite !Qcleb_iff. destruct (Qclt_le_dec a b); [left|right]; auto. apply Qclt_le_weak; auto. Qed.
Lemma Qcleb_trans a b c : Qcleb a b = true -> Qcleb b c = true -> Qcleb a c = true.
Proof. rewrite !Qcleb_iff. apply Qcle_trans. Qed.
Lemma Qcleb_antisym a b : Qcleb a b = true -> Qcleb b a = true -> a = b.
Proof. rewrite !Qcleb_iff. apply Qcle_antisym. Qed.

(** ** Sorted lists *)
Definition nondecreasing (l : list Qc) : Prop := StronglySorted (fun a b => a <= b) l.

Lemma qsort_sorted l : nondecreasing (qsort l).
Proof.
  assert (H : StronglySorted (fun a b => Qcleb a b = true) (qsort l)).
  { apply isort_sorted; [apply Qcleb_total|apply Qcleb_trans]. }
  induction H as [|a l' H IH F]; constructor; auto.
  eapply Forall_impl; [|exact F]. cbn. intros. apply Qcleb_iff; auto.
Qed.

Lemma qsort_perm l : Permutation l (qsort l).
Proof. apply isort_perm. Qed.

Lemma qlist_eqb_iff a b : qlist_eqb a b = true <-> a = b.
Proof.
  revert b. induction a as [|x a IH]; intros [|y b]; cbn; try (split; congruence).
  rewrite andb_true_iff, Qc_eq_bool_iff, IH. split; [intros [-> ->]; auto|intros [= -> ->]; auto].
Qed.

Lemma unsorted_false l : unsorted l = false <-> nondecreasing l.
Proof.
  unfold unsorted. rewrite negb_false_iff, qlist_eqb_iff. split.
  - intros <-. apply qsort_sorted.
  - intros H. apply (isort_sorted_id Qcleb Qcleb_total Qcleb_trans Qcleb_antisym).
    induction H as [|a l' H IH F]; constructor; auto.
    eapply Forall_impl; [|exact F]. cbn. intros. apply Qcleb_iff; auto.
Qed.

Lemma monotone_true l : nondecreasing l -> monotone Qcleb l = true.
Proof.
  induction 1 as [|a [|b l] H IH F]; auto. cbn. apply andb_true_iff. split; [|exact IH].
  apply Qcleb_iff. inversion F; auto.
Qed.

Lemma nd_nth l i j : nondecreasing l -> (i <= j)%nat -> (j < List.length l)%nat -> nth i l 0 <= nth j l 0.
Proof.
  intros H. revert i j. induction H as [|a l H IH F]; cbn; intros i j Hi Hj; [lia|].
  destruct i as [|i], j as [|j]; try lia.
  - ql.
  - rewrite Forall_forall in F. apply F. apply nth_In. lia.
  - apply IH; lia.
Qed.

Lemma nd_of_nth l : (forall i, (Datatypes.S i < List.length l)%nat -> nth i l 0 <= nth (Datatypes.S i) l 0) -> nondecreasing l.
Proof.
  intros H. apply Sorted_StronglySorted; [intros a b c; apply Qcle_trans|].
  induction l as [|a l IH]; constructor.
  - apply IH. intros i Hi. apply (H (Datatypes.S i)). cbn. lia.
  - destruct l; constructor. apply (H 0%nat). cbn. lia.
Qed.

Lemma nd_last l : l <> [] -> nth (List.length l - 1) l 0 = last l 0.
Proof.
  intros H. destruct (exists_last H) as (l' & a & ->). rewrite last_last, app_length. cbn.
  replace (List.length l' + 1 - 1)%nat with (List.length l') by lia. rewrite nth_middle. auto.
Qed.

Lemma nd_bounds l a : nondecreasing l -> In a l -> nth 0 l 0 <= a /\ a <= nth (List.length l - 1) l 0.
Proof.
  intros H Ha. destruct (In_nth l a 0 Ha) as (i & Hi & <-). split; apply nd_nth; auto; lia.
Qed.

(** ** digitize *)
Lemma search_count l v : nondecreasing l -> searchsorted_right l v = List.length (filter (fun s => Qcleb s v) l).
Proof.
  induction 1 as [|a l H IH F]; auto. cbn. destruct (Qcleb a v) eqn:E; cbn; [congruence|].
  apply Qcleb_false in E. clear -E F. induction F as [|b l Hb F IH]; auto. cbn.
  replace (Qcleb b v) with false; auto. symmetry. apply Qcleb_false. eapply Qclt_le_trans; eauto.
Qed.

Lemma search_spec l v i : nondecreasing l -> (i <= List.length l)%nat ->
  searchsorted_right l v = i <->
  (forall j, (j < i)%nat -> nth j l 0 <= v) /\ (forall j, (i <= j)%nat -> (j < List.length l)%nat -> v < nth j l 0).
Proof.
  intros H. revert i. induction H as [|a l H IH F]; intros i Hi; cbn in *.
  { replace i with 0%nat by lia. split; auto. split; intros; lia. }
  destruct (Qcleb a v) eqn:E.
  - apply Qcleb_iff in E. destruct i as [|i].
    + split; [lia|]. intros [_ H2]. specialize (H2 0%nat ltac:(lia) ltac:(lia)). cbn in H2. exfalso. ql.
    + rewrite Nat.succ_inj_wd, IH by lia. split; intros [H1 H2]; split.
      * intros [|j] Hj; auto. apply H1. lia.
      * intros [|j] Hj Hl; [lia|]. apply H2; lia.
      * intros j Hj. apply (H1 (Datatypes.S j)). lia.
      * intros j Hj Hl. apply (H2 (Datatypes.S j)); lia.
  - apply Qcleb_false in E. destruct i as [|i].
    + split; auto. intros _. split; [lia|]. intros [|j] _ Hl; auto. rewrite Forall_forall in F.
      eapply Qclt_le_trans; [exact E|]. apply F, nth_In. lia.
    + split; [lia|]. intros [H1 _]. specialize (H1 0%nat ltac:(lia)). cbn in H1. exfalso. ql.
Qed.

Lemma search_le l v : (searchsorted_right l v <= List.length l)%nat.
Proof. induction l; cbn; [lia|]. destruct (Qcleb a v); lia. Qed.

Lemma search_mono l v v' : v <= v' -> (searchsorted_right l v <= searchsorted_right l v')%nat.
Proof.
  intros Hv. induction l as [|a l IH]; cbn; [lia|]. destruct (Qcleb a v) eqn:E; [|lia].
  replace (Qcleb a v') with true; [lia|]. symmetry. apply Qcleb_iff in E. apply Qcleb_iff. ql.
Qed.

Lemma digitize_sorted data l : nondecreasing l -> digitize data l = Ok (map (searchsorted_right l) data).
Proof. intros H. unfold digitize. rewrite monotone_true; auto. Qed.

(** ** Quantiles *)
Lemma this_of_Z z : (this (Qc_of_Z z) == inject_Z z)%Q.
Proof. unfold Qc_of_Z, Q2Qc. cbn [this]. apply Qred_correct. Qed.

Lemma of_Z_le a b : (a <= b)%Z -> Qc_of_Z a <= Qc_of_Z b.
Proof. intros H. unfold Qcle. rewrite !this_of_Z. rewrite <- Zle_Qle. auto. Qed.
Lemma of_Z_lt a b : (a < b)%Z -> Qc_of_Z a < Qc_of_Z b.
Proof. intros H. unfold Qclt. rewrite !this_of_Z. rewrite <- Zlt_Qlt. auto. Qed.
Lemma of_Z_le_inv a b : Qc_of_Z a <= Qc_of_Z b -> (a <= b)%Z.
Proof. unfold Qcle. rewrite !this_of_Z. rewrite <- Zle_Qle. auto. Qed.
Lemma of_Z_lt_inv a b : Qc_of_Z a < Qc_of_Z b -> (a < b)%Z.
Proof. unfold Qclt. rewrite !this_of_Z. rewrite <- Zlt_Qlt. auto. Qed.
Lemma of_Z_add a b : Qc_of_Z (a + b) = Qc_of_Z a + Qc_of_Z b.
Proof. apply Qc_is_canon. unfold Qcplus, Q2Qc. cbn [this]. rewrite Qred_correct, !this_of_Z. rewrite inject_Z_plus. reflexivity. Qed.
Lemma of_Z_mul a b : Qc_of_Z (a * b) = Qc_of_Z a * Qc_of_Z b.
Proof. apply Qc_is_canon. unfold Qcmult, Q2Qc. cbn [this]. rewrite Qred_correct, !this_of_Z. rewrite inject_Z_mult. reflexivity. Qed.

Lemma floor_spec (h : Qc) : Qc_of_Z (Qfloor (this h)) <= h /\ h < Qc_of_Z (Qfloor (this h) + 1).
Proof.
  unfold Qcle, Qclt. rewrite !this_of_Z. split; [apply Qfloor_le|apply Qlt_floor].
Qed.

(** The position of quantile [q] in [n] sorted values. *)
Definition position (n : nat) (q : Qc) : Qc := q * Qc_of_Z (Z.of_nat n - 1).

Lemma position_range n q : (0 < n)%nat -> 0 <= q -> q <= 1 -> 0 <= position n q /\ position n q <= Qc_of_Z (Z.of_nat n - 1).
Proof.
  intros Hn H0 H1. unfold position. assert (P : 0 <= Qc_of_Z (Z.of_nat n - 1)).
  { replace 0 with (Qc_of_Z 0) by reflexivity. apply of_Z_le. lia. }
  split; [apply Qc_mul_nonneg; auto|].
  replace (Qc_of_Z (Z.of_nat n - 1)) with (1 * Qc_of_Z (Z.of_nat n - 1)) at 2 by ring.
  apply Qcmult_le_compat_r; auto.
Qed.

(** [lo], [w]: integral and fractional part of the position. *)
Lemma quantile_parts x q : x <> [] -> 0 <= q -> q <= 1 ->
  exists lo w, quantile1 x q = nth lo x 0 * (1 - w) + nth (Nat.min (lo + 1) (List.length x - 1)) x 0 * w /\
    (lo < List.length x)%nat /\ 0 <= w /\ w < 1 /\ position (List.length x) q = Qc_of_Z (Z.of_nat lo) + w /\
    ((lo + 1)%nat = List.length x -> w = 0).
Proof.
  intros Hx H0 H1. assert (Hn : (0 < List.length x)%nat) by (destruct x; [congruence|cbn; lia]).
  destruct (position_range (List.length x) q Hn H0 H1) as [P0 P1].
  unfold quantile1. fold (position (List.length x) q). set (h := position (List.length x) q) in *.
  clearbody h. destruct (floor_spec h) as [F0 F1].
  assert (Z0 : (0 <= Qfloor (this h))%Z).
  { assert (Hz : 0 < Qc_of_Z (Qfloor (this h) + 1)) by ql.
    change 0 with (Qc_of_Z 0) in Hz. apply of_Z_lt_inv in Hz. lia. }
  assert (Z1 : (Qfloor (this h) <= Z.of_nat (List.length x) - 1)%Z) by (apply of_Z_le_inv; ql).
  exists (Z.to_nat (Qfloor (this h))), (h - Qc_of_Z (Z.of_nat (Z.to_nat (Qfloor (this h))))).
  rewrite Z2Nat.id by auto. rewrite of_Z_add in F1. change (Qc_of_Z 1) with 1 in F1.
  split; [reflexivity|]. split; [lia|]. split; [ql|]. split; [ql|]. split; [ring|].
  intros E. replace (Qfloor (this h)) with (Z.of_nat (List.length x) - 1)%Z in * by lia. ql.
Qed.

Lemma mul_le_mono a b w : a <= b -> 0 <= w -> a * w <= b * w.
Proof. apply Qcmult_le_compat_r. Qed.

Lemma interp_bounds a b w : a <= b -> 0 <= w -> w <= 1 -> a <= a * (1 - w) + b * w /\ a * (1 - w) + b * w <= b.
Proof.
  intros H W0 W1. assert (H0 : a * w <= b * w) by (apply mul_le_mono; auto).
  assert (H1 : a * (1 - w) <= b * (1 - w)) by (apply mul_le_mono; auto; ql).
  split.
  - replace a with (a * (1 - w) + a * w) at 1 by ring. apply Qcplus_le_compat; auto. apply Qcle_refl.
  - replace b with (b * (1 - w) + b * w) at 2 by ring. apply Qcplus_le_compat; auto. apply Qcle_refl.
Qed.

Lemma interp_strict a b w : a < b -> 0 < w -> w < 1 -> a < a * (1 - w) + b * w /\ a * (1 - w) + b * w < b.
Proof.
  intros H W0 W1. assert (H0 : a * w < b * w) by (apply Qcmult_lt_compat_r; auto).
  assert (H1 : a * (1 - w) < b * (1 - w)) by (apply Qcmult_lt_compat_r; auto; ql).
  assert (E1 : a * (1 - w) = a - a * w) by ring. assert (E2 : b * (1 - w) = b - b * w) by ring.
  rewrite E1, E2 in H1. rewrite E1. clear E1 E2. revert H0 H1. generalize (a * w), (b * w). intros. split; ql.
Qed.

Lemma interp_mono a b w w' : a <= b -> w <= w' -> a * (1 - w) + b * w <= a * (1 - w') + b * w'.
Proof.
  intros H W. assert (P : 0 <= (b - a) * (w' - w)) by (apply Qc_mul_nonneg; ql).
  replace (a * (1 - w') + b * w') with (a * (1 - w) + b * w + (b - a) * (w' - w)) by ring.
  generalize dependent ((b - a) * (w' - w)). generalize (a * (1 - w) + b * w). intros. ql.
Qed.

Lemma quantile_bounds x q : nondecreasing x -> x <> [] -> 0 <= q -> q <= 1 ->
  nth 0 x 0 <= quantile1 x q /\ quantile1 x q <= nth (List.length x - 1) x 0.
Proof.
  intros Hs Hx H0 H1. destruct (quantile_parts x q Hx H0 H1) as (lo & w & -> & Hlo & W0 & W1 & _).
  assert (B : nth lo x 0 <= nth (Nat.min (lo + 1) (List.length x - 1)) x 0) by (apply nd_nth; auto; lia).
  destruct (interp_bounds _ _ w B W0 ltac:(ql)) as [I0 I1].
  split; (eapply Qcle_trans; [|eassumption]) || (eapply Qcle_trans; [eassumption|]); apply nd_nth; auto; lia.
Qed.

Lemma quantile_mono x q q' : nondecreasing x -> x <> [] -> 0 <= q -> q <= q' -> q' <= 1 -> quantile1 x q <= quantile1 x q'.
Proof.
  intros Hs Hx H0 Hq H1.
  destruct (quantile_parts x q Hx H0 ltac:(ql)) as (lo & w & -> & Hlo & W0 & W1 & P & E).
  destruct (quantile_parts x q' Hx ltac:(ql) H1) as (lo' & w' & -> & Hlo' & W0' & W1' & P' & E').
  assert (Hp : position (List.length x) q <= position (List.length x) q').
  { apply mul_le_mono; auto. change 0 with (Qc_of_Z 0). apply of_Z_le. lia. }
  assert (L : (lo <= lo')%nat).
  { assert (Hl : Qc_of_Z (Z.of_nat lo) < Qc_of_Z (Z.of_nat lo' + 1)).
    { rewrite of_Z_add. change (Qc_of_Z 1) with 1. rewrite P, P' in Hp. ql. }
    apply of_Z_lt_inv in Hl. lia. }
  destruct (Nat.eq_dec lo lo') as [->|N].
  - apply interp_mono; [apply nd_nth; auto; lia|]. rewrite P, P' in Hp. ql.
  - assert (B : nth lo x 0 <= nth (Nat.min (lo + 1) (List.length x - 1)) x 0) by (apply nd_nth; auto; lia).
    assert (B' : nth lo' x 0 <= nth (Nat.min (lo' + 1) (List.length x - 1)) x 0) by (apply nd_nth; auto; lia).
    destruct (interp_bounds _ _ w B W0 ltac:(ql)) as [_ I1].
    destruct (interp_bounds _ _ w' B' W0' ltac:(ql)) as [I2 _].
    eapply Qcle_trans; [exact I1|]. eapply Qcle_trans; [|exact I2]. apply nd_nth; auto; lia.
Qed.

(** ** Counting *)
Definition below (s : Qc) (l : list Qc) : nat := List.length (filter (fun v => Qcltb v s) l).
Definition upto (s : Qc) (l : list Qc) : nat := List.length (filter (fun v => Qcleb v s) l).

Lemma filter_perm_len {A} (P : A -> bool) l l' : Permutation l l' -> List.length (filter P l) = List.length (filter P l').
Proof. induction 1; cbn; auto; repeat match goal with |- context [if ?b then _ else _] => destruct b end; cbn; lia. Qed.

Lemma filter_all_false {A} (P : A -> bool) l : (forall x, In x l -> P x = false) -> filter P l = [].
Proof. induction l as [|a l IH]; cbn; intros H; auto. rewrite (H a) by auto. auto. Qed.
Lemma filter_all_true {A} (P : A -> bool) l : (forall x, In x l -> P x = true) -> filter P l = l.
Proof. induction l as [|a l IH]; cbn; intros H; auto. rewrite (H a) by auto. f_equal. auto. Qed.
Lemma filter_len_le {A} (P : A -> bool) l : (List.length (filter P l) <= List.length l)%nat.
Proof. induction l as [|a l IH]; cbn; [lia|]. destruct (P a); cbn; lia. Qed.

Lemma nth_firstn {A} i n (l : list A) d : (i < n)%nat -> nth i (firstn n l) d = nth i l d.
Proof. revert i l. induction n as [|n IH]; intros [|i] [|a l] H; cbn; auto; try lia. apply IH. lia. Qed.
Lemma nth_skipn {A} i n (l : list A) d : nth i (skipn n l) d = nth (n + i) l d.
Proof. revert l. induction n as [|n IH]; intros [|a l]; cbn; auto. destruct i; auto. Qed.

Lemma count_le {A} (P : A -> bool) l i d : (i <= List.length l)%nat ->
  (forall j, (i <= j)%nat -> (j < List.length l)%nat -> P (nth j l d) = false) -> (List.length (filter P l) <= i)%nat.
Proof.
  intros Hi H. rewrite <- (firstn_skipn i l), filter_app, app_length.
  rewrite (filter_all_false P (skipn i l)).
  - cbn. pose proof (filter_len_le P (firstn i l)). rewrite firstn_length in H0. lia.
  - intros x Hx. destruct (In_nth _ x d Hx) as (j & Hj & <-). rewrite skipn_length in Hj. rewrite nth_skipn. apply H; lia.
Qed.
Lemma count_ge {A} (P : A -> bool) l i d : (i <= List.length l)%nat ->
  (forall j, (j < i)%nat -> P (nth j l d) = true) -> (i <= List.length (filter P l))%nat.
Proof.
  intros Hi H. rewrite <- (firstn_skipn i l), filter_app, app_length.
  rewrite (filter_all_true P (firstn i l)).
  - rewrite firstn_length. lia.
  - intros x Hx. destruct (In_nth _ x d Hx) as (j & Hj & <-). rewrite firstn_length in Hj. rewrite nth_firstn by lia. apply H; lia.
Qed.
