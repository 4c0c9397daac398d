(** * AcycThms: the acyclicity functions vanish exactly on acyclic graphs. *)
From Coq Require Import List Arith Lia Reals Lra Relations Permutation.
From Verif Require Import AcycModel AcycProofs.
Import ListNotations.
Local Open Scope R_scope.

Lemma squared_nonneg d W : nonneg_mat d (squared W).
Proof. intros i j _ _. unfold squared. apply Rle_0_sqr. Qed.

Lemma clos_ext (E E' : nat -> nat -> Prop) i j : (forall a b, E a b -> E' a b) -> clos_trans nat E i j -> clos_trans nat E' i j.
Proof. intros H. induction 1; [apply t_step; auto|eapply t_trans; eauto]. Qed.

Lemma squared_edge d W i j : medge d (squared W) i j <-> medge d W i j.
Proof.
  unfold medge, squared. split; intros (A & B & C); (split; [exact A|]; split; [exact B|]); intros Z.
  - rewrite Z in C. lra.
  - apply C. apply Rmult_integral in Z. tauto.
Qed.

Lemma squared_dag d W : dag d (squared W) <-> dag d W.
Proof. unfold dag. split; intros H i C; apply (H i); eapply clos_ext; try exact C; intros; apply squared_edge; auto. Qed.

(** ** The exponential *)
Definition term (d : nat) (A : rmat) (k : nat) : R := tr d (mpow d A k) / INR (fact k).

Lemma fact_pos k : 0 < INR (fact k).
Proof. apply lt_0_INR, lt_O_fact. Qed.

Lemma term_nonneg d A k : nonneg_mat d A -> 0 <= term d A k.
Proof. intros H. apply Rmult_le_pos; [apply tr_nonneg; auto|]. left. apply Rinv_0_lt_compat, fact_pos. Qed.

Lemma term_0 d A : term d A 0 = INR d.
Proof. unfold term. rewrite tr_0. cbn. field. Qed.

Lemma entries_bounded d (A : rmat) : exists M, 0 <= M /\ forall i j, (i < d)%nat -> (j < d)%nat -> A i j <= M.
Proof.
  exists (rsum d (fun i => rsum d (fun j => Rabs (A i j)))). split.
  - apply lsum_nonneg. intros i _. apply lsum_nonneg. intros j _. apply Rabs_pos.
  - intros i j Hi Hj. apply Rle_trans with (Rabs (A i j)); [apply Rle_abs|].
    apply Rle_trans with (rsum d (fun j => Rabs (A i j))).
    + apply (lsum_member (fun j => Rabs (A i j))); [intros; apply Rabs_pos|apply in_seq0; auto].
    + apply (lsum_member (fun i => rsum d (fun j => Rabs (A i j)))); [|apply in_seq0; auto].
      intros y _. apply lsum_nonneg. intros; apply Rabs_pos.
Qed.

Lemma term_bound d A M k : nonneg_mat d A -> 0 <= M -> (forall i j, (i < d)%nat -> (j < d)%nat -> A i j <= M) ->
  term d A k <= INR d * (/ INR (fact k) * (INR d * M) ^ k).
Proof.
  intros H HM B. unfold term, Rdiv. rewrite (Rmult_comm (/ _)), <- Rmult_assoc. apply Rmult_le_compat_r; [left; apply Rinv_0_lt_compat, fact_pos|].
  unfold tr, rsum. apply Rle_trans with (lsum (fun _ => (INR d * M) ^ k) (seq 0 d)).
  - apply lsum_le. intros i Hi. apply in_seq0 in Hi. apply mpow_bound; auto.
  - rewrite lsum_const, seq_length. lra.
Qed.

Lemma exp_sum x : infinite_sum (fun k => / INR (fact k) * x ^ k) (exp x).
Proof. unfold exp. destruct (exist_exp x) as (l & H). exact H. Qed.

Lemma sum_scal c (f : nat -> R) n : sum_f_R0 (fun k => c * f k) n = c * sum_f_R0 f n.
Proof. induction n; cbn; [lra|]. rewrite IHn. lra. Qed.

Lemma infinite_sum_scal c f l : infinite_sum f l -> infinite_sum (fun k => c * f k) (c * l).
Proof.
  intros H. assert (U : Un_cv (fun n => sum_f_R0 f n) l) by exact H.
  assert (U2 : Un_cv (fun n => c * sum_f_R0 f n) (c * l)).
  { apply (CV_mult (fun _ => c)); auto. intros e He. exists 0%nat. intros. unfold R_dist. replace (c - c) with 0 by lra. rewrite Rabs_R0. auto. }
  intros e He. destruct (U2 e He) as (N & P). exists N. intros n Hn. rewrite sum_scal. apply P. auto.
Qed.

Theorem exp_penalty_ex d W : exists h, exp_penalty d W h.
Proof.
  destruct (entries_bounded d (squared W)) as (M & HM & B).
  destruct (Rseries_CV_comp (term d (squared W)) (fun k => INR d * (/ INR (fact k) * (INR d * M) ^ k))) as (l & Hl).
  - intros k. split; [apply term_nonneg, squared_nonneg|apply term_bound; auto; apply squared_nonneg].
  - exists (INR d * exp (INR d * M)). apply infinite_sum_scal, exp_sum.
  - exists (l - INR d). unfold exp_penalty. replace (l - INR d + INR d) with l by lra. exact Hl.
Qed.

Theorem exp_penalty_unique d W h h' : exp_penalty d W h -> exp_penalty d W h' -> h = h'.
Proof. intros H H'. pose proof (uniqueness_sum _ _ _ H H'). lra. Qed.

Lemma partial_le (f : nat -> R) l n : (forall k, 0 <= f k) -> infinite_sum f l -> sum_f_R0 f n <= l.
Proof.
  intros P H. apply (growing_ineq (fun n => sum_f_R0 f n)); [|exact H]. intros k. cbn. specialize (P (S k)). lra.
Qed.

Lemma sum_split_0 (f : nat -> R) n k : (forall k, 0 <= f k) -> (0 < k <= n)%nat -> f 0%nat + f k <= sum_f_R0 f n.
Proof.
  intros P. induction n as [|n IH]; intros Hk; [lia|]. cbn. destruct (Nat.eq_dec k (S n)) as [->|N].
  - apply Rplus_le_compat_r. clear IH Hk. induction n; cbn; [lra|]. specialize (P (S n)). lra.
  - specialize (P (S n)). pose proof (IH ltac:(lia)). lra.
Qed.

(** Every positive power is a lower bound. *)
Lemma penalty_ge_term d W h k : exp_penalty d W h -> (0 < k)%nat -> term d (squared W) k <= h.
Proof.
  intros H Hk. assert (P : forall k, 0 <= term d (squared W) k) by (intros; apply term_nonneg, squared_nonneg).
  pose proof (partial_le _ _ k P H) as L. pose proof (sum_split_0 (term d (squared W)) k k P ltac:(lia)) as S. rewrite term_0 in S. lra.
Qed.

Theorem exp_penalty_nonneg d W h : exp_penalty d W h -> 0 <= h.
Proof. intros H. apply Rle_trans with (term d (squared W) 1); [apply term_nonneg, squared_nonneg|apply penalty_ge_term; auto]. Qed.

Theorem exp_penalty_zero d W h : exp_penalty d W h -> (h = 0 <-> dag d W).
Proof.
  intros H. split.
  - intros -> i C. apply (clos_ext _ (medge d (squared W))) in C; [|intros; apply squared_edge; auto].
    apply not_dag_cycle in C. destruct C as (L & u & HL & Wk & C & N).
    destruct (cycle_positive d (squared W) L u) as [_ P]; auto; [apply squared_nonneg|].
    pose proof (penalty_ge_term d W 0 L H HL) as Q. unfold term in Q.
    assert (0 < tr d (mpow d (squared W) L) / INR (fact L)) by (apply Rmult_lt_0_compat; auto; apply Rinv_0_lt_compat, fact_pos). lra.
  - intros D. apply squared_dag in D.
    assert (S : forall n, sum_f_R0 (fun k => tr d (mpow d (squared W) k) / INR (fact k)) n = INR d).
    { induction n as [|n IH]; cbn [sum_f_R0].
      - fold (term d (squared W) 0). apply term_0.
      - rewrite IH, (dag_trace d (squared W) (S n)); auto; [|apply squared_nonneg|lia]. unfold Rdiv. lra. }
    assert (I : infinite_sum (fun k => tr d (mpow d (squared W) k) / INR (fact k)) (INR d)).
    { intros e He. exists 0%nat. intros n _. rewrite S. unfold R_dist. replace (INR d - INR d) with 0 by lra. rewrite Rabs_R0. auto. }
    pose proof (uniqueness_sum _ _ _ H I). lra.
Qed.

(** ** The polynomial *)
Section Poly.
  Variables (d : nat) (A : rmat).
  Hypothesis HA : nonneg_mat d A.
  Hypothesis Hd : (0 < d)%nat.

  Definition scaled : rmat := fun i j => A i j / INR d.
  Definition charm : rmat := fun i j => mid i j + A i j / INR d.

  Lemma INRd : 0 < INR d.
  Proof. apply lt_0_INR; auto. Qed.

  Lemma scaled_nonneg : nonneg_mat d scaled.
  Proof. intros i j Hi Hj. apply Rmult_le_pos; auto. left. apply Rinv_0_lt_compat, INRd. Qed.
  Lemma charm_nonneg : nonneg_mat d charm.
  Proof. intros i j Hi Hj. apply Rplus_le_le_0_compat; [apply mid_nonneg|apply scaled_nonneg; auto]. Qed.

  Lemma scaled_edge i j : medge d scaled i j <-> medge d A i j.
  Proof.
    unfold medge, scaled. split; intros (X & Y & Z); repeat split; auto; intros E; apply Z.
    - rewrite E. unfold Rdiv. lra.
    - unfold Rdiv in E. apply Rmult_integral in E. destruct E as [E|E]; auto. pose proof (Rinv_0_lt_compat _ INRd). lra.
  Qed.

  (** The polynomial is the trace of the power. *)
  Lemma poly_trace : poly_penalty d A = tr d (mpow d charm d) - INR d.
  Proof.
    unfold poly_penalty. fold charm. f_equal. unfold tr, rsum.
    transitivity (lsum (fun j => lsum (fun i => mpow d charm (d - 1) j i * charm i j) (seq 0 d)) (seq 0 d)); [apply lsum_swap|].
    apply lsum_ext. intros i Hi. apply in_seq0 in Hi. replace (mpow d charm d i i) with (mpow d charm (d - 1 + 1) i i) by (f_equal; lia).
    rewrite mpow_add by auto. unfold mmul. apply lsum_ext. intros k Hk. apply in_seq0 in Hk. f_equal. symmetry. apply mpow_1; auto.
  Qed.

  Lemma charm_step n i j : (i < d)%nat -> mpow d charm (S n) i j = mpow d charm n i j + mmul d scaled (mpow d charm n) i j.
  Proof.
    intros Hi. cbn [mpow]. unfold mmul, rsum. rewrite <- (rsum_delta d i (fun k => mpow d charm n k j)) by auto. unfold rsum.
    rewrite <- lsum_plus. apply lsum_ext. intros k _. unfold charm at 1, scaled. lra.
  Qed.

  Lemma charm_mono n m i j : (i < d)%nat -> (j < d)%nat -> (n <= m)%nat -> mpow d charm n i j <= mpow d charm m i j.
  Proof.
    intros Hi Hj L. induction L as [|m L IH]; [lra|]. rewrite charm_step by auto.
    assert (0 <= mmul d scaled (mpow d charm m) i j) by (apply mmul_nonneg; auto; [apply scaled_nonneg|apply mpow_nonneg, charm_nonneg]). lra.
  Qed.

  Lemma charm_ge n i j : (i < d)%nat -> (j < d)%nat -> mid i j + mpow d scaled (S n) i j <= mpow d charm (S n) i j.
  Proof.
    revert i j. induction n as [|n IH]; intros i j Hi Hj.
    - rewrite !mpow_1 by auto. unfold charm, scaled. lra.
    - rewrite charm_step by auto. apply Rplus_le_compat.
      + apply (charm_mono 0 (S n)); auto; lia.
      + change (mpow d scaled (S (S n)) i j) with (mmul d scaled (mpow d scaled (S n)) i j). apply lsum_le. intros k Hk. apply in_seq0 in Hk.
        apply Rmult_le_compat_l; [apply scaled_nonneg; auto|]. pose proof (IH k j Hk Hj). pose proof (mid_nonneg k j). lra.
  Qed.

  Lemma poly_ge_power k : (0 < k <= d)%nat -> tr d (mpow d scaled k) <= poly_penalty d A.
  Proof.
    intros Hk. rewrite poly_trace. replace (INR d) with (tr d mid) by apply (tr_0 d A).
    assert (tr d mid + tr d (mpow d scaled k) <= tr d (mpow d charm d)); [|lra].
    unfold tr, rsum. rewrite <- lsum_plus. apply lsum_le. intros i Hi. apply in_seq0 in Hi.
    apply Rle_trans with (mpow d charm k i i); [|apply charm_mono; auto; lia].
    destruct k as [|k]; [lia|]. apply charm_ge; auto.
  Qed.

  Lemma poly_nonneg : 0 <= poly_penalty d A.
  Proof. apply Rle_trans with (tr d (mpow d scaled 1)); [apply tr_nonneg, scaled_nonneg|apply poly_ge_power; lia]. Qed.

  (** Off the identity, the power of I + A/d follows walks. *)
  Lemma charm_walk n : forall i j, (i < d)%nat -> (j < d)%nat -> mpow d charm n i j - mid i j <> 0 -> clos_trans nat (medge d A) i j.
  Proof.
    induction n as [|n IH]; intros i j Hi Hj; [cbn; lra|]. rewrite charm_step by auto. intros N.
    destruct (Req_dec (mpow d charm n i j - mid i j) 0) as [E|E]; [|apply IH; auto].
    assert (P : mmul d scaled (mpow d charm n) i j <> 0) by lra.
    apply lsum_pos_ex in P.
    2:{ intros k Hk. apply in_seq0 in Hk. apply Rmult_le_pos; [apply scaled_nonneg; auto|apply mpow_nonneg; auto; apply charm_nonneg]. }
    destruct P as (k & Hk & P). apply in_seq0 in Hk.
    assert (Ek : medge d A i k) by (apply scaled_edge; repeat split; auto; intros Z; rewrite Z in P; lra).
    destruct (Nat.eq_dec k j) as [->|Nk]; [apply t_step; auto|].
    apply t_trans with k; [apply t_step; auto|]. apply IH; auto. unfold mid. destruct (Nat.eqb_spec k j); [congruence|].
    intros Z. replace (mpow d charm n k j) with 0 in P by lra. lra.
  Qed.

  Theorem poly_zero : poly_penalty d A = 0 <-> dag d A.
  Proof.
    split.
    - intros Z i C. apply (clos_ext _ (medge d scaled)) in C; [|intros; apply scaled_edge; auto].
      apply not_dag_cycle in C. destruct C as (L & u & HL & Wk & C & N).
      destruct (cycle_positive d scaled L u) as [Ld P]; auto; [apply scaled_nonneg|]. pose proof (poly_ge_power L ltac:(lia)). lra.
    - intros D. rewrite poly_trace. replace (INR d) with (tr d mid) by apply (tr_0 d A).
      assert (tr d (mpow d charm d) = tr d mid); [|lra]. apply lsum_ext. intros i Hi. apply in_seq0 in Hi.
      destruct (Req_dec (mpow d charm d i i - mid i i) 0) as [E|E]; [lra|]. exfalso. apply (D i). eapply charm_walk; eauto.
  Qed.
End Poly.

(** ** Thresholds *)

(** The edges of squared weight at least [s] form no cycle when the penalty is below s^L / (L-1)! for every
    possible length L. *)
Theorem exp_threshold d W h s : exp_penalty d W h -> 0 <= s ->
  (forall L, (0 < L <= d)%nat -> INR (fact (L - 1)) * h < s ^ L) ->
  forall i, ~ clos_trans nat (fun i j => (i < d)%nat /\ (j < d)%nat /\ s <= W i j * W i j) i i.
Proof.
  intros H Hs B i C. apply clos_walk in C. destruct C as (n & v & Hn & Wk & A0 & An).
  destruct (simple_cycle _ n v Hn Wk) as (L & u & HL & Wu & Cu & N); [congruence|].
  destruct (cycle_trace d (squared W) s L u) as [Ld T]; auto; [apply squared_nonneg|].
  specialize (B L ltac:(lia)). pose proof (penalty_ge_term d W h L H HL) as P. unfold term in P.
  assert (F : INR (fact L) = INR L * INR (fact (L - 1))).
  { destruct L as [|L]; [lia|]. replace (S L - 1)%nat with L by lia. rewrite fact_simpl, mult_INR. auto. }
  assert (Q : tr d (mpow d (squared W) L) <= h * INR (fact L)).
  { apply Rmult_le_compat_r with (r := INR (fact L)) in P; [|left; apply fact_pos]. unfold Rdiv in P. rewrite Rmult_assoc, Rinv_l in P; [lra|].
    pose proof (fact_pos L). lra. }
  rewrite F in Q. assert (IL : 0 < INR L) by (apply lt_0_INR; auto). apply (Rmult_lt_compat_l (INR L)) in B; auto. lra.
Qed.

Theorem poly_threshold d A s : nonneg_mat d A -> (0 < d)%nat -> 0 <= s ->
  (forall L, (0 < L <= d)%nat -> poly_penalty d A < INR L * (s / INR d) ^ L) ->
  forall i, ~ clos_trans nat (fun i j => (i < d)%nat /\ (j < d)%nat /\ s <= A i j) i i.
Proof.
  intros HA Hd Hs B i C. apply clos_walk in C. destruct C as (n & v & Hn & Wk & A0 & An).
  destruct (simple_cycle _ n v Hn Wk) as (L & u & HL & Wu & Cu & N); [congruence|].
  assert (Id : 0 < INR d) by (apply lt_0_INR; auto).
  destruct (cycle_trace d (scaled d A) (s / INR d) L u) as [Ld T]; auto.
  - apply scaled_nonneg; auto.
  - apply Rmult_le_pos; auto. left. apply Rinv_0_lt_compat; auto.
  - intros m Hm. destruct (Wu m Hm) as (X & Y & Z). repeat split; auto. unfold scaled, Rdiv. apply Rmult_le_compat_r; auto. left. apply Rinv_0_lt_compat; auto.
  - pose proof (poly_ge_power d A HA Hd L ltac:(lia)). specialize (B L ltac:(lia)). lra.
Qed.

Lemma Un_cv_le (f g : nat -> R) l m : (forall n, f n <= g n) -> Un_cv f l -> Un_cv g m -> l <= m.
Proof.
  intros H F G. destruct (Rle_lt_dec l m) as [L|L]; auto. exfalso. destruct (F ((l - m) / 2)) as (N1 & P1); [lra|].
  destruct (G ((l - m) / 2)) as (N2 & P2); [lra|]. specialize (P1 (N1 + N2)%nat ltac:(lia)). specialize (P2 (N1 + N2)%nat ltac:(lia)).
  specialize (H (N1 + N2)%nat). unfold R_dist in *. apply Rabs_def2 in P1. apply Rabs_def2 in P2. lra.
Qed.

(** An upper bound, for matrices with small entries *)
Theorem exp_penalty_bound d W h M : exp_penalty d W h -> 0 <= M -> (forall i j, (i < d)%nat -> (j < d)%nat -> W i j * W i j <= M) ->
  h <= INR d * (exp (INR d * M) - 1).
Proof.
  intros H HM B.
  assert (P : h + INR d <= INR d * exp (INR d * M)); [|lra].
  assert (U1 : Un_cv (fun n => sum_f_R0 (term d (squared W)) n) (h + INR d)) by exact H.
  assert (U2 : Un_cv (fun n => sum_f_R0 (fun k => INR d * (/ INR (fact k) * (INR d * M) ^ k)) n) (INR d * exp (INR d * M))) by (apply infinite_sum_scal, exp_sum).
  refine (Un_cv_le _ _ _ _ _ U1 U2). intros n. cbv beta. apply sum_Rle. intros k _. apply term_bound; auto. apply squared_nonneg.
Qed.
