(** * ObjUnits: least squares over acyclic graphs of two variables. *)
From Coq Require Import List Arith Bool Lia Reals Lra Psatz Relations.
From Coquelicot Require Import Coquelicot.
From Verif Require Import AcycModel AcycProofs AcycThms ObjModel ObjProofs ObjGrad ObjLasso PropsObj.
Import ListNotations.
Local Open Scope R_scope.

Definition score (n d : nat) (X W : nat -> nat -> R) : R := half_mse n d X (linear d X W).

(** [W] is an acyclic matrix with the smallest score. *)
Definition best (n d : nat) (X W : nat -> nat -> R) : Prop := dag d W /\ forall W', dag d W' -> score n d X W <= score n d X W'.

Definition moment (n : nat) (X : nat -> nat -> R) (i j : nat) : R := total n (fun r => X r i * X r j).

Lemma total_ext n f g : (forall r, (r < n)%nat -> f r = g r) -> total n f = total n g.
Proof. induction n as [|n IH]; intros H; cbn; auto. rewrite IH, H by auto. auto. Qed.
Lemma total_plus n f g : total n (fun r => f r + g r) = total n f + total n g.
Proof. induction n as [|n IH]; cbn; [lra|]. rewrite IH. lra. Qed.
Lemma total_scal n c f : total n (fun r => c * f r) = c * total n f.
Proof. induction n as [|n IH]; cbn; [lra|]. rewrite IH. lra. Qed.

Lemma dag_two W : dag 2 W <-> W 0%nat 0%nat = 0 /\ W 1%nat 1%nat = 0 /\ (W 0%nat 1%nat = 0 \/ W 1%nat 0%nat = 0).
Proof.
  split.
  - intros D. assert (E : forall i, (i < 2)%nat -> W i i = 0).
    { intros i Hi. destruct (Req_dec (W i i) 0) as [Z|Z]; auto. exfalso. apply (D i). apply t_step. repeat split; auto. }
    split; [apply E; lia|]. split; [apply E; lia|].
    destruct (Req_dec (W 0%nat 1%nat) 0) as [Z|Z]; [auto|]. destruct (Req_dec (W 1%nat 0%nat) 0) as [Z'|Z']; [auto|]. exfalso.
    apply (D 0%nat). apply t_trans with 1%nat; apply t_step; repeat split; auto.
  - intros (A & B & C) i P.
    assert (S : forall x y, medge 2 W x y -> x = 0%nat /\ y = 1%nat /\ W 0%nat 1%nat <> 0 \/ x = 1%nat /\ y = 0%nat /\ W 1%nat 0%nat <> 0).
    { intros x y (Hx & Hy & E). destruct x as [|[|x]]; [| |lia]; (destruct y as [|[|y]]; [| |lia]); tauto. }
    assert (T : forall x y, clos_trans nat (medge 2 W) x y -> x = 0%nat /\ y = 1%nat /\ W 0%nat 1%nat <> 0 \/ x = 1%nat /\ y = 0%nat /\ W 1%nat 0%nat <> 0).
    { induction 1 as [x y E|x y z _ H1 _ H2]; [auto|]. destruct H1 as [(? & ? & ?)|(? & ? & ?)], H2 as [(? & ? & ?)|(? & ? & ?)]; subst; try discriminate; tauto. }
    destruct (T i i P) as [(? & ? & _)|(? & ? & _)]; subst; discriminate.
Qed.

Lemma score_two n X W : W 0%nat 0%nat = 0 -> W 1%nat 1%nat = 0 ->
  score n 2 X W = (moment n X 0 0 + moment n X 1 1 - 2 * (W 1%nat 0%nat + W 0%nat 1%nat) * moment n X 0 1
                   + W 1%nat 0%nat ^ 2 * moment n X 1 1 + W 0%nat 1%nat ^ 2 * moment n X 0 0) / (2 * INR n).
Proof.
  intros A B. unfold score, half_mse. f_equal. unfold moment, linear. cbn [total]. rewrite A, B. clear A B.
  set (p := W 1%nat 0%nat). set (q := W 0%nat 1%nat). induction n as [|n IH]; cbn [total]; [ring|]. rewrite IH. ring.
Qed.

Definition edge01 (w : R) : nat -> nat -> R := fun i j => match i, j with 0%nat, 1%nat => w | _, _ => 0 end.
Lemma edge01_dag w : dag 2 (edge01 w).
Proof. apply dag_two. cbn. auto. Qed.
Definition edge10 (w : R) : nat -> nat -> R := fun i j => match i, j with 1%nat, 0%nat => w | _, _ => 0 end.
Lemma edge10_dag w : dag 2 (edge10 w).
Proof. apply dag_two. cbn. auto. Qed.

(** The least value for one edge *)
Lemma square_low (m c w : R) : 0 < m -> - (c * c / m) <= - 2 * w * c + w * w * m.
Proof.
  intros H. assert (Hm : m <> 0) by lra. assert (E : - 2 * w * c + w * w * m + c * c / m = (w * m - c) * (w * m - c) / m) by (field; lra).
  assert (0 <= (w * m - c) * (w * m - c) / m); [|lra]. apply Rmult_le_pos; [exact (Rle_0_sqr (w * m - c))|]. left. apply Rinv_0_lt_compat. auto.
Qed.

Lemma inv_order (a b c : R) : 0 < a -> a < b -> c <> 0 -> c * c / b < c * c / a.
Proof. intros Ha Hab Hc. unfold Rdiv. apply Rmult_lt_compat_l; [exact (Rsqr_pos_lt c Hc)|]. apply Rinv_lt_contravar; auto. apply Rmult_lt_0_compat; lra. Qed.

Lemma div_le_inv (x y m : R) : 0 < m -> x / m <= y / m -> x <= y.
Proof. intros Hm H. apply (Rmult_le_reg_r (/ m)); auto. apply Rinv_0_lt_compat. auto. Qed.

Lemma moment_sym n X i j : moment n X i j = moment n X j i.
Proof. apply total_ext. intros. ring. Qed.

Section Two.
  Variables (n : nat) (X : nat -> nat -> R).
  Hypothesis Hn : (0 < n)%nat.
  Hypothesis Corr : moment n X 0 1 <> 0.

  Let a := moment n X 0 0.
  Let b := moment n X 1 1.
  Let c := moment n X 0 1.

  Lemma rows_pos : 0 < 2 * INR n.
  Proof. apply lt_INR in Hn. cbn in Hn. lra. Qed.

  Theorem small_to_large W : 0 < a -> a < b -> best n 2 X W -> W 0%nat 1%nat <> 0 /\ W 1%nat 0%nat = 0.
  Proof.
    intros Ha Hab [D M]. destruct (proj1 (dag_two W) D) as (A & B & C). specialize (M (edge01 (c / a)) (edge01_dag _)).
    rewrite !score_two in M by auto. apply (div_le_inv _ _ _ rows_pos) in M. cbn [edge01] in M. fold a b c in M.
    assert (V : - 2 * (c / a) * c + c / a * (c / a) * a = - (c * c / a)) by (field; lra).
    assert (N : W 0%nat 1%nat <> 0).
    { intros Z. rewrite Z in M. pose proof (square_low b c (W 1%nat 0%nat) ltac:(lra)) as L. pose proof (inv_order a b c Ha Hab Corr) as I.
      revert M L. generalize (W 1%nat 0%nat) as v. intros v M L. cbn [pow] in M. ring_simplify in M. ring_simplify in V. ring_simplify in L. nra. }
    split; [exact N|]. destruct C as [C|C]; [contradiction|auto].
  Qed.

  Theorem large_to_small W : 0 < b -> b < a -> best n 2 X W -> W 1%nat 0%nat <> 0 /\ W 0%nat 1%nat = 0.
  Proof.
    intros Hb Hba [D M]. destruct (proj1 (dag_two W) D) as (A & B & C). specialize (M (edge10 (c / b)) (edge10_dag _)).
    rewrite !score_two in M by auto. apply (div_le_inv _ _ _ rows_pos) in M. cbn [edge10] in M. fold a b c in M.
    assert (V : - 2 * (c / b) * c + c / b * (c / b) * b = - (c * c / b)) by (field; lra).
    assert (N : W 1%nat 0%nat <> 0).
    { intros Z. rewrite Z in M. pose proof (square_low a c (W 0%nat 1%nat) ltac:(lra)) as L. pose proof (inv_order b a c Hb Hba Corr) as I.
      revert M L. generalize (W 0%nat 1%nat) as v. intros v M L. cbn [pow] in M. ring_simplify in M. ring_simplify in V. ring_simplify in L. nra. }
    split; [exact N|]. destruct C as [C|C]; [auto|contradiction].
  Qed.

  Theorem best_exists : 0 < a -> 0 < b -> a <> b -> exists W, best n 2 X W.
  Proof.
    intros Ha Hb Hab.
    assert (Low : forall W', dag 2 W' -> (a + b - c * c / a) / (2 * INR n) <= score n 2 X W' \/ (a + b - c * c / b) / (2 * INR n) <= score n 2 X W').
    { intros W' D'. destruct (proj1 (dag_two W') D') as (A & B & C). rewrite score_two by auto. fold a b c. pose proof rows_pos.
      destruct C as [C|C]; rewrite C; [right|left]; apply Rmult_le_compat_r; try (left; apply Rinv_0_lt_compat; lra).
      - pose proof (square_low b c (W' 1%nat 0%nat) Hb). nra.
      - pose proof (square_low a c (W' 0%nat 1%nat) Ha). nra. }
    assert (V1 : score n 2 X (edge01 (c / a)) = (a + b - c * c / a) / (2 * INR n)).
    { rewrite score_two by auto. fold a b c. cbn [edge01]. f_equal. field. lra. }
    assert (V2 : score n 2 X (edge10 (c / b)) = (a + b - c * c / b) / (2 * INR n)).
    { rewrite score_two by auto. fold a b c. cbn [edge10]. f_equal. field. lra. }
    assert (P : 0 < / (2 * INR n)) by (apply Rinv_0_lt_compat; apply rows_pos).
    destruct (Rtotal_order a b) as [L|[E|L]]; [| tauto |].
    - exists (edge01 (c / a)). split; [apply edge01_dag|]. intros W' D'. rewrite V1. destruct (Low W' D') as [H|H]; [auto|].
      pose proof (inv_order a b c Ha L Corr). eapply Rle_trans; [|exact H]. apply Rmult_le_compat_r; lra.
    - exists (edge10 (c / b)). split; [apply edge10_dag|]. intros W' D'. rewrite V2. destruct (Low W' D') as [H|H]; [|auto].
      pose proof (inv_order b a c Hb L Corr). eapply Rle_trans; [|exact H]. apply Rmult_le_compat_r; lra.
  Qed.
End Two.

(** The data with column 0 in another unit *)
Definition rescaled (t : R) (X : nat -> nat -> R) : nat -> nat -> R := fun r c => match c with O => t * X r c | _ => X r c end.

Lemma rescaled_00 n t X : moment n (rescaled t X) 0 0 = t * t * moment n X 0 0.
Proof. unfold moment. rewrite <- total_scal. apply total_ext. intros. cbn. ring. Qed.
Lemma rescaled_01 n t X : moment n (rescaled t X) 0 1 = t * moment n X 0 1.
Proof. unfold moment. rewrite <- total_scal. apply total_ext. intros. cbn. ring. Qed.
Lemma rescaled_11 n t X : moment n (rescaled t X) 1 1 = moment n X 1 1.
Proof. reflexivity. Qed.

Lemma moment_cs n X : moment n X 0 1 ^ 2 <= moment n X 0 0 * moment n X 1 1.
Proof.
  assert (Q : forall x, 0 <= moment n X 0 0 * x ^ 2 + 2 * x * moment n X 0 1 + moment n X 1 1).
  { intros x. replace (moment n X 0 0 * x ^ 2 + 2 * x * moment n X 0 1 + moment n X 1 1) with (total n (fun r => (X r 0%nat * x + X r 1%nat) ^ 2)).
    - induction n as [|m IH]; cbn [total]; [lra|]. pose proof (pow2_ge_0 (X m 0%nat * x + X m 1%nat)). lra.
    - unfold moment. induction n as [|m IH]; cbn [total]; [ring|]. rewrite IH. ring. }
  assert (A : 0 <= moment n X 0 0) by (unfold moment; induction n as [|m IH]; cbn [total]; [lra|]; pose proof (Rle_0_sqr (X m 0%nat)); unfold Rsqr in *; assert (0 <= total m (fun r => X r 0%nat * X r 0%nat)); [|lra]; clear; induction m; cbn; [lra|]; pose proof (Rle_0_sqr (X m 0%nat)); unfold Rsqr in *; lra).
  destruct (Req_dec (moment n X 0 0) 0) as [Z|Z].
  - destruct (Req_dec (moment n X 0 1) 0) as [C|C]; [rewrite C, Z; lra|].
    specialize (Q (- (moment n X 1 1 + 1) / (2 * moment n X 0 1))). rewrite Z in Q.
    assert (2 * (- (moment n X 1 1 + 1) / (2 * moment n X 0 1)) * moment n X 0 1 = - (moment n X 1 1 + 1)) by (field; auto). lra.
  - specialize (Q (- moment n X 0 1 / moment n X 0 0)).
    assert (E : moment n X 0 0 * (- moment n X 0 1 / moment n X 0 0) ^ 2 + 2 * (- moment n X 0 1 / moment n X 0 0) * moment n X 0 1 + moment n X 1 1 = moment n X 1 1 - moment n X 0 1 ^ 2 / moment n X 0 0) by (field; auto).
    rewrite E in Q. assert (moment n X 0 1 ^ 2 / moment n X 0 0 <= moment n X 1 1) by lra.
    apply (Rmult_le_compat_l (moment n X 0 0)) in H; [|lra]. replace (moment n X 0 0 * (moment n X 0 1 ^ 2 / moment n X 0 0)) with (moment n X 0 1 ^ 2) in H by (field; auto). lra.
Qed.

Theorem units_matter n X : (0 < n)%nat -> moment n X 0 1 <> 0 ->
  exists t u, 0 < t /\ 0 < u /\
    (exists W, best n 2 (rescaled t X) W) /\ (forall W, best n 2 (rescaled t X) W -> W 0%nat 1%nat <> 0 /\ W 1%nat 0%nat = 0) /\
    (exists W, best n 2 (rescaled u X) W) /\ (forall W, best n 2 (rescaled u X) W -> W 1%nat 0%nat <> 0 /\ W 0%nat 1%nat = 0).
Proof.
  intros Hn C. set (a := moment n X 0 0). set (b := moment n X 1 1). set (c := moment n X 0 1).
  pose proof (moment_cs n X) as CS. fold a b c in CS.
  assert (Ap : 0 <= a /\ 0 <= b).
  { split; [unfold a|unfold b]; unfold moment; clear; induction n; cbn; try lra; [pose proof (Rle_0_sqr (X n 0%nat))|pose proof (Rle_0_sqr (X n 1%nat))]; unfold Rsqr in *; lra. }
  assert (C2 : 0 < c ^ 2) by (apply pow2_gt_0; exact C).
  assert (Ha : 0 < a) by (destruct (Req_dec a 0) as [Z|Z]; [rewrite Z in CS; lra|lra]).
  assert (Hb : 0 < b) by (destruct (Req_dec b 0) as [Z|Z]; [rewrite Z in CS; lra|lra]).
  assert (R0 : 0 < b / a) by (apply Rdiv_lt_0_compat; auto).
  set (q := sqrt (b / a)). assert (Hq : 0 < q) by (apply sqrt_lt_R0; auto). assert (Eq : q * q * a = b) by (unfold q; rewrite sqrt_sqrt by lra; field; lra).
  exists (q / 2), (2 * q). split; [lra|]. split; [lra|].
  assert (M1 : moment n (rescaled (q / 2) X) 0 0 = b / 4) by (rewrite rescaled_00; fold a; nra).
  assert (M2 : moment n (rescaled (2 * q) X) 0 0 = 4 * b) by (rewrite rescaled_00; fold a; nra).
  assert (N1 : moment n (rescaled (q / 2) X) 0 1 <> 0) by (rewrite rescaled_01; apply Rmult_integral_contrapositive_currified; [lra|auto]).
  assert (N2 : moment n (rescaled (2 * q) X) 0 1 <> 0) by (rewrite rescaled_01; apply Rmult_integral_contrapositive_currified; [lra|auto]).
  split; [|split; [|split]].
  - apply best_exists; auto; rewrite ?M1, ?rescaled_11; fold b; lra.
  - intros W. apply small_to_large; auto; rewrite ?M1, ?rescaled_11; fold b; lra.
  - apply best_exists; auto; rewrite ?M2, ?rescaled_11; fold b; lra.
  - intros W. apply large_to_small; auto; rewrite ?M2, ?rescaled_11; fold b; lra.
Qed.

(** One factor for all columns *)
Theorem common_scale n d X t W : score n d (fun r c => t * X r c) W = t ^ 2 * score n d X W.
Proof.
  unfold score, half_mse. unfold Rdiv. rewrite <- Rmult_assoc. f_equal. rewrite <- total_scal. apply total_ext. intros r _.
  rewrite <- total_scal. apply total_ext. intros c _.
  assert (E : linear d (fun r c => t * X r c) W r c = t * linear d X W r c).
  { unfold linear. rewrite <- total_scal. apply total_ext. intros k _. ring. }
  rewrite E. ring.
Qed.

Theorem common_unit n d X t W : t <> 0 -> best n d (fun r c => t * X r c) W <-> best n d X W.
Proof.
  intros Ht. assert (0 < t ^ 2) by (apply pow2_gt_0; auto). unfold best. split; intros [D M]; split; auto; intros W' D'; specialize (M W' D'); rewrite !common_scale in *.
  - apply (Rmult_le_reg_l (t ^ 2)); auto.
  - apply Rmult_le_compat_l; lra.
Qed.
