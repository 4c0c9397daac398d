(** * PropsObj: properties C73 and C74, the objectives and gradients handed to the optimiser. *)
From Coq Require Import Arith Lia Reals Lra.
From Coquelicot Require Import Coquelicot.
From Verif Require Import AcycModel AcycProofs AcycThms ObjModel ObjProofs ObjGrad ObjLasso.
Local Open Scope R_scope.

(** ** Specification *)

(** The sum of a_0 .. a_(n-1) *)
Fixpoint total (n : nat) (a : nat -> R) : R := match n with O => 0 | S m => total m a + a m end.

(** Least squares: half the mean over the rows of the squared distance between each value and its prediction. *)
Definition half_mse (n d : nat) (truth predicted : nat -> nat -> R) : R :=
  total n (fun r => total d (fun c => (truth r c - predicted r c) ^ 2)) / (2 * INR n).
Definition linear (m : nat) (X W : nat -> nat -> R) (r c : nat) : R := total m (fun k => X r k * W k c).

(** The objective of the augmented Lagrangian: the loss, and the penalty [h] of the matrix *)
Definition lagrangian (rho alpha h loss : R) : R := loss + rho / 2 * h ^ 2 + alpha * h.

Definition weight_norm (r d : nat) (W : nat -> nat -> R) : R := total r (fun i => total d (fun j => Rabs (W i j))).

(** The weights that a vector stands for, in the three layouts *)
Definition plain_weights (d : nat) (w : nat -> R) (i j : nat) : R := w (i * d + j)%nat.
Definition split_weights (d : nat) (w : nat -> R) (i j : nat) : R := w (i * d + j)%nat - w (d * d + i * d + j)%nat.
Definition lag_weights (d : nat) (w : nat -> R) (k i j : nat) : R :=
  let start := (2 * (d * d) + k * (2 * (d * d)))%nat in w (start + (i * d + j))%nat - w (start + d * d + (i * d + j))%nat.

(** [G] is the gradient of [F] at every point: each entry is the derivative along its coordinate. *)
Definition is_gradient (size : nat) (F : (nat -> R) -> R) (G : (nat -> R) -> nat -> R) : Prop :=
  forall w q, (q < size)%nat -> is_derive (fun x => F (fun m => if (m =? q)%nat then x else w m)) (w q) (G w q).

Lemma total_rsum n a : total n a = rsum n a.
Proof. induction n as [|n IH]; [reflexivity|]. rewrite rsum_last, <- IH. reflexivity. Qed.
Lemma norm_l1 r d W : weight_norm r d W = l1 r d W.
Proof. unfold weight_norm, l1. rewrite total_rsum. apply rsum_ext. intros. apply total_rsum. Qed.
Lemma mse_norm n d T P M : (forall r c, (r < n)%nat -> (c < d)%nat -> M r c = T r c - P r c) -> half_mse n d T P = 0.5 / INR n * norm2 n d M.
Proof.
  intros H. unfold half_mse. rewrite norm2_eq, total_rsum.
  transitivity (0.5 / INR n * rsum n (fun r => total d (fun c => (T r c - P r c) ^ 2))); [unfold Rdiv; rewrite Rinv_mult; lra|].
  f_equal. apply rsum_ext. intros r Hr. rewrite total_rsum. apply rsum_ext. intros c Hc. rewrite H by auto. ring.
Qed.
Lemma resid_entry d X W r c : (c < d)%nat -> mmul d X (msub mid W) r c = X r c - linear d X W r c.
Proof.
  intros Hc. unfold linear. rewrite total_rsum. transitivity (rsum d (fun k => (if (k =? c)%nat then 1 else 0) * X r k) - rsum d (fun k => X r k * W k c)); [|rewrite rsum_pick by auto; auto].
  unfold mmul, msub, mid, rsum. clear. induction (List.seq 0 d) as [|k l IH]; cbn [lsum]; [ring|]. rewrite IH. ring.
Qed.
Lemma loss_mse n d X W : loss n d X W = half_mse n d X (linear d X W).
Proof. symmetry. apply mse_norm. intros. apply resid_entry. auto. Qed.
Lemma penalty_is d W h : exp_penalty d W h -> h = h_fun d W.
Proof. intros H. exact (exp_penalty_unique d W h _ H (h_fun_penalty d W)). Qed.

(** ** C73: the objective and its gradient *)

(** What is minimised: least squares, with the acyclicity penalty of C32 and the L1 terms. *)
Theorem C73_objective : forall (n d : nat) (X : nat -> nat -> R) (rho alpha : R) (w : nat -> R) (h : R),
  exp_penalty d (plain_weights d w) h ->
  func n d X rho alpha w = lagrangian rho alpha h (half_mse n d X (linear d X (plain_weights d w))).
Proof. intros n d X rho alpha w h H. rewrite (penalty_is _ _ _ H), <- loss_mse. unfold func, lagrangian. change (mat_at 0 d w) with (plain_weights d w). lra. Qed.
Print Assumptions C73_objective.

Theorem C73_objective_lasso : forall (n d : nat) (X : nat -> nat -> R) (beta rho alpha : R) (w : nat -> R) (h : R),
  exp_penalty d (split_weights d w) h ->
  lasso_func n d X beta rho alpha w = lagrangian rho alpha h (half_mse n d X (linear d X (split_weights d w))) + beta * total (2 * (d * d)) w.
Proof. intros n d X beta rho alpha w h H. rewrite (penalty_is _ _ _ H), <- loss_mse, total_rsum. unfold lasso_func, lagrangian. change (lasso_mat d w) with (split_weights d w). lra. Qed.
Print Assumptions C73_objective_lasso.

(** Row [k * d + i] of the lagged data is variable [i], [k + 1] steps back. *)
Theorem C73_objective_dynamic : forall (n d p : nat) (X Xlags A : nat -> nat -> R) (lambda_w lambda_a rho alpha : R) (w : nat -> R) (h : R),
  exp_penalty d (split_weights d w) h ->
  (forall k i j, (k < p)%nat -> (i < d)%nat -> (j < d)%nat -> A (k * d + i)%nat j = lag_weights d w k i j) ->
  dyn_func n d p X Xlags lambda_w lambda_a rho alpha w =
  lagrangian rho alpha h (half_mse n d X (fun r c => linear d X (split_weights d w) r c + linear (p * d) Xlags A r c)) +
  lambda_w * total (2 * (d * d)) w + lambda_a * total (p * (2 * (d * d))) (fun q => w (2 * (d * d) + q)%nat).
Proof.
  intros n d p X Y A lw la rho alpha w h H HA. rewrite (penalty_is _ _ _ H), !total_rsum. unfold dyn_func, lagrangian. change (dyn_w d w) with (split_weights d w).
  replace (2 * p * (d * d))%nat with (p * (2 * (d * d)))%nat by lia.
  rewrite (mse_norm n d X _ (dyn_resid d p X Y w)); [lra|]. intros r c Hr Hc. unfold dyn_resid. unfold msub at 1. change (dyn_w d w) with (split_weights d w). rewrite resid_entry by auto.
  replace (mmul (p * d) Y (dyn_a d w) r c) with (linear (p * d) Y A r c); [ring|]. unfold linear, mmul. rewrite total_rsum. apply rsum_ext. intros m Hm.
  destruct (decode d m p Hm) as (k & i & Hk & Hi & ->). rewrite HA, dyn_a_at by auto. unfold lag_weights. f_equal. f_equal; f_equal; lia.
Qed.
Print Assumptions C73_objective_dynamic.

Theorem C73_gradient : forall (n d : nat) (X : nat -> nat -> R) (rho alpha : R),
  is_gradient (d * d) (func n d X rho alpha) (grad n d X rho alpha).
Proof. intros n d X rho alpha w q H. exact (func_gradient n d X rho alpha w q H). Qed.
Print Assumptions C73_gradient.

Theorem C73_gradient_lasso : forall (n d : nat) (X : nat -> nat -> R) (beta rho alpha : R),
  is_gradient (2 * (d * d)) (lasso_func n d X beta rho alpha) (lasso_grad n d X beta rho alpha).
Proof. intros n d X beta rho alpha w q H. exact (lasso_gradient n d X beta rho alpha w q H). Qed.
Print Assumptions C73_gradient_lasso.

Theorem C73_gradient_dynamic : forall (n d p : nat) (X Xlags : nat -> nat -> R) (lambda_w lambda_a rho alpha : R),
  is_gradient (2 * (p + 1) * (d * d)) (dyn_func n d p X Xlags lambda_w lambda_a rho alpha) (dyn_grad n d p X Xlags lambda_w lambda_a rho alpha).
Proof. intros n d p X Y lw la rho alpha w q H. exact (dyn_gradient n d p X Y lw la rho alpha w q H). Qed.
Print Assumptions C73_gradient_dynamic.

(** The row 1, 2: at no weights, the objective falls by 2 per unit of the weight from the first variable to the second. *)
Definition ex_row : nat -> nat -> R := fun _ c => match c with O => 1 | _ => 2 end.

Lemma grad_zero n d X rho alpha W i j : W i j = 0 -> obj_grad n d X rho alpha W i j = -1 / INR n * mmul d (mmul n (mT X) X) (msub mid W) i j.
Proof. intros E. unfold obj_grad. rewrite E. ring. Qed.

Example C73_run : exp_penalty 2 (plain_weights 2 (fun _ => 0)) 0 /\ grad 1 2 ex_row 1 0 (fun _ => 0) 1%nat = -2 /\
  lasso_grad 1 2 ex_row 3 1 0 (fun _ => 0) 5%nat = 5 /\ (5 < 2 * (2 * 2))%nat.
Proof.
  split; [|split; [|split; [|lia]]].
  - pose proof (h_fun_penalty 2 (plain_weights 2 (fun _ => 0))) as P. rewrite (proj2 (exp_penalty_zero 2 (plain_weights 2 (fun _ => 0)) _ P)) in P; [exact P|].
    intros i C. assert (Q : forall a b, Relation_Operators.clos_trans nat (medge 2 (plain_weights 2 (fun _ => 0))) a b -> False) by (induction 1 as [x y (_ & _ & E)|]; auto). exact (Q _ _ C).
  - unfold grad, flat, obj_grad, mat_at. cbn [Nat.div Nat.modulo Nat.divmod Nat.sub fst snd]. rewrite Rmult_0_r, Rmult_0_l, Rplus_0_r. cbn. unfold msub, mT, mid. cbn. lra.
  - unfold lasso_grad. change (5 <? 2 * 2) with false. cbn iota. unfold flat. change (5 - 2 * 2)%nat with 1%nat. change (1 / 2)%nat with 0%nat. change (1 mod 2)%nat with 1%nat.
    rewrite grad_zero by (unfold lasso_mat, msub, mat_at; ring). cbn. unfold msub, mT, mid. cbn. unfold lasso_mat, msub, mat_at. lra.
Qed.

(** ** C74: the split vectors minimise the L1-penalised objective *)

Theorem C74_lasso : forall (n d : nat) (X : nat -> nat -> R) (beta rho alpha : R), 0 <= beta ->
  let penalised W h := lagrangian rho alpha h (half_mse n d X (linear d X W)) + beta * weight_norm d d W in
  (forall w h, (forall q, (q < 2 * (d * d))%nat -> 0 <= w q) -> exp_penalty d (split_weights d w) h ->
    penalised (split_weights d w) h <= lasso_func n d X beta rho alpha w) /\
  (forall W h, exp_penalty d W h ->
    exists w, (forall q, 0 <= w q) /\ (forall i j, (i < d)%nat -> (j < d)%nat -> split_weights d w i j = W i j) /\
      lasso_func n d X beta rho alpha w = penalised W h).
Proof.
  intros n d X beta rho alpha Hb penalised. split.
  - intros w h H Hh. unfold penalised. rewrite (penalty_is _ _ _ Hh), <- loss_mse, norm_l1. eapply Rle_trans; [|exact (lasso_lower n d X beta rho alpha w Hb H)]. unfold lagrangian. change (lasso_mat d w) with (split_weights d w). lra.
  - intros W h Hh. destruct (lasso_attained n d X beta rho alpha W) as (w & H1 & H2 & H3). exists w. split; [exact H1|]. split; [exact H2|]. rewrite H3. unfold penalised. rewrite (penalty_is _ _ _ Hh), <- loss_mse, norm_l1. unfold lagrangian. lra.
Qed.
Print Assumptions C74_lasso.

Theorem C74_dynamic : forall (n d p : nat) (X Xlags : nat -> nat -> R) (lambda_w lambda_a rho alpha : R), 0 <= lambda_w -> 0 <= lambda_a ->
  let penalised W A h := lagrangian rho alpha h (half_mse n d X (fun r c => linear d X W r c + linear (p * d) Xlags A r c)) +
    lambda_w * weight_norm d d W + lambda_a * weight_norm (p * d) d A in
  (forall w A h, (forall q, (q < 2 * (p + 1) * (d * d))%nat -> 0 <= w q) -> exp_penalty d (split_weights d w) h ->
    (forall k i j, (k < p)%nat -> (i < d)%nat -> (j < d)%nat -> A (k * d + i)%nat j = lag_weights d w k i j) ->
    penalised (split_weights d w) A h <= dyn_func n d p X Xlags lambda_w lambda_a rho alpha w) /\
  (forall W A h, exp_penalty d W h ->
    exists w, (forall q, 0 <= w q) /\ (forall i j, (i < d)%nat -> (j < d)%nat -> split_weights d w i j = W i j) /\
      (forall k i j, (k < p)%nat -> (i < d)%nat -> (j < d)%nat -> A (k * d + i)%nat j = lag_weights d w k i j) /\
      dyn_func n d p X Xlags lambda_w lambda_a rho alpha w = penalised W A h).
Proof.
  intros n d p X Y lw la rho alpha Hw Hl penalised.
  assert (Row : forall k i, (k < p)%nat -> (i < d)%nat -> (k * d + i < p * d)%nat).
  { intros k i Hk Hi. assert (k * d <= (p - 1) * d)%nat by (apply Nat.mul_le_mono_r; lia). assert ((p - 1) * d + d = p * d)%nat by (destruct p; [lia|cbn; lia]). lia. }
  assert (Lag : forall v k i j, (i < d)%nat -> dyn_a d v (k * d + i)%nat j = lag_weights d v k i j) by (intros v k i j Hi; rewrite dyn_a_at by auto; unfold lag_weights; f_equal; f_equal; lia).
  split.
  - intros w A h H Hh HA. eapply Rle_trans; [|exact (dyn_lower n d p X Y lw la rho alpha w Hw Hl H)]. apply Req_le. unfold penalised. rewrite (penalty_is _ _ _ Hh), !norm_l1. unfold lagrangian. change (dyn_w d w) with (split_weights d w).
    assert (EA : forall m j, (m < p * d)%nat -> (j < d)%nat -> A m j = dyn_a d w m j) by (intros m j Hm Hj; destruct (decode d m p Hm) as (k & i & Hk & Hi & ->); rewrite HA, Lag; auto).
    rewrite (l1_ext (p * d) d A (dyn_a d w) EA). rewrite (mse_norm n d X _ (dyn_resid d p X Y w)); [lra|].
    intros r c Hr Hc. unfold dyn_resid. unfold msub at 1. change (dyn_w d w) with (split_weights d w). rewrite resid_entry by auto.
    replace (mmul (p * d) Y (dyn_a d w) r c) with (linear (p * d) Y A r c); [ring|]. unfold linear, mmul. rewrite total_rsum. apply rsum_ext. intros m Hm. rewrite EA; auto.
  - intros W A h Hh. destruct (dyn_attained n d p X Y lw la rho alpha W A) as (v & H1 & H2 & H3 & H4). exists v. split; [exact H1|]. split; [exact H2|].
    split; [intros k i j Hk Hi Hj; rewrite <- Lag, H3; auto|]. rewrite H4. unfold penalised. rewrite (penalty_is _ _ _ Hh), !norm_l1. unfold lagrangian.
    rewrite (mse_norm n d X _ (msub (mmul d X (msub mid W)) (mmul (p * d) Y A))); [lra|]. intros r c Hr Hc. unfold msub at 1. rewrite resid_entry by auto. unfold linear at 3. rewrite total_rsum. unfold mmul. ring.
Qed.
Print Assumptions C74_dynamic.

(** A vector that meets the hypotheses, with a weight split over both places: the bound is strict. *)
Example C74_run : let w := fun _ : nat => 1 in
  (forall q, (q < 2 * (1 * 1))%nat -> 0 <= w q) /\ exp_penalty 1 (split_weights 1 w) 0 /\
  lagrangian 1 0 0 (half_mse 1 1 (fun _ _ => 1) (linear 1 (fun _ _ => 1) (split_weights 1 w))) + 1 * weight_norm 1 1 (split_weights 1 w) < lasso_func 1 1 (fun _ _ => 1) 1 1 0 w.
Proof.
  intros w. assert (P : exp_penalty 1 (split_weights 1 w) 0).
  { pose proof (h_fun_penalty 1 (split_weights 1 w)) as P. rewrite (proj2 (exp_penalty_zero 1 (split_weights 1 w) _ P)) in P; [exact P|].
    intros i C. assert (Q : forall a b, Relation_Operators.clos_trans nat (medge 1 (split_weights 1 w)) a b -> False) by (induction 1 as [x y (_ & _ & E)|]; auto; apply E; unfold split_weights, w; lra). exact (Q _ _ C). }
  split; [intros; unfold w; lra|]. split; [exact P|]. rewrite (C73_objective_lasso 1 1 _ 1 1 0 w 0 P).
  unfold weight_norm. cbn [total]. unfold split_weights, w. replace (1 - 1) with 0 by ring. rewrite Rabs_R0. cbn. lra.
Qed.
