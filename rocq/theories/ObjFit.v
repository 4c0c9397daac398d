(** * ObjFit: optimal weights when the allowed edges form no cycle (penalised least squares). *)
From Coq Require Import List Arith Bool Lia Reals Lra Psatz Relations.
From Coquelicot Require Import Coquelicot.
From Verif Require Import AcycModel AcycProofs AcycThms ObjModel ObjProofs ObjGrad ObjLasso PropsObj ObjUnits PropsObjMore.
Import ListNotations.
Local Open Scope R_scope.

(** ** Specification *)

(** The mean over the rows of column [k] of the inputs times what the prediction leaves of column [j]. *)
Definition residual_moment (n m : nat) (Z T B : nat -> nat -> R) (k j : nat) : R :=
  total n (fun r => Z r k * (T r j - linear m Z B r j)) / INR n.

(** The optimality condition of one weight [w] under the L1 penalty [b]: the mean product [c] of its input
    with the residuals is at most [b] in size, and [b] with the sign of the weight if there is a weight. *)
Definition optimal_weight (b c w : R) : Prop := Rabs c <= b /\ (0 < w -> c = b) /\ (w < 0 -> c = - b).

Definition penalised (n m d : nat) (Z T : nat -> nat -> R) (beta : nat -> R) (B : nat -> nat -> R) : R :=
  half_mse n d T (linear m Z B) + total m (fun k => beta k * total d (fun j => Rabs (B k j))).

Definition supported (m d : nat) (ok : nat -> nat -> bool) (B : nat -> nat -> R) : Prop :=
  forall k j, (k < m)%nat -> (j < d)%nat -> ok k j = false -> B k j = 0.

(** ** Sums *)
Lemma total_nonneg n f : (forall r, (r < n)%nat -> 0 <= f r) -> 0 <= total n f.
Proof. induction n as [|n IH]; intros H; cbn; [lra|]. assert (0 <= total n f) by (apply IH; auto). specialize (H n (Nat.lt_succ_diag_r n)). lra. Qed.
Lemma total_zero n f : (forall r, (r < n)%nat -> f r = 0) -> total n f = 0.
Proof. induction n as [|n IH]; intros H; cbn; [lra|]. rewrite IH, H by auto. lra. Qed.
Lemma total_minus n f g : total n (fun r => f r - g r) = total n f - total n g.
Proof. induction n as [|n IH]; cbn; [lra|]. rewrite IH. lra. Qed.
Lemma total_swap n m f : total n (fun r => total m (fun k => f r k)) = total m (fun k => total n (fun r => f r k)).
Proof. rewrite !total_rsum. rewrite (rsum_ext n _ (fun r => rsum m (f r))) by (intros; apply total_rsum). rewrite rsum_swap. apply rsum_ext. intros. symmetry. apply total_rsum. Qed.
Lemma total_pick n i f : (i < n)%nat -> (forall k, (k < n)%nat -> k <> i -> f k = 0) -> total n f = f i.
Proof.
  induction n as [|n IH]; intros Hi Z; [lia|]. cbn. destruct (Nat.eq_dec i n) as [->|Ne].
  - rewrite total_zero; [lra|]. intros r Hr. apply Z; lia.
  - rewrite IH; [|lia|intros; apply Z; lia]. rewrite (Z n) by lia. lra.
Qed.

(** ** One weight *)
Lemma slope_zero g a eps : 0 < eps -> 0 <= a -> (forall t, Rabs t < eps -> 0 <= g * t + a * t ^ 2) -> g = 0.
Proof.
  intros He Ha H. destruct (Req_dec g 0) as [|N]; auto. exfalso.
  assert (G : 0 < Rabs g) by (apply Rabs_pos_lt; auto).
  set (s := Rmin (eps / (2 * Rabs g)) (/ (2 * (a + 1)))).
  assert (S1 : 0 < s) by (apply Rmin_glb_lt; [apply Rdiv_lt_0_compat; lra|apply Rinv_0_lt_compat; lra]).
  assert (S2 : s <= eps / (2 * Rabs g)) by apply Rmin_l. assert (S3 : s <= / (2 * (a + 1))) by apply Rmin_r.
  specialize (H (- g * s)). rewrite Rabs_mult, Rabs_Ropp, (Rabs_pos_eq s) in H by lra.
  assert (A1 : Rabs g * s < eps).
  { apply Rle_lt_trans with (Rabs g * (eps / (2 * Rabs g))); [apply Rmult_le_compat_l; lra|]. replace (Rabs g * (eps / (2 * Rabs g))) with (eps / 2) by (field; lra). lra. }
  specialize (H A1). assert (A2 : a * s < 1).
  { apply Rle_lt_trans with (a * / (2 * (a + 1))); [apply Rmult_le_compat_l; lra|]. apply Rmult_lt_reg_r with (2 * (a + 1)); [lra|]. rewrite Rmult_assoc, Rinv_l by lra. lra. }
  assert (P : 0 < g ^ 2 * s) by (apply Rmult_lt_0_compat; auto; nra).
  replace (g * (- g * s) + a * (- g * s) ^ 2) with (g ^ 2 * s * (a * s - 1)) in H by ring. nra.
Qed.

Lemma slope_nonneg g a : 0 <= a -> (forall t, 0 < t -> 0 <= g * t + a * t ^ 2) -> 0 <= g.
Proof.
  intros Ha H. destruct (Rle_dec 0 g) as [|N]; auto. exfalso. assert (G : g < 0) by lra.
  set (t := - g / (2 * (a + 1))). assert (T : 0 < t) by (apply Rdiv_lt_0_compat; lra). specialize (H t T).
  assert (E : a * t < - g). { unfold t. apply Rmult_lt_reg_r with (2 * (a + 1)); [lra|]. replace (a * (- g / (2 * (a + 1))) * (2 * (a + 1))) with (a * - g) by (field; lra). nra. }
  nra.
Qed.

Lemma one_weight b c a w : 0 <= b -> 0 <= a ->
  (forall t, 0 <= - c * t + a * t ^ 2 + b * (Rabs (w + t) - Rabs w)) -> optimal_weight b c w.
Proof.
  intros Hb Ha H. destruct (Rtotal_order w 0) as [Hw|[Hw|Hw]].
  - assert (E : - c - b = 0).
    { apply (slope_zero _ a (- w)); [lra|auto|]. intros t Ht. apply Rabs_def2 in Ht. specialize (H t).
      rewrite (Rabs_left (w + t)), (Rabs_left w) in H by lra. lra. }
    split; [|split; intros; lra]. apply Rabs_le. lra.
  - subst w. rewrite Rabs_R0 in H.
    assert (E1 : 0 <= b - c). { apply (slope_nonneg _ a Ha). intros t Ht. specialize (H t). rewrite Rplus_0_l, Rabs_pos_eq in H by lra. lra. }
    assert (E2 : 0 <= b + c). { apply (slope_nonneg _ a Ha). intros t Ht. specialize (H (- t)). rewrite Rplus_0_l, Rabs_Ropp, Rabs_pos_eq in H by lra. lra. }
    split; [|split; intros; lra]. apply Rabs_le. lra.
  - assert (E : b - c = 0).
    { apply (slope_zero _ a w); [lra|auto|]. intros t Ht. apply Rabs_def2 in Ht. specialize (H t).
      rewrite (Rabs_pos_eq (w + t)), (Rabs_pos_eq w) in H by lra. lra. }
    split; [|split; intros; lra]. apply Rabs_le. lra.
Qed.

Lemma weight_enough b c w w' : optimal_weight b c w -> 0 <= - c * (w' - w) + b * (Rabs w' - Rabs w).
Proof.
  intros (A & P & N). assert (B : Rabs c * Rabs w' <= b * Rabs w') by (apply Rmult_le_compat_r; [apply Rabs_pos|auto]).
  assert (C : c * w' <= Rabs c * Rabs w') by (rewrite <- Rabs_mult; apply Rle_abs).
  assert (D : c * w = b * Rabs w).
  { destruct (Rtotal_order w 0) as [Hw|[Hw|Hw]]; [rewrite N, Rabs_left by auto; ring|subst; rewrite Rabs_R0; ring|rewrite P, Rabs_pos_eq by lra; ring]. }
  lra.
Qed.

(** ** All weights *)
Section Fit.
  Variables (n m d : nat) (Z T : nat -> nat -> R) (beta : nat -> R) (ok : nat -> nat -> bool).
  Hypothesis Hn : (0 < n)%nat.
  Hypothesis Hb : forall k, (k < m)%nat -> 0 <= beta k.

  Let N0 : 0 < INR n. Proof. apply lt_0_INR. auto. Qed.

  Lemma mse_change B B' :
    half_mse n d T (linear m Z B') - half_mse n d T (linear m Z B) =
    total m (fun k => total d (fun j => - residual_moment n m Z T B k j * (B' k j - B k j))) +
    total n (fun r => total d (fun j => (linear m Z B' r j - linear m Z B r j) ^ 2)) / (2 * INR n).
  Proof.
    unfold half_mse.
    assert (A : total n (fun r => total d (fun j => (T r j - linear m Z B' r j) ^ 2)) - total n (fun r => total d (fun j => (T r j - linear m Z B r j) ^ 2)) =
      total n (fun r => total d (fun j => -2 * (T r j - linear m Z B r j) * (linear m Z B' r j - linear m Z B r j))) +
      total n (fun r => total d (fun j => (linear m Z B' r j - linear m Z B r j) ^ 2))).
    { rewrite <- total_minus, <- total_plus. apply total_ext. intros r Hr. rewrite <- total_minus, <- total_plus. apply total_ext. intros j Hj. ring. }
    assert (C : total n (fun r => total d (fun j => -2 * (T r j - linear m Z B r j) * (linear m Z B' r j - linear m Z B r j))) =
      2 * INR n * total m (fun k => total d (fun j => - residual_moment n m Z T B k j * (B' k j - B k j)))).
    { transitivity (total n (fun r => total d (fun j => total m (fun k => -2 * (T r j - linear m Z B r j) * Z r k * (B' k j - B k j))))).
      { apply total_ext. intros r Hr. apply total_ext. intros j Hj. unfold linear at 2 3. rewrite <- total_minus, <- total_scal. apply total_ext. intros k Hk. ring. }
      transitivity (total m (fun k => total d (fun j => total n (fun r => -2 * (T r j - linear m Z B r j) * Z r k * (B' k j - B k j))))).
      { rewrite (total_swap m d). rewrite (total_swap n d). apply total_ext. intros j Hj. rewrite (total_swap n m). reflexivity. }
      rewrite <- total_scal. apply total_ext. intros k Hk. rewrite <- total_scal. apply total_ext. intros j Hj.
      unfold residual_moment. transitivity (-2 * (B' k j - B k j) * total n (fun r => Z r k * (T r j - linear m Z B r j))).
      - rewrite <- total_scal. apply total_ext. intros r Hr. ring.
      - field. lra. }
    apply (Rmult_eq_reg_r (2 * INR n)); [|lra].
    transitivity (total n (fun r => total d (fun j => (T r j - linear m Z B' r j) ^ 2)) - total n (fun r => total d (fun j => (T r j - linear m Z B r j) ^ 2))); [field; lra|].
    rewrite A, C. field. lra.
  Qed.

  Lemma penalised_change B B' :
    penalised n m d Z T beta B' - penalised n m d Z T beta B =
    total m (fun k => total d (fun j => - residual_moment n m Z T B k j * (B' k j - B k j) + beta k * (Rabs (B' k j) - Rabs (B k j)))) +
    total n (fun r => total d (fun j => (linear m Z B' r j - linear m Z B r j) ^ 2)) / (2 * INR n).
  Proof.
    unfold penalised.
    match goal with |- (?a + ?b) - (?c + ?e) = _ => transitivity ((a - c) + (b - e)); [ring|] end.
    rewrite mse_change, <- total_minus.
    match goal with |- (?a + ?b) + ?c = ?x + _ => enough (a + c = x) by lra end.
    rewrite <- total_plus. apply total_ext. intros k Hk. rewrite <- !total_scal, <- total_minus, <- total_plus. apply total_ext. intros j Hj. ring.
  Qed.

  Definition moved (B : nat -> nat -> R) (k j : nat) (t : R) : nat -> nat -> R :=
    fun a b => if ((a =? k) && (b =? j))%bool then B k j + t else B a b.

  Lemma moved_change B k j t : (k < m)%nat -> (j < d)%nat ->
    penalised n m d Z T beta (moved B k j t) - penalised n m d Z T beta B =
    - residual_moment n m Z T B k j * t + total n (fun r => Z r k ^ 2) / (2 * INR n) * t ^ 2 + beta k * (Rabs (B k j + t) - Rabs (B k j)).
  Proof.
    intros Hk Hj. rewrite penalised_change.
    assert (M : moved B k j t k j = B k j + t) by (unfold moved; rewrite !Nat.eqb_refl; auto).
    assert (Mo : forall a b, a <> k \/ b <> j -> moved B k j t a b = B a b).
    { intros a b H. unfold moved. destruct (Nat.eqb_spec a k), (Nat.eqb_spec b j); auto. exfalso. lia. }
    rewrite (total_pick m k) by (auto; intros a Ha Na; apply total_zero; intros b Hb'; rewrite Mo by auto; ring).
    rewrite (total_pick d j) by (auto; intros b Hb' Nb; rewrite Mo by auto; ring). rewrite M.
    replace (total n (fun r => total d (fun b => (linear m Z (moved B k j t) r b - linear m Z B r b) ^ 2))) with (total n (fun r => Z r k ^ 2) * t ^ 2).
    { field. lra. }
    rewrite Rmult_comm, <- total_scal. apply total_ext. intros r Hr. symmetry. rewrite (total_pick d j); auto.
    - unfold linear. rewrite <- total_minus, (total_pick m k); auto; [rewrite M; ring|]. intros a Ha Na. rewrite Mo by auto. ring.
    - intros b Hb' Nb. unfold linear. rewrite <- total_minus, total_zero; [ring|]. intros a Ha. rewrite Mo by auto. ring.
  Qed.

  Theorem best_weights B : supported m d ok B ->
    (forall B', supported m d ok B' -> penalised n m d Z T beta B <= penalised n m d Z T beta B') <->
    (forall k j, (k < m)%nat -> (j < d)%nat -> ok k j = true -> optimal_weight (beta k) (residual_moment n m Z T B k j) (B k j)).
  Proof.
    intros SB. split.
    - intros H k j Hk Hj A. apply (one_weight _ _ (total n (fun r => Z r k ^ 2) / (2 * INR n))); auto.
      + apply Rdiv_le_0_compat; [|lra]. apply total_nonneg. intros r _. apply pow2_ge_0.
      + intros t. rewrite <- (moved_change B k j t Hk Hj). assert (S : supported m d ok (moved B k j t)).
        { intros a b Ha Hb' E. unfold moved. destruct (Nat.eqb_spec a k), (Nat.eqb_spec b j); cbn [andb]; try apply SB; auto. subst. congruence. }
        specialize (H _ S). lra.
    - intros H B' SB'. enough (0 <= penalised n m d Z T beta B' - penalised n m d Z T beta B) by lra. rewrite penalised_change.
      apply Rplus_le_le_0_compat.
      + apply total_nonneg. intros k Hk. apply total_nonneg. intros j Hj. destruct (ok k j) eqn:A.
        * apply weight_enough. apply H; auto.
        * rewrite SB, SB' by auto. rewrite Rminus_diag_eq by auto. rewrite Rminus_diag_eq by auto. lra.
      + apply Rdiv_le_0_compat; [|lra]. apply total_nonneg. intros r _. apply total_nonneg. intros j _. apply pow2_ge_0.
  Qed.
End Fit.

(** ** From vectors to weights *)
Lemma penalised_ext n m d Z T beta B B' : (forall k j, (k < m)%nat -> (j < d)%nat -> B k j = B' k j) ->
  penalised n m d Z T beta B = penalised n m d Z T beta B'.
Proof.
  intros E. unfold penalised, half_mse. f_equal.
  - f_equal. apply total_ext. intros r _. apply total_ext. intros j Hj. f_equal. f_equal. unfold linear. apply total_ext. intros k Hk. rewrite E; auto.
  - apply total_ext. intros k Hk. f_equal. apply total_ext. intros j Hj. rewrite E; auto.
Qed.

Lemma moment_ext n m d Z T B B' k j : (j < d)%nat -> (forall k j, (k < m)%nat -> (j < d)%nat -> B k j = B' k j) ->
  residual_moment n m Z T B k j = residual_moment n m Z T B' k j.
Proof. intros Hj E. unfold residual_moment. f_equal. apply total_ext. intros r _. f_equal. f_equal. unfold linear. apply total_ext. intros a Ha. rewrite E; auto. Qed.

(** No chain of allowed edges leads back to its start. *)
Definition no_cycle (d : nat) (ok : nat -> nat -> bool) : Prop :=
  forall i, ~ clos_trans nat (fun a b => (a < d)%nat /\ (b < d)%nat /\ ok a b = true) i i.

Lemma supported_dag d ok W : no_cycle d ok -> supported d d ok W -> dag d W.
Proof.
  intros NC S i C. apply (NC i). revert C. generalize i at 1 3. intros k C.
  induction C as [x y (Hx & Hy & N)|x y z _ H1 _ H2]; [apply t_step|eapply t_trans; eauto].
  split; [exact Hx|]. split; [exact Hy|]. destruct (ok x y) eqn:E; [reflexivity|]. exfalso. apply N. apply S; auto.
Qed.

Lemma supported_h d ok W : no_cycle d ok -> supported d d ok W -> h_fun d W = 0.
Proof. intros NC S. apply (exp_penalty_zero d W); [apply h_fun_penalty|apply (supported_dag d ok); auto]. Qed.

Lemma penalised_loss n d X W : penalised n d d X X (fun _ => 0) W = loss n d X W.
Proof. unfold penalised. rewrite (total_zero d) by (intros; ring). rewrite <- loss_mse. lra. Qed.

Lemma penalised_l1 n d X b W : penalised n d d X X (fun _ => b) W = loss n d X W + b * l1 d d W.
Proof.
  unfold penalised. rewrite <- loss_mse. f_equal. rewrite <- norm_l1. unfold weight_norm. rewrite <- total_scal. apply total_ext. intros. auto.
Qed.

Section Plain.
  Variables (n d : nat) (X : nat -> nat -> R) (rho alpha : R) (ok : nat -> nat -> bool).
  Hypothesis Hn : (0 < n)%nat.
  Hypothesis NC : no_cycle d ok.

  Lemma func_fit w : supported d d ok (plain_weights d w) -> func n d X rho alpha w = penalised n d d X X (fun _ => 0) (plain_weights d w).
  Proof.
    intros S. rewrite penalised_loss. unfold func. change (mat_at 0 d w) with (plain_weights d w). rewrite (supported_h d ok) by auto. ring.
  Qed.

  Lemma plain_fit w : supported d d ok (plain_weights d w) ->
    ((forall v, supported d d ok (plain_weights d v) -> func n d X rho alpha w <= func n d X rho alpha v) <->
     (forall i j, (i < d)%nat -> (j < d)%nat -> ok i j = true -> residual_moment n d X X (plain_weights d w) i j = 0)).
  Proof.
    intros S.
    assert (E : (forall v, supported d d ok (plain_weights d v) -> func n d X rho alpha w <= func n d X rho alpha v) <->
                (forall B', supported d d ok B' -> penalised n d d X X (fun _ => 0) (plain_weights d w) <= penalised n d d X X (fun _ => 0) B')).
    { split.
      - intros H B' SB. destruct (weights_of d B') as (v & Ev).
        assert (Sv : supported d d ok (plain_weights d v)) by (intros i j Hi Hj A; rewrite Ev by auto; apply SB; auto).
        specialize (H v Sv). rewrite !func_fit in H by auto. rewrite (penalised_ext n d d X X _ (plain_weights d v) B') in H by auto. auto.
      - intros H v Sv. rewrite !func_fit by auto. auto. }
    rewrite E, best_weights by (auto; intros; lra). split; intros H i j Hi Hj A.
    - destruct (H i j Hi Hj A) as (C & _).  destruct (Req_dec (residual_moment n d X X (plain_weights d w) i j) 0) as [|Ne]; auto.
      apply Rabs_pos_lt in Ne. lra.
    - rewrite H by auto. split; [rewrite Rabs_R0; lra|]. split; intros; lra.
  Qed.
End Plain.

Section Box.
  Variables (d : nat) (ok : nat -> nat -> bool).

  (** The vectors within the bounds. *)
  Definition in_box (w : nat -> R) : Prop := forall i j, (i < d)%nat -> (j < d)%nat ->
    (0 <= w (i * d + j)%nat /\ 0 <= w (d * d + (i * d + j))%nat) /\
    (ok i j = false -> w (i * d + j)%nat = 0 /\ w (d * d + (i * d + j))%nat = 0).

  Lemma box_pos w : in_box w -> forall q, (q < 2 * (d * d))%nat -> 0 <= w q.
  Proof.
    intros B q Hq. destruct (Nat.lt_ge_cases q (d * d)) as [H|H].
    - destruct (decode d q d H) as (i & j & Hi & Hj & ->). apply (B i j Hi Hj).
    - assert (Hq' : (q - d * d < d * d)%nat) by lia. destruct (decode d _ d Hq') as (i & j & Hi & Hj & E).
      replace q with (d * d + (i * d + j))%nat by lia. apply (B i j Hi Hj).
  Qed.
  Lemma box_supported w : in_box w -> supported d d ok (split_weights d w).
  Proof. intros B i j Hi Hj A. destruct (B i j Hi Hj) as (_ & Z). destruct (Z A) as [E1 E2]. unfold split_weights. rewrite <- Nat.add_assoc, E1, E2. ring. Qed.
  Lemma split_box W : supported d d ok W -> in_box (split_mat d W).
  Proof.
    intros S i j Hi Hj. rewrite split_pos, split_neg by auto. split; [split; [apply ppart_nonneg|apply npart_nonneg]|].
    intros A. rewrite S by auto. unfold ppart, npart, Rmax. destruct (Rle_dec 0 0), (Rle_dec (- 0) 0); lra.
  Qed.

  Lemma split_back W i j : (i < d)%nat -> (j < d)%nat -> split_weights d (split_mat d W) i j = W i j.
  Proof. intros Hi Hj. unfold split_weights. rewrite <- Nat.add_assoc, split_pos, split_neg by auto. apply parts_diff. Qed.
End Box.

Section Lasso.
  Variables (n d : nat) (X : nat -> nat -> R) (beta rho alpha : R) (ok : nat -> nat -> bool).
  Hypothesis Hn : (0 < n)%nat.
  Hypothesis Hb : 0 <= beta.
  Hypothesis NC : no_cycle d ok.

  Lemma lasso_low w : (forall q, (q < 2 * (d * d))%nat -> 0 <= w q) -> supported d d ok (split_weights d w) ->
    penalised n d d X X (fun _ => beta) (split_weights d w) <= lasso_func n d X beta rho alpha w.
  Proof.
    intros P S. pose proof (lasso_lower n d X beta rho alpha w Hb P) as L. change (lasso_mat d w) with (split_weights d w) in L.
    rewrite (supported_h d ok) in L by auto. rewrite penalised_l1. lra.
  Qed.

  Lemma lasso_at W : supported d d ok W -> lasso_func n d X beta rho alpha (split_mat d W) = penalised n d d X X (fun _ => beta) W.
  Proof.
    intros S.
    assert (E : forall i j, (i < d)%nat -> (j < d)%nat -> lasso_mat d (split_mat d W) i j = W i j).
    { intros i j Hi Hj. rewrite lasso_mat_at, split_pos, split_neg by auto. apply parts_diff. }
    unfold lasso_func. rewrite (loss_ext n d X _ _ E), (h_ext d _ _ E), (supported_h d ok) by auto.
    rewrite penalised_l1. replace (rsum (2 * (d * d)) (split_mat d W)) with (l1 d d W); [ring|].
    rewrite rsum_two. apply rsum_ext. intros i Hi. apply rsum_ext. intros j Hj. rewrite split_pos, split_neg by auto. symmetry. apply parts_sum.
  Qed.

  Lemma lasso_fit w : in_box d ok w -> (forall v, in_box d ok v -> lasso_func n d X beta rho alpha w <= lasso_func n d X beta rho alpha v) ->
    forall i j, (i < d)%nat -> (j < d)%nat -> ok i j = true ->
      optimal_weight beta (residual_moment n d X X (split_weights d w) i j) (split_weights d w i j).
  Proof.
    intros B M. apply (best_weights n d d X X (fun _ => beta) ok Hn (fun _ _ => Hb)); [apply box_supported; auto|].
    intros B' SB. eapply Rle_trans; [apply lasso_low; [apply (box_pos d ok); auto|apply box_supported; auto]|].
    rewrite <- (lasso_at B' SB). apply M. apply split_box. auto.
  Qed.

  Lemma lasso_fit_back W : supported d d ok W ->
    (forall i j, (i < d)%nat -> (j < d)%nat -> ok i j = true -> optimal_weight beta (residual_moment n d X X W i j) (W i j)) ->
    in_box d ok (split_mat d W) /\ forall v, in_box d ok v -> lasso_func n d X beta rho alpha (split_mat d W) <= lasso_func n d X beta rho alpha v.
  Proof.
    intros S O. split; [apply split_box; auto|]. intros v Bv. rewrite (lasso_at W S).
    eapply Rle_trans; [|apply lasso_low; [apply (box_pos d ok); auto|apply box_supported; auto]].
    apply (best_weights n d d X X (fun _ => beta) ok Hn (fun _ _ => Hb) W S); auto. apply box_supported. auto.
  Qed.
End Lasso.

(** ** DYNOTEARS: the columns of the lags beside those of the current slice *)
Lemma total_app m n f : total (m + n) f = total m f + total n (fun k => f (m + k)%nat).
Proof. rewrite !total_rsum. apply rsum_split. Qed.

Section Dbox.
  Variables (d p : nat) (ok : nat -> nat -> bool) (okl : nat -> nat -> nat -> bool).

  (** The vectors within the bounds. *)
  Definition in_dbox (v : nat -> R) : Prop := in_box d ok v /\ forall k, (k < p)%nat -> in_box d (okl k) (fun q => v (2 * (d * d) + (k * (2 * (d * d)) + q))%nat).

  Lemma dbox_pos v : in_dbox v -> forall q, (q < 2 * (p + 1) * (d * d))%nat -> 0 <= v q.
  Proof.
    intros [B BL] q Hq. destruct (Nat.lt_ge_cases q (2 * (d * d))) as [H|H]; [apply (box_pos d ok v B q H)|].
    assert (H' : (q - 2 * (d * d) < p * (2 * (d * d)))%nat) by lia.
    assert (D0 : (2 * (d * d) <> 0)%nat) by (intros E; rewrite E in H'; lia).
    set (s := (q - 2 * (d * d))%nat) in *. pose proof (Nat.div_mod s (2 * (d * d)) D0) as E. pose proof (Nat.mod_upper_bound s (2 * (d * d)) D0).
    assert (Hk : (s / (2 * (d * d)) < p)%nat) by (apply Nat.div_lt_upper_bound; [auto|lia]).
    pose proof (box_pos d (okl (s / (2 * (d * d)))) _ (BL _ Hk) (s mod (2 * (d * d)))%nat) as P. cbv beta in P.
    replace q with (2 * (d * d) + ((s / (2 * (d * d))) * (2 * (d * d)) + s mod (2 * (d * d))))%nat; [apply P; auto|].
    rewrite (Nat.mul_comm (s / _)). rewrite <- E. unfold s. lia.
  Qed.
End Dbox.

Section Dyn.
  Variables (n d p : nat) (X Y : nat -> nat -> R) (lw la rho alpha : R) (ok : nat -> nat -> bool) (okl : nat -> nat -> nat -> bool).
  Hypothesis Hn : (0 < n)%nat.
  Hypothesis Hw : 0 <= lw.
  Hypothesis Hl : 0 <= la.
  Hypothesis NC : no_cycle d ok.

  Definition both (A B : nat -> nat -> R) (k j : nat) : R := if k <? d then A k j else B (k - d)%nat j.
  Definition inputs (r k : nat) : R := if k <? d then X r k else Y r (k - d)%nat.
  Definition ok_all (k j : nat) : bool := if k <? d then ok k j else okl ((k - d) / d) ((k - d) mod d) j.
  Definition pen (k : nat) : R := if k <? d then lw else la.

  Lemma both_now A B k j : (k < d)%nat -> both A B k j = A k j.
  Proof. intros H. unfold both. rewrite (proj2 (Nat.ltb_lt _ _) H). reflexivity. Qed.
  Lemma both_lag A B k j : both A B (d + k)%nat j = B k j.
  Proof. unfold both. rewrite (proj2 (Nat.ltb_ge _ _)) by lia. f_equal. lia. Qed.
  Lemma inputs_now r k : (k < d)%nat -> inputs r k = X r k.
  Proof. intros H. unfold inputs. rewrite (proj2 (Nat.ltb_lt _ _) H). reflexivity. Qed.
  Lemma inputs_lag r k : inputs r (d + k)%nat = Y r k.
  Proof. unfold inputs. rewrite (proj2 (Nat.ltb_ge _ _)) by lia. f_equal. lia. Qed.
  Lemma ok_now k j : (k < d)%nat -> ok_all k j = ok k j.
  Proof. intros H. unfold ok_all. rewrite (proj2 (Nat.ltb_lt _ _) H). reflexivity. Qed.
  Lemma ok_lag k i j : (i < d)%nat -> ok_all (d + (k * d + i))%nat j = okl k i j.
  Proof. intros H. unfold ok_all. rewrite (proj2 (Nat.ltb_ge _ _)) by lia. replace (d + (k * d + i) - d)%nat with (k * d + i)%nat by lia. destruct (div_row d k i H) as [-> ->]. reflexivity. Qed.

  Lemma linear_both W A r j : linear (d + p * d) inputs (both W A) r j = linear d X W r j + linear (p * d) Y A r j.
  Proof.
    unfold linear. rewrite total_app. f_equal; apply total_ext; intros k Hk.
    - rewrite inputs_now, both_now; auto.
    - rewrite inputs_lag, both_lag; auto.
  Qed.

  Lemma penalised_both W A : penalised n (d + p * d) d inputs X pen (both W A) =
    0.5 / INR n * norm2 n d (msub (mmul d X (msub mid W)) (mmul (p * d) Y A)) + (lw * l1 d d W + la * l1 (p * d) d A).
  Proof.
    unfold penalised. f_equal.
    - rewrite (mse_norm n d X _ (msub (mmul d X (msub mid W)) (mmul (p * d) Y A))); [lra|].
      intros r c Hr Hc. rewrite linear_both. unfold msub at 1. rewrite resid_entry by auto. replace (mmul (p * d) Y A r c) with (linear (p * d) Y A r c); [ring|].
      unfold linear, mmul. rewrite total_rsum. auto.
    - rewrite total_app. f_equal.
      + rewrite <- norm_l1. unfold weight_norm. rewrite <- total_scal. apply total_ext. intros k Hk. unfold pen. rewrite (proj2 (Nat.ltb_lt _ _) Hk). f_equal. apply total_ext. intros j _. rewrite both_now; auto.
      + rewrite <- norm_l1. unfold weight_norm. rewrite <- total_scal. apply total_ext. intros k Hk. unfold pen. rewrite (proj2 (Nat.ltb_ge _ _)) by lia. f_equal. apply total_ext. intros j _. rewrite both_lag. auto.
  Qed.

  Definition lag_supported (A : nat -> nat -> R) : Prop := forall k i j, (k < p)%nat -> (i < d)%nat -> (j < d)%nat -> okl k i j = false -> A (k * d + i)%nat j = 0.

  Lemma row_lt k i : (k < p)%nat -> (i < d)%nat -> (k * d + i < p * d)%nat.
  Proof. intros Hk Hi. assert (k * d + d <= p * d)%nat by (replace (k * d + d)%nat with (S k * d)%nat by lia; apply Nat.mul_le_mono_r; lia). lia. Qed.

  Lemma both_supported W A : supported d d ok W -> lag_supported A -> supported (d + p * d) d ok_all (both W A).
  Proof.
    intros SW SA k j Hk Hj O. destruct (Nat.lt_ge_cases k d) as [H|H].
    - rewrite both_now by auto. rewrite ok_now in O by auto. auto.
    - assert (Hk' : (k - d < p * d)%nat) by lia. destruct (decode d _ p Hk') as (m & i & Hm & Hi & E). replace k with (d + (m * d + i))%nat in * by lia.
      rewrite both_lag. rewrite ok_lag in O by auto. auto.
  Qed.

  Lemma dbox_lag v : in_dbox d p ok okl v -> lag_supported (dyn_a d v).
  Proof.
    intros [_ BL] k i j Hk Hi Hj O. rewrite dyn_a_at by auto. destruct (BL k Hk i j Hi Hj) as [_ Z]. destruct (Z O) as [E1 E2]. rewrite E1, E2. ring.
  Qed.
  Lemma split_dbox W A : supported d d ok W -> lag_supported A -> in_dbox d p ok okl (split_dyn d W A).
  Proof.
    intros SW SA. split.
    - intros i j Hi Hj. pose proof (small_pos d i j Hi Hj). rewrite !split_dyn_now by lia. apply (split_box d ok W SW i j Hi Hj).
    - intros k Hk i j Hi Hj. pose proof (small_pos d i j Hi Hj). cbv beta. rewrite !split_dyn_lag by lia.
      apply (split_box d (okl k) (fun i j => A (k * d + i)%nat j)); auto. intros i' j' Hi' Hj' O. apply SA; auto.
  Qed.

  Lemma dyn_low v : in_dbox d p ok okl v -> penalised n (d + p * d) d inputs X pen (both (dyn_w d v) (dyn_a d v)) <= dyn_func n d p X Y lw la rho alpha v.
  Proof.
    intros B. pose proof (dyn_lower n d p X Y lw la rho alpha v Hw Hl (dbox_pos d p ok okl v B)) as L. rewrite penalised_both.
    rewrite (supported_h d ok) in L; auto; [unfold dyn_resid in L; lra|]. apply (box_supported d ok v (proj1 B)).
  Qed.
  Lemma dyn_at W A : supported d d ok W -> dyn_func n d p X Y lw la rho alpha (split_dyn d W A) = penalised n (d + p * d) d inputs X pen (both W A).
  Proof. intros S. rewrite dyn_at_split, penalised_both, (supported_h d ok) by auto. ring. Qed.

  Lemma pen_nonneg k : (k < d + p * d)%nat -> 0 <= pen k.
  Proof. intros _. unfold pen. destruct (_ <? _); auto. Qed.

  Lemma both_eta B k j : (k < d + p * d)%nat -> both B (fun m j => B (d + m)%nat j) k j = B k j.
  Proof. intros H. destruct (Nat.lt_ge_cases k d); [apply both_now; auto|]. replace k with (d + (k - d))%nat by lia. rewrite both_lag. reflexivity. Qed.

  (** The conditions at the weights [W] and [A] *)
  Definition left_over (W A : nat -> nat -> R) (r j : nat) : R := X r j - (linear d X W r j + linear (p * d) Y A r j).

  Lemma all_conditions W A : (forall k j, (k < d + p * d)%nat -> (j < d)%nat -> ok_all k j = true ->
      optimal_weight (pen k) (residual_moment n (d + p * d) inputs X (both W A) k j) (both W A k j)) <->
    (forall i j, (i < d)%nat -> (j < d)%nat -> ok i j = true -> optimal_weight lw (total n (fun r => X r i * left_over W A r j) / INR n) (W i j)) /\
    (forall k i j, (k < p)%nat -> (i < d)%nat -> (j < d)%nat -> okl k i j = true -> optimal_weight la (total n (fun r => Y r (k * d + i)%nat * left_over W A r j) / INR n) (A (k * d + i)%nat j)).
  Proof.
    assert (M1 : forall i j, (i < d)%nat -> residual_moment n (d + p * d) inputs X (both W A) i j = total n (fun r => X r i * left_over W A r j) / INR n).
    { intros i j Hi. unfold residual_moment. f_equal. apply total_ext. intros r _. rewrite inputs_now, linear_both by auto. reflexivity. }
    assert (M2 : forall m j, residual_moment n (d + p * d) inputs X (both W A) (d + m) j = total n (fun r => Y r m * left_over W A r j) / INR n).
    { intros m j. unfold residual_moment. f_equal. apply total_ext. intros r _. rewrite inputs_lag, linear_both by auto. reflexivity. }
    assert (P1 : forall k, (k < d)%nat -> pen k = lw) by (intros k H; unfold pen; rewrite (proj2 (Nat.ltb_lt _ _) H); auto).
    assert (P2 : forall k, pen (d + k) = la) by (intros k; unfold pen; rewrite (proj2 (Nat.ltb_ge _ _)) by lia; auto).
    split.
    - intros H. split.
      + intros i j Hi Hj O. rewrite <- M1, <- (P1 i), <- (both_now W A i j) by auto. apply H; auto; [lia|]. rewrite ok_now; auto.
      + intros k i j Hk Hi Hj O. pose proof (row_lt k i Hk Hi). rewrite <- M2, <- (P2 (k * d + i)%nat), <- (both_lag W A (k * d + i) j). apply H; auto; [lia|]. rewrite ok_lag; auto.
    - intros [H1 H2] k j Hk Hj O. destruct (Nat.lt_ge_cases k d) as [H|H].
      + rewrite M1, P1, both_now by auto. apply H1; auto. rewrite <- ok_now; auto.
      + assert (Hk' : (k - d < p * d)%nat) by lia. destruct (decode d _ p Hk') as (m & i & Hm & Hi & E). replace k with (d + (m * d + i))%nat in * by lia.
        rewrite M2, P2, both_lag. apply H2; auto. rewrite <- ok_lag; auto.
  Qed.

  Lemma dyn_fit v : in_dbox d p ok okl v -> (forall u, in_dbox d p ok okl u -> dyn_func n d p X Y lw la rho alpha v <= dyn_func n d p X Y lw la rho alpha u) ->
    (forall i j, (i < d)%nat -> (j < d)%nat -> ok i j = true -> optimal_weight lw (total n (fun r => X r i * left_over (dyn_w d v) (dyn_a d v) r j) / INR n) (dyn_w d v i j)) /\
    (forall k i j, (k < p)%nat -> (i < d)%nat -> (j < d)%nat -> okl k i j = true -> optimal_weight la (total n (fun r => Y r (k * d + i)%nat * left_over (dyn_w d v) (dyn_a d v) r j) / INR n) (dyn_a d v (k * d + i)%nat j)).
  Proof.
    intros B M. apply all_conditions. apply (best_weights n (d + p * d) d inputs X pen ok_all Hn pen_nonneg).
    - apply both_supported; [apply (box_supported d ok v (proj1 B))|apply dbox_lag; auto].
    - intros B' SB.
      assert (SW : supported d d ok B') by (intros k j Hk Hj O; apply SB; auto; [lia|rewrite ok_now; auto]).
      assert (SA : lag_supported (fun m j => B' (d + m)%nat j)).
      { intros k i j Hk Hi Hj O. pose proof (row_lt k i Hk Hi). apply SB; auto; [lia|]. rewrite ok_lag; auto. }
      eapply Rle_trans; [apply dyn_low; auto|]. eapply Rle_trans; [apply (M _ (split_dbox _ _ SW SA))|]. rewrite dyn_at by auto.
      apply Req_le. apply penalised_ext. intros k j Hk Hj. apply both_eta. auto.
  Qed.

  Lemma dyn_fit_back W A : supported d d ok W -> lag_supported A ->
    (forall i j, (i < d)%nat -> (j < d)%nat -> ok i j = true -> optimal_weight lw (total n (fun r => X r i * left_over W A r j) / INR n) (W i j)) ->
    (forall k i j, (k < p)%nat -> (i < d)%nat -> (j < d)%nat -> okl k i j = true -> optimal_weight la (total n (fun r => Y r (k * d + i)%nat * left_over W A r j) / INR n) (A (k * d + i)%nat j)) ->
    in_dbox d p ok okl (split_dyn d W A) /\ forall u, in_dbox d p ok okl u -> dyn_func n d p X Y lw la rho alpha (split_dyn d W A) <= dyn_func n d p X Y lw la rho alpha u.
  Proof.
    intros SW SA O1 O2. split; [apply split_dbox; auto|]. intros u Bu. rewrite (dyn_at W A SW). eapply Rle_trans; [|apply dyn_low; auto].
    apply (best_weights n (d + p * d) d inputs X pen ok_all Hn pen_nonneg).
    - apply both_supported; auto.
    - apply all_conditions. auto.
    - apply both_supported; [apply (box_supported d ok u (proj1 Bu))|apply dbox_lag; auto].
  Qed.
End Dyn.
