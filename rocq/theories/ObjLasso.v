(** * ObjLasso: the split vectors against the L1 penalty. *)
From Coq Require Import List Arith Bool Lia Reals Lra FunctionalExtensionality.
From Coquelicot Require Import Coquelicot.
From Verif Require Import AcycModel AcycProofs AcycThms ObjModel ObjProofs ObjGrad.
Import ListNotations.
Local Open Scope R_scope.

Lemma rsum_last n f : rsum (S n) f = rsum n f + f n.
Proof. unfold rsum. rewrite seq_S. cbn [Nat.add]. induction (seq 0 n) as [|x l IH]; cbn; lra. Qed.

Lemma rsum_split m n f : rsum (m + n) f = rsum m f + rsum n (fun k => f (m + k)%nat).
Proof. induction n as [|n IH]; [rewrite Nat.add_0_r; cbn; lra|]. rewrite Nat.add_succ_r, !rsum_last, IH. lra. Qed.

Lemma rsum_blocks r d f : rsum (r * d) f = rsum r (fun i => rsum d (fun j => f (i * d + j)%nat)).
Proof. induction r as [|r IH]; [reflexivity|]. rewrite rsum_last, <- IH. replace (S r * d)%nat with (r * d + d)%nat by lia. apply rsum_split. Qed.

Lemma rsum_mono n f g : (forall i, (i < n)%nat -> f i <= g i) -> rsum n f <= rsum n g.
Proof. intros H. induction n as [|n IH]; [cbn; lra|]. rewrite !rsum_last. specialize (H n (Nat.lt_succ_diag_r n)) as Hn. assert (rsum n f <= rsum n g) by (apply IH; intros; apply H; lia). lra. Qed.

Lemma rsum_two d f : rsum (2 * (d * d)) f = rsum d (fun i => rsum d (fun j => f (i * d + j)%nat + f (d * d + (i * d + j))%nat)).
Proof.
  replace (2 * (d * d))%nat with (d * d + d * d)%nat by lia. rewrite rsum_split, !rsum_blocks, <- rsum_plus. apply rsum_ext. intros i _. rewrite <- rsum_plus. reflexivity.
Qed.

Lemma rsum_lags p d f : rsum (2 * p * (d * d)) f = rsum p (fun k => rsum d (fun i => rsum d (fun j => f (k * (2 * (d * d)) + (i * d + j))%nat + f (k * (2 * (d * d)) + (d * d + (i * d + j)))%nat))).
Proof. replace (2 * p * (d * d))%nat with (p * (2 * (d * d)))%nat by lia. rewrite rsum_blocks. apply rsum_ext. intros k _. rewrite rsum_two. reflexivity. Qed.

(** The L1 norm of a matrix *)
Definition l1 (r d : nat) (W : rmat) : R := rsum r (fun i => rsum d (fun j => Rabs (W i j))).

Lemma l1_lags p d A : l1 (p * d) d A = rsum p (fun k => rsum d (fun i => rsum d (fun j => Rabs (A (k * d + i)%nat j)))).
Proof. apply rsum_blocks. Qed.

Lemma l1_ext r d A B : (forall i j, (i < r)%nat -> (j < d)%nat -> A i j = B i j) -> l1 r d A = l1 r d B.
Proof. intros H. apply rsum_ext. intros i Hi. apply rsum_ext. intros j Hj. rewrite H; auto. Qed.

Lemma abs_split a b : 0 <= a -> 0 <= b -> Rabs (a - b) <= a + b.
Proof. intros. apply Rabs_le. lra. Qed.

Lemma norm2_ext n d A B : (forall i j, (i < n)%nat -> (j < d)%nat -> A i j = B i j) -> norm2 n d A = norm2 n d B.
Proof. intros H. rewrite !norm2_eq. apply rsum_ext. intros i Hi. apply rsum_ext. intros j Hj. rewrite H; auto. Qed.

Lemma h_ext d A B : (forall i j, (i < d)%nat -> (j < d)%nat -> A i j = B i j) -> h_fun d A = h_fun d B.
Proof. intros H. unfold h_fun. f_equal. apply rsum_ext. intros i Hi. apply mexp_ext; auto. intros a b Ha Hb. unfold squared. rewrite H; auto. Qed.

Lemma loss_ext n d X A B : (forall i j, (i < d)%nat -> (j < d)%nat -> A i j = B i j) -> loss n d X A = loss n d X B.
Proof. intros H. unfold loss. f_equal. apply norm2_ext. intros i j Hi Hj. apply mmul_ext; auto. intros k Hk. unfold msub. rewrite H; auto. Qed.

(** Positive and negative parts *)
Definition ppart (x : R) : R := Rmax x 0.
Definition npart (x : R) : R := Rmax (- x) 0.
Lemma parts_diff x : ppart x - npart x = x.
Proof. unfold ppart, npart, Rmax. destruct (Rle_dec x 0), (Rle_dec (- x) 0); lra. Qed.
Lemma parts_sum x : ppart x + npart x = Rabs x.
Proof. unfold ppart, npart, Rmax, Rabs. destruct (Rle_dec x 0), (Rle_dec (- x) 0), (Rcase_abs x); lra. Qed.
Lemma ppart_nonneg x : 0 <= ppart x. Proof. apply Rmax_r. Qed.
Lemma npart_nonneg x : 0 <= npart x. Proof. apply Rmax_r. Qed.

Definition split_mat (d : nat) (W : rmat) (q : nat) : R := if q <? d * d then ppart (flat d W q) else npart (flat d W (q - d * d)%nat).

Lemma split_pos d W i j : (i < d)%nat -> (j < d)%nat -> split_mat d W (i * d + j) = ppart (W i j).
Proof. intros Hi Hj. unfold split_mat. rewrite (proj2 (Nat.ltb_lt _ _) (small_pos d i j Hi Hj)), flat_at; auto. Qed.
Lemma split_neg d W i j : (i < d)%nat -> (j < d)%nat -> split_mat d W (d * d + (i * d + j)) = npart (W i j).
Proof. intros Hi Hj. unfold split_mat. rewrite (proj2 (Nat.ltb_ge (d * d + (i * d + j)) (d * d))) by lia. replace (d * d + (i * d + j) - d * d)%nat with (i * d + j)%nat by lia. rewrite flat_at; auto. Qed.
Lemma split_nonneg d W q : 0 <= split_mat d W q.
Proof. unfold split_mat. destruct (_ <? _); [apply ppart_nonneg|apply npart_nonneg]. Qed.

Lemma lasso_mat_at d w i j : lasso_mat d w i j = w (i * d + j)%nat - w (d * d + (i * d + j))%nat.
Proof. unfold lasso_mat, msub, mat_at. cbn [Nat.add]. rewrite Nat.add_assoc. reflexivity. Qed.

Lemma lasso_sum_ge d w : (forall q, (q < 2 * (d * d))%nat -> 0 <= w q) -> l1 d d (lasso_mat d w) <= rsum (2 * (d * d)) w.
Proof.
  intros H. rewrite rsum_two. apply rsum_mono. intros i Hi. apply rsum_mono. intros j Hj. rewrite lasso_mat_at. pose proof (small_pos d i j Hi Hj). apply abs_split; apply H; lia.
Qed.

Lemma lasso_lower n d X beta rho alpha w : 0 <= beta -> (forall q, (q < 2 * (d * d))%nat -> 0 <= w q) ->
  loss n d X (lasso_mat d w) + 0.5 * rho * h_fun d (lasso_mat d w) * h_fun d (lasso_mat d w) + alpha * h_fun d (lasso_mat d w) + beta * l1 d d (lasso_mat d w) <= lasso_func n d X beta rho alpha w.
Proof. intros Hb H. unfold lasso_func. pose proof (Rmult_le_compat_l beta _ _ Hb (lasso_sum_ge d w H)). lra. Qed.

Lemma lasso_attained n d X beta rho alpha W : exists w, (forall q, 0 <= w q) /\ (forall i j, (i < d)%nat -> (j < d)%nat -> lasso_mat d w i j = W i j) /\
  lasso_func n d X beta rho alpha w = loss n d X W + 0.5 * rho * h_fun d W * h_fun d W + alpha * h_fun d W + beta * l1 d d W.
Proof.
  exists (split_mat d W). split; [intros; apply split_nonneg|].
  assert (E : forall i j, (i < d)%nat -> (j < d)%nat -> lasso_mat d (split_mat d W) i j = W i j).
  { intros i j Hi Hj. rewrite lasso_mat_at, split_pos, split_neg by auto. apply parts_diff. }
  split; [exact E|]. unfold lasso_func. rewrite (loss_ext n d X _ _ E), (h_ext d _ _ E). f_equal. f_equal.
  rewrite rsum_two. apply rsum_ext. intros i Hi. apply rsum_ext. intros j Hj. rewrite split_pos, split_neg by auto. apply parts_sum.
Qed.

(** ** DYNOTEARS *)
Lemma dyn_a_at d v k i j : (i < d)%nat -> dyn_a d v (k * d + i)%nat j = v (2 * (d * d) + (k * (2 * (d * d)) + (i * d + j)))%nat - v (2 * (d * d) + (k * (2 * (d * d)) + (d * d + (i * d + j))))%nat.
Proof. intros H. apply dyn_split; auto. Qed.

Lemma lag_pos d p k i j : (k < p)%nat -> (i < d)%nat -> (j < d)%nat -> (k * (2 * (d * d)) + (d * d + (i * d + j)) < 2 * p * (d * d))%nat.
Proof.
  intros Hk Hi Hj. pose proof (small_pos d i j Hi Hj). assert (k * (2 * (d * d)) <= (p - 1) * (2 * (d * d)))%nat by (apply Nat.mul_le_mono_r; lia).
  assert ((p - 1) * (2 * (d * d)) + 2 * (d * d) = 2 * p * (d * d))%nat by (destruct p; [lia|cbn [Nat.sub]; rewrite Nat.sub_0_r; lia]). lia.
Qed.

Lemma dyn_sum_ge d p v : (forall q, (q < 2 * (p + 1) * (d * d))%nat -> 0 <= v q) -> l1 (p * d) d (dyn_a d v) <= rsum (2 * p * (d * d)) (fun q => v (2 * (d * d) + q)%nat).
Proof.
  intros H. rewrite rsum_lags, l1_lags. apply rsum_mono. intros k Hk. apply rsum_mono. intros i Hi. apply rsum_mono. intros j Hj. rewrite dyn_a_at by auto. pose proof (lag_pos d p k i j Hk Hi Hj). apply abs_split; apply H; lia.
Qed.

Lemma dyn_lower n d p X Y lw la rho alpha v : 0 <= lw -> 0 <= la -> (forall q, (q < 2 * (p + 1) * (d * d))%nat -> 0 <= v q) ->
  0.5 / INR n * norm2 n d (dyn_resid d p X Y v) + 0.5 * rho * h_fun d (dyn_w d v) * h_fun d (dyn_w d v) + alpha * h_fun d (dyn_w d v) + (lw * l1 d d (dyn_w d v) + la * l1 (p * d) d (dyn_a d v))
  <= dyn_func n d p X Y lw la rho alpha v.
Proof.
  intros Hw Hl H. unfold dyn_func. assert (H2 : forall q, (q < 2 * (d * d))%nat -> 0 <= v q) by (intros q Hq; apply H; lia).
  pose proof (Rmult_le_compat_l lw _ _ Hw (lasso_sum_ge d v H2)). pose proof (Rmult_le_compat_l la _ _ Hl (dyn_sum_ge d p v H)). unfold dyn_w. lra.
Qed.

Definition split_dyn (d : nat) (W A : rmat) (q : nat) : R :=
  if q <? 2 * (d * d) then split_mat d W q
  else let k := ((q - 2 * (d * d)) / (2 * (d * d)))%nat in split_mat d (fun i j => A (k * d + i)%nat j) ((q - 2 * (d * d)) mod (2 * (d * d))).

Lemma split_dyn_lag d W A k r : (r < 2 * (d * d))%nat -> split_dyn d W A (2 * (d * d) + (k * (2 * (d * d)) + r)) = split_mat d (fun i j => A (k * d + i)%nat j) r.
Proof.
  intros H. unfold split_dyn. rewrite (proj2 (Nat.ltb_ge (2 * (d * d) + (k * (2 * (d * d)) + r)) (2 * (d * d)))) by lia.
  replace (2 * (d * d) + (k * (2 * (d * d)) + r) - 2 * (d * d))%nat with (k * (2 * (d * d)) + r)%nat by lia. destruct (div_row (2 * (d * d)) k r H) as [-> ->]. reflexivity.
Qed.
Lemma split_dyn_now d W A q : (q < 2 * (d * d))%nat -> split_dyn d W A q = split_mat d W q.
Proof. intros H. unfold split_dyn. rewrite (proj2 (Nat.ltb_lt _ _) H). reflexivity. Qed.

Lemma split_dyn_w d W A i j : (i < d)%nat -> (j < d)%nat -> dyn_w d (split_dyn d W A) i j = W i j.
Proof. intros Hi Hj. pose proof (small_pos d i j Hi Hj). unfold dyn_w. rewrite lasso_mat_at, !split_dyn_now by lia. rewrite split_pos, split_neg by auto. apply parts_diff. Qed.
Lemma split_dyn_a d p W A m j : (m < p * d)%nat -> (j < d)%nat -> dyn_a d (split_dyn d W A) m j = A m j.
Proof. intros Hm Hj. destruct (decode d m p Hm) as (k & i & Hk & Hi & ->). pose proof (small_pos d i j Hi Hj). rewrite dyn_a_at, !split_dyn_lag by lia. rewrite split_pos, split_neg by auto. apply parts_diff. Qed.

Lemma dyn_at_split n d p X Y lw la rho alpha W A :
  dyn_func n d p X Y lw la rho alpha (split_dyn d W A) = 0.5 / INR n * norm2 n d (msub (mmul d X (msub mid W)) (mmul (p * d) Y A)) + 0.5 * rho * h_fun d W * h_fun d W + alpha * h_fun d W + (lw * l1 d d W + la * l1 (p * d) d A).
Proof.
  pose proof (split_dyn_w d W A) as EW. pose proof (split_dyn_a d p W A) as EA.
  unfold dyn_func. rewrite (h_ext d _ _ EW). f_equal; [f_equal; f_equal; f_equal; apply norm2_ext|f_equal; f_equal].
  - intros i j Hi Hj. unfold dyn_resid, msub at 1 3. f_equal; apply mmul_ext; auto. intros k Hk. unfold msub. rewrite EW; auto.
  - rewrite rsum_two. apply rsum_ext. intros i Hi. apply rsum_ext. intros j Hj. pose proof (small_pos d i j Hi Hj). rewrite !split_dyn_now by lia. rewrite split_pos, split_neg by auto. apply parts_sum.
  - rewrite rsum_lags, l1_lags. apply rsum_ext. intros k Hk. apply rsum_ext. intros i Hi. apply rsum_ext. intros j Hj. pose proof (small_pos d i j Hi Hj). rewrite !split_dyn_lag by lia. rewrite split_pos, split_neg by auto. apply parts_sum.
Qed.

Lemma dyn_attained n d p X Y lw la rho alpha W A : exists v, (forall q, 0 <= v q) /\
  (forall i j, (i < d)%nat -> (j < d)%nat -> dyn_w d v i j = W i j) /\ (forall m j, (m < p * d)%nat -> (j < d)%nat -> dyn_a d v m j = A m j) /\
  dyn_func n d p X Y lw la rho alpha v = 0.5 / INR n * norm2 n d (msub (mmul d X (msub mid W)) (mmul (p * d) Y A)) + 0.5 * rho * h_fun d W * h_fun d W + alpha * h_fun d W + (lw * l1 d d W + la * l1 (p * d) d A).
Proof.
  exists (split_dyn d W A). split; [intros q; unfold split_dyn; destruct (_ <? _); apply split_nonneg|].
  split; [intros; apply split_dyn_w; auto|]. split; [intros; apply (split_dyn_a d p); auto|]. apply dyn_at_split.
Qed.
