(** * ObjGrad: the gradients of the objective functions. *)
From Coq Require Import List Arith Bool Lia Reals Lra FunctionalExtensionality.
From Coquelicot Require Import Coquelicot.
From Verif Require Import AcycModel AcycProofs AcycThms ObjModel ObjProofs.
Import ListNotations.
Local Open Scope R_scope.

Lemma mpow_ext d A B n i j : (forall i j, (i < d)%nat -> (j < d)%nat -> A i j = B i j) -> (i < d)%nat -> (j < d)%nat -> mpow d A n i j = mpow d B n i j.
Proof. intros H. revert i j. induction n as [|n IH]; intros i j Hi Hj; cbn [mpow]; [auto|]. apply mmul_ext; intros; auto. Qed.

Lemma mexp_ext d A B i j : (forall i j, (i < d)%nat -> (j < d)%nat -> A i j = B i j) -> (i < d)%nat -> (j < d)%nat -> mexp d A i j = mexp d B i j.
Proof. intros H Hi Hj. apply Series_ext. intros n. rewrite (mpow_ext d A B n i j); auto. Qed.

Lemma mexp_ex d A i j : (i < d)%nat -> (j < d)%nat -> ex_series (fun k => mpow d A k i j / INR (fact k)).
Proof.
  intros Hi Hj. destruct (entries_bounded d (fun i j => Rabs (A i j))) as (M & HM & B).
  apply (ex_series_le (K := R_AbsRing) (V := R_CompleteNormedModule)) with (fun k => (INR d * M) ^ k / INR (fact k)); [|apply exp_bounded].
  intros k. change (norm (mpow d A k i j / INR (fact k))) with (Rabs (mpow d A k i j / INR (fact k))). unfold Rdiv.
  rewrite Rabs_mult, (Rabs_pos_eq (/ INR (fact k))) by (apply Rlt_le, Rinv_0_lt_compat, fact_pos).
  apply Rmult_le_compat_r; [apply Rlt_le, Rinv_0_lt_compat, fact_pos|]. apply mpow_abs; auto.
Qed.

Lemma series_lsum {A} (f : A -> nat -> R) l : (forall a, In a l -> ex_series (f a)) -> is_series (fun k => lsum (fun a => f a k) l) (lsum (fun a => Series (f a)) l).
Proof.
  induction l as [|a l IH]; intros H; cbn [lsum].
  - apply is_series_Reals. intros e He. exists 0%nat. intros n _. replace (sum_f_R0 (fun _ => 0) n) with 0; [unfold R_dist; rewrite Rminus_0_r, Rabs_R0; auto|]. symmetry. apply sum_eq_R0. auto.
  - apply (is_series_plus (V := R_NormedModule) (f a) (fun k => lsum (fun a => f a k) l)); [apply Series_correct, H; left; auto|apply IH; intros; apply H; right; auto].
Qed.

Lemma tr_mexp d A : is_series (fun k => tr d (mpow d A k) / INR (fact k)) (tr d (mexp d A)).
Proof.
  unfold tr, rsum. apply is_series_ext with (fun k => lsum (fun i => mpow d A k i i / INR (fact k)) (seq 0 d)).
  - intros k. transitivity (/ INR (fact k) * lsum (fun i => mpow d A k i i) (seq 0 d)); [|unfold Rdiv; apply Rmult_comm].
    rewrite <- lsum_scal. apply lsum_ext. intros i _. unfold Rdiv. apply Rmult_comm.
  - apply (series_lsum (fun i k => mpow d A k i i / INR (fact k))). intros i Hi. apply in_seq0 in Hi. apply mexp_ex; auto.
Qed.

(** The function of the code is the penalty of AcycModel. *)
Lemma h_fun_penalty d W : exp_penalty d W (h_fun d W).
Proof. unfold exp_penalty, h_fun. replace (tr d (mexp d (squared W)) - INR d + INR d) with (tr d (mexp d (squared W))) by ring. apply is_series_Reals, tr_mexp. Qed.

Lemma h_derive d (W : R -> rmat) W0 a b (e : R -> R) (e' x : R) : (a < d)%nat -> (b < d)%nat -> (forall y i j, (i < d)%nat -> (j < d)%nat -> W y i j = pert W0 a b (e y) i j) -> is_derive e x e' ->
  is_derive (fun y => h_fun d (W y)) x (e' * (mexp d (squared (W x)) b a * W x a b * 2)).
Proof.
  intros Ha Hb HW He.
  assert (Sq : forall y i j, (i < d)%nat -> (j < d)%nat -> squared (W y) i j = pert (squared W0) a b (e y * e y) i j).
  { intros y i j Hi Hj. unfold squared. rewrite HW by auto. unfold pert. destruct ((i =? a) && (j =? b))%bool; auto. }
  set (S0 := fun u => Series (fun k => tr d (mpow d (pert (squared W0) a b u) k) / INR (fact k))).
  assert (Hs : forall y, h_fun d (W y) = S0 (e y * e y) - INR d).
  { intros y. unfold h_fun, S0. f_equal. rewrite <- (is_series_unique _ _ (tr_mexp d (squared (W y)))). apply Series_ext. intros n. f_equal. apply rsum_ext. intros i Hi. apply mpow_ext; auto. }
  apply derive_ext with (fun y => S0 (e y * e y) - INR d); [intros; auto|].
  assert (Ee : W x a b = e x) by (rewrite HW by auto; unfold pert; rewrite !Nat.eqb_refl; auto).
  assert (D1 : is_derive (fun y => e y * e y) x (e' * e x + e x * e')) by (apply derive_mult; auto).
  assert (D2 := trace_derive d (squared W0) a b Ha Hb (e x * e x)).
  assert (D3 : is_derive (fun y => S0 (e y * e y)) x ((e' * e x + e x * e') * mexp d (pert (squared W0) a b (e x * e x)) b a)) by exact (is_derive_comp (V := R_NormedModule) S0 (fun y => e y * e y) x _ _ D2 D1).
  eapply derive_eq; [apply derive_minus; [exact D3|apply derive_const]|].
  rewrite Ee, (mexp_ext d (squared (W x)) (pert (squared W0) a b (e x * e x)) b a) by auto. ring.
Qed.

Lemma rsum_nonneg d (f : nat -> R) : (forall i, 0 <= f i) -> 0 <= rsum d f.
Proof. intros H. apply lsum_nonneg. auto. Qed.

Lemma norm2_eq n d M : norm2 n d M = rsum n (fun r => rsum d (fun c => M r c * M r c)).
Proof. unfold norm2. apply Rsqr_sqrt. apply rsum_nonneg. intros r. apply rsum_nonneg. intros c. apply (Rle_0_sqr (M r c)). Qed.

Lemma norm2_derive n d (M : R -> rmat) M' x : (forall r c, (r < n)%nat -> (c < d)%nat -> is_derive (fun y => M y r c) x (M' r c)) ->
  is_derive (fun y => norm2 n d (M y)) x (2 * rsum n (fun r => rsum d (fun c => M x r c * M' r c))).
Proof.
  intros H. apply derive_ext with (fun y => rsum n (fun r => rsum d (fun c => M y r c * M y r c))); [intros; symmetry; apply norm2_eq|].
  eapply derive_eq; [apply derive_rsum; intros r Hr; apply derive_rsum; intros c Hc; apply derive_mult; apply H; auto|].
  cbn beta. rewrite <- rsum_scal. apply rsum_ext. intros r _. rewrite <- rsum_scal. apply rsum_ext. intros; ring.
Qed.

(** A product with a matrix of which one entry moves *)
Lemma mul_derive m d X (A : R -> rmat) A0 a b (e : R -> R) (e' x : R) r c : (a < m)%nat -> (forall y i j, (i < m)%nat -> (j < d)%nat -> A y i j = pert A0 a b (e y) i j) -> is_derive e x e' -> (c < d)%nat ->
  is_derive (fun y => mmul m X (A y) r c) x (X r a * ((if c =? b then 1 else 0) * e')).
Proof.
  intros Ha HA He Hc. unfold mmul.
  eapply derive_eq.
  - apply derive_rsum with (f := fun k y => X r k * A y k c) (f' := fun k => X r k * ((if k =? a then 1 else 0) * ((if c =? b then 1 else 0) * e'))). intros k Hk. apply derive_scal.
    apply derive_ext with (fun y => pert A0 a b (e y) k c); [intros; symmetry; apply HA; auto|]. cbn beta. unfold pert.
    destruct (k =? a); cbn [andb]; [destruct (c =? b)|].
    + eapply derive_eq; [exact He|ring].
    + eapply derive_eq; [apply derive_const|ring].
    + eapply derive_eq; [apply derive_const|ring].
  - cbn beta. transitivity (rsum m (fun k => (if k =? a then 1 else 0) * (X r k * ((if c =? b then 1 else 0) * e')))); [apply rsum_ext; intros; ring|]. rewrite rsum_pick by auto. ring.
Qed.

(** The residuals when one weight of the first matrix moves *)
Lemma sum_col n d X M a b (e' : R) : (b < d)%nat ->
  rsum n (fun r => rsum d (fun c => M r c * - (X r a * ((if c =? b then 1 else 0) * e')))) = - e' * mmul n (mT X) M a b.
Proof.
  intros Hb. unfold mmul, mT. rewrite <- rsum_scal. apply rsum_ext. intros r _.
  transitivity (rsum d (fun c => (if c =? b then 1 else 0) * (M r c * - (X r a * e')))); [apply rsum_ext; intros; ring|]. rewrite rsum_pick by auto. ring.
Qed.

Lemma resid_derive d X (W : R -> rmat) W0 a b (e : R -> R) (e' x : R) r c : (a < d)%nat -> (forall y i j, (i < d)%nat -> (j < d)%nat -> W y i j = pert W0 a b (e y) i j) -> is_derive e x e' -> (c < d)%nat ->
  is_derive (fun y => mmul d X (msub mid (W y)) r c) x (- (X r a * ((if c =? b then 1 else 0) * e'))).
Proof.
  intros Ha HW He Hc.
  apply derive_ext with (fun y => mmul d X mid r c - mmul d X (W y) r c).
  - intros y. unfold mmul, msub, rsum. clear.
    induction (seq 0 d) as [|k l IH]; cbn [lsum]; [ring|]. rewrite <- IH. ring.
  - eapply derive_eq; [apply derive_minus; [apply derive_const|exact (mul_derive d d X W W0 a b e e' x r c Ha HW He Hc)]|]. ring.
Qed.

(** The gradient along one entry of the weights *)
Lemma obj_derive n d X rho alpha (W : R -> rmat) W0 a b (e : R -> R) (e' x : R) : (a < d)%nat -> (b < d)%nat -> (forall y i j, (i < d)%nat -> (j < d)%nat -> W y i j = pert W0 a b (e y) i j) -> is_derive e x e' ->
  is_derive (fun y => loss n d X (W y) + 0.5 * rho * h_fun d (W y) * h_fun d (W y) + alpha * h_fun d (W y)) x (e' * obj_grad n d X rho alpha (W x) a b).
Proof.
  intros Ha Hb HW He. pose proof (h_derive d W W0 a b e e' x Ha Hb HW He) as Dh.
  eapply derive_eq.
  - apply derive_plus; [apply derive_plus|].
    + unfold loss. apply derive_scal. apply norm2_derive with (M := fun y => mmul d X (msub mid (W y))) (M' := fun r c => - (X r a * ((if c =? b then 1 else 0) * e'))). intros r c _ Hc. exact (resid_derive d X W W0 a b e e' x r c Ha HW He Hc).
    + apply derive_mult; [apply derive_scal; exact Dh|exact Dh].
    + apply derive_scal. exact Dh.
  - cbn beta. rewrite sum_col by auto. unfold obj_grad. fold (h_fun d (W x)).
    replace (mmul d (mmul n (mT X) X) (msub mid (W x)) a b) with (mmul n (mT X) (mmul d X (msub mid (W x))) a b).
    + unfold Rdiv. lra.
    + unfold mmul. transitivity (rsum n (fun k => rsum d (fun l => mT X a k * X k l * msub mid (W x) l b))); [apply rsum_ext; intros; rewrite <- rsum_scal; apply rsum_ext; intros; ring|].
      rewrite rsum_swap. apply rsum_ext. intros l _. rewrite Rmult_comm, <- rsum_scal. apply rsum_ext. intros; ring.
Qed.

(** ** The vectors of scipy *)

(** The vector with another value at position [q] *)
Definition at_pos (w : rvec) (q : nat) (x : R) : rvec := fun m => if m =? q then x else w m.

Lemma at_pos_self w q : at_pos w q (w q) = w.
Proof. apply functional_extensionality. intros m. unfold at_pos. destruct (Nat.eqb_spec m q); subst; auto. Qed.

Lemma div_row d i j : (j < d)%nat -> ((i * d + j) / d)%nat = i /\ ((i * d + j) mod d)%nat = j.
Proof. intros H. split; [rewrite Nat.div_add_l by lia; rewrite Nat.div_small by auto; lia|rewrite Nat.add_comm, Nat.mod_add by lia; apply Nat.mod_small; auto]. Qed.

Lemma pos_eqb d i j a b : (j < d)%nat -> (b < d)%nat -> (i * d + j =? a * d + b)%nat = ((i =? a) && (j =? b))%bool.
Proof.
  intros Hj Hb. destruct (Nat.eqb_spec (i * d + j) (a * d + b)) as [E|N].
  - destruct (div_row d i j Hj) as [E1 E2], (div_row d a b Hb) as [E3 E4]. rewrite E in E1, E2. rewrite <- E1, <- E2, E3, E4, !Nat.eqb_refl. auto.
  - destruct (Nat.eqb_spec i a); [|auto]. destruct (Nat.eqb_spec j b); [|auto]. subst. destruct N. auto.
Qed.

Lemma decode d q r : (q < r * d)%nat -> exists a b, (a < r)%nat /\ (b < d)%nat /\ q = (a * d + b)%nat.
Proof.
  intros H. assert (d <> 0)%nat by (intros ->; lia). exists (q / d)%nat, (q mod d)%nat.
  split; [apply Nat.div_lt_upper_bound; auto; lia|]. split; [apply Nat.mod_upper_bound; auto|]. rewrite (Nat.div_mod q d) at 1 by auto. lia.
Qed.

Lemma flat_at d M a b : (b < d)%nat -> flat d M (a * d + b)%nat = M a b.
Proof. intros H. unfold flat. destruct (div_row d a b H) as [-> ->]. auto. Qed.

Lemma small_pos d i j : (i < d)%nat -> (j < d)%nat -> (i * d + j < d * d)%nat.
Proof. intros Hi Hj. assert (i * d <= (d - 1) * d)%nat by (apply Nat.mul_le_mono_r; lia). assert ((d - 1) * d + d = d * d)%nat by (destruct d; [lia|cbn; lia]). lia. Qed.

Lemma func_gradient n d X rho alpha w q : (q < d * d)%nat ->
  is_derive (fun x => func n d X rho alpha (at_pos w q x)) (w q) (grad n d X rho alpha w q).
Proof.
  intros H. destruct (decode d q d H) as (a & b & Ha & Hb & ->).
  eapply derive_eq; [apply obj_derive with (W := fun y => mat_at 0 d (at_pos w (a * d + b)%nat y)) (W0 := mat_at 0 d w) (a := a) (b := b) (e := fun y => y) (e' := 1); auto|].
  - intros y i j Hi Hj. unfold mat_at, at_pos, pert. cbn [Nat.add]. rewrite pos_eqb by auto. auto.
  - apply (is_derive_id (K := R_AbsRing)).
  - cbn beta. unfold grad. rewrite at_pos_self, flat_at by auto. ring.
Qed.

Lemma rsum_pos_derive N w q x o : is_derive (fun y => rsum N (fun m => at_pos w q y (o + m)%nat)) x (if ((o <=? q) && (q <? o + N))%bool then 1 else 0).
Proof.
  assert (D : forall m, is_derive (fun y => at_pos w q y m) x (if m =? q then 1 else 0)).
  { intros m. unfold at_pos. destruct (m =? q); [apply (is_derive_id (K := R_AbsRing))|apply derive_const]. }
  eapply derive_eq; [apply derive_rsum with (f := fun m y => at_pos w q y (o + m)%nat) (f' := fun m => if (o + m =? q)%nat then 1 else 0); intros; apply D|].
  destruct (Nat.leb_spec o q) as [Ho|Ho]; cbn [andb].
  - destruct (Nat.ltb_spec q (o + N)) as [Hq|Hq].
    + transitivity (rsum N (fun m => (if m =? q - o then 1 else 0) * 1)); [|rewrite rsum_pick by lia; auto]. apply rsum_ext. intros m _. destruct (Nat.eqb_spec (o + m) q), (Nat.eqb_spec m (q - o)); try lia; lra.
    + transitivity (rsum N (fun _ => 0)); [apply rsum_ext; intros m Hm; destruct (Nat.eqb_spec (o + m) q); [lia|auto]|]. unfold rsum. rewrite lsum_const. ring.
  - transitivity (rsum N (fun _ => 0)); [apply rsum_ext; intros m Hm; destruct (Nat.eqb_spec (o + m) q); [lia|auto]|]. unfold rsum. rewrite lsum_const. ring.
Qed.

(** The two places of a weight in the vector of the lasso *)
Lemma lasso_pos d w a b y i j : (a < d)%nat -> (b < d)%nat -> (i < d)%nat -> (j < d)%nat ->
  lasso_mat d (at_pos w (a * d + b)%nat y) i j = pert (lasso_mat d w) a b (y - w (d * d + a * d + b)%nat) i j.
Proof.
  intros Ha Hb Hi Hj. pose proof (small_pos d a b Ha Hb). pose proof (small_pos d i j Hi Hj). unfold lasso_mat, msub, mat_at, at_pos, pert. cbn [Nat.add]. rewrite pos_eqb by auto.
  replace (d * d + i * d + j =? a * d + b)%nat with false by (symmetry; apply Nat.eqb_neq; lia).
  destruct (Nat.eqb_spec i a), (Nat.eqb_spec j b); cbn [andb]; subst; auto.
Qed.

Lemma lasso_neg d w a b y i j : (a < d)%nat -> (b < d)%nat -> (i < d)%nat -> (j < d)%nat ->
  lasso_mat d (at_pos w (d * d + a * d + b)%nat y) i j = pert (lasso_mat d w) a b (w (a * d + b)%nat - y) i j.
Proof.
  intros Ha Hb Hi Hj. pose proof (small_pos d a b Ha Hb). pose proof (small_pos d i j Hi Hj). unfold lasso_mat, msub, mat_at, at_pos, pert. cbn [Nat.add].
  replace (i * d + j =? d * d + a * d + b)%nat with false by (symmetry; apply Nat.eqb_neq; lia).
  replace (d * d + i * d + j =? d * d + a * d + b)%nat with (i * d + j =? a * d + b)%nat by (destruct (Nat.eqb_spec (i * d + j) (a * d + b)), (Nat.eqb_spec (d * d + i * d + j) (d * d + a * d + b)); auto; lia).
  rewrite pos_eqb by auto. destruct (Nat.eqb_spec i a), (Nat.eqb_spec j b); cbn [andb]; subst; auto.
Qed.

Lemma id_minus c (x : R) : is_derive (fun y => y - c) x 1.
Proof. eapply derive_eq; [apply derive_minus; [apply (is_derive_id (K := R_AbsRing))|apply derive_const]|]. unfold one. cbn. lra. Qed.
Lemma minus_id c (x : R) : is_derive (fun y => c - y) x (-1).
Proof. eapply derive_eq; [apply derive_minus; [apply derive_const|apply (is_derive_id (K := R_AbsRing))]|]. unfold one. cbn. lra. Qed.

Lemma lasso_gradient n d X beta rho alpha w q : (q < 2 * (d * d))%nat ->
  is_derive (fun x => lasso_func n d X beta rho alpha (at_pos w q x)) (w q) (lasso_grad n d X beta rho alpha w q).
Proof.
  intros H. unfold lasso_func.
  assert (Ds : is_derive (fun x => beta * rsum (2 * (d * d)) (at_pos w q x)) (w q) beta).
  { eapply derive_eq; [apply derive_scal; apply (rsum_pos_derive (2 * (d * d)) w q (w q) 0)|]. cbn [Nat.leb andb Nat.add]. replace (q <? 2 * (d * d)) with true by (symmetry; apply Nat.ltb_lt; auto). ring. }
  unfold lasso_grad. destruct (Nat.ltb_spec q (d * d)) as [L|L].
  - destruct (decode d q d L) as (a & b & Ha & Hb & ->). apply derive_plus; [|exact Ds].
    eapply derive_eq; [apply obj_derive with (W := fun y => lasso_mat d (at_pos w (a * d + b)%nat y)) (W0 := lasso_mat d w) (a := a) (b := b) (e := fun y => y - w (d * d + a * d + b)%nat) (e' := 1); auto|].
    + intros y i j Hi Hj. apply lasso_pos; auto.
    + apply id_minus.
    + cbn beta. rewrite at_pos_self, flat_at by auto. ring.
  - assert (L2 : (q - d * d < d * d)%nat) by lia. destruct (decode d _ d L2) as (a & b & Ha & Hb & E). assert (Eq : q = (d * d + a * d + b)%nat) by lia. rewrite E. subst q. apply derive_plus; [|exact Ds].
    eapply derive_eq; [apply obj_derive with (W := fun y => lasso_mat d (at_pos w (d * d + a * d + b)%nat y)) (W0 := lasso_mat d w) (a := a) (b := b) (e := fun y => w (a * d + b)%nat - y) (e' := -1); auto|].
    + intros y i j Hi Hj. apply lasso_neg; auto.
    + apply minus_id.
    + cbn beta. rewrite at_pos_self, flat_at by auto. ring.
Qed.

(** ** DYNOTEARS *)
Lemma dyn_a_fixed d v q y : (q < 2 * (d * d))%nat -> dyn_a d (at_pos v q y) = dyn_a d v.
Proof.
  intros H. apply functional_extensionality. intros m. apply functional_extensionality. intros j. unfold dyn_a, mat_at, at_pos.
  rewrite !(proj2 (Nat.eqb_neq _ q)) by lia. auto.
Qed.

Lemma dyn_w_fixed d v q y i j : (2 * (d * d) <= q)%nat -> (i < d)%nat -> (j < d)%nat -> dyn_w d (at_pos v q y) i j = dyn_w d v i j.
Proof.
  intros H Hi Hj. pose proof (small_pos d i j Hi Hj). unfold dyn_w, lasso_mat, msub, mat_at, at_pos. cbn [Nat.add].
  rewrite !(proj2 (Nat.eqb_neq _ q)) by lia. auto.
Qed.

Lemma dyn_split d m j k' i' : m = (k' * d + i')%nat -> (i' < d)%nat -> forall v, dyn_a d v m j = v (2 * (d * d) + (k' * (2 * (d * d)) + (i' * d + j)))%nat - v (2 * (d * d) + (k' * (2 * (d * d)) + (d * d + (i' * d + j))))%nat.
Proof.
  intros -> Hi v. unfold dyn_a, mat_at. destruct (div_row d k' i' Hi) as [-> ->]. f_equal; f_equal; lia.
Qed.

Lemma dyn_a_pos d p v k a b y m j : (k < p)%nat -> (a < d)%nat -> (b < d)%nat -> (m < p * d)%nat -> (j < d)%nat ->
  dyn_a d (at_pos v (2 * (d * d) + (k * (2 * (d * d)) + (a * d + b)))%nat y) m j =
  pert (dyn_a d v) (k * d + a) b (y - v (2 * (d * d) + (k * (2 * (d * d)) + (d * d + (a * d + b))))%nat) m j.
Proof.
  intros Hk Ha Hb Hm Hj. destruct (decode d m p Hm) as (k' & i' & Hk' & Hi' & E). pose proof (small_pos d a b Ha Hb). pose proof (small_pos d i' j Hi' Hj).
  unfold pert. rewrite E at 2. rewrite (pos_eqb d k' i' k a) by auto. rewrite !(dyn_split d m j k' i' E Hi'). unfold at_pos.
  assert (Q1 : (2 * (d * d) + (k' * (2 * (d * d)) + (i' * d + j)) =? 2 * (d * d) + (k * (2 * (d * d)) + (a * d + b)))%nat = ((k' =? k) && (i' =? a) && (j =? b))%bool).
  { rewrite <- andb_assoc, <- (pos_eqb d i' j a b) by auto. rewrite <- (pos_eqb (2 * (d * d)) k' (i' * d + j) k (a * d + b)) by lia.
    match goal with |- (?x =? ?y)%nat = (?z =? ?w)%nat => destruct (Nat.eqb_spec x y), (Nat.eqb_spec z w); auto; lia end. }
  assert (Q2 : (2 * (d * d) + (k' * (2 * (d * d)) + (d * d + (i' * d + j))) =? 2 * (d * d) + (k * (2 * (d * d)) + (a * d + b)))%nat = false).
  { apply Nat.eqb_neq. intros X. assert (Y : (k' * (2 * (d * d)) + (d * d + (i' * d + j)) =? k * (2 * (d * d)) + (a * d + b))%nat = true) by (apply Nat.eqb_eq; lia).
    rewrite pos_eqb in Y by lia. apply andb_prop in Y. destruct Y as [_ Y]. apply Nat.eqb_eq in Y. lia. }
  rewrite Q1, Q2. destruct (Nat.eqb_spec k' k), (Nat.eqb_spec i' a), (Nat.eqb_spec j b); cbn [andb]; subst; auto.
Qed.

Lemma dyn_a_neg d p v k a b y m j : (k < p)%nat -> (a < d)%nat -> (b < d)%nat -> (m < p * d)%nat -> (j < d)%nat ->
  dyn_a d (at_pos v (2 * (d * d) + (k * (2 * (d * d)) + (d * d + (a * d + b))))%nat y) m j =
  pert (dyn_a d v) (k * d + a) b (v (2 * (d * d) + (k * (2 * (d * d)) + (a * d + b)))%nat - y) m j.
Proof.
  intros Hk Ha Hb Hm Hj. destruct (decode d m p Hm) as (k' & i' & Hk' & Hi' & E). pose proof (small_pos d a b Ha Hb). pose proof (small_pos d i' j Hi' Hj).
  unfold pert. rewrite E at 2. rewrite (pos_eqb d k' i' k a) by auto. rewrite !(dyn_split d m j k' i' E Hi'). unfold at_pos.
  assert (Q1 : (2 * (d * d) + (k' * (2 * (d * d)) + (d * d + (i' * d + j))) =? 2 * (d * d) + (k * (2 * (d * d)) + (d * d + (a * d + b))))%nat = ((k' =? k) && (i' =? a) && (j =? b))%bool).
  { rewrite <- andb_assoc, <- (pos_eqb d i' j a b) by auto. rewrite <- (pos_eqb (2 * (d * d)) k' (i' * d + j) k (a * d + b)) by lia.
    match goal with |- (?x =? ?y)%nat = (?z =? ?w)%nat => destruct (Nat.eqb_spec x y), (Nat.eqb_spec z w); auto; lia end. }
  assert (Q2 : (2 * (d * d) + (k' * (2 * (d * d)) + (i' * d + j)) =? 2 * (d * d) + (k * (2 * (d * d)) + (d * d + (a * d + b))))%nat = false).
  { apply Nat.eqb_neq. intros X. assert (Y : (k' * (2 * (d * d)) + (i' * d + j) =? k * (2 * (d * d)) + (d * d + (a * d + b)))%nat = true) by (apply Nat.eqb_eq; lia).
    rewrite pos_eqb in Y by lia. apply andb_prop in Y. destruct Y as [_ Y]. apply Nat.eqb_eq in Y. lia. }
  rewrite Q1, Q2. destruct (Nat.eqb_spec k' k), (Nat.eqb_spec i' a), (Nat.eqb_spec j b); cbn [andb]; subst; auto.
Qed.

(** The objective along one weight of the present *)
Lemma dyn_w_derive n d p X Y rho alpha (V : R -> rvec) A0 W0 a b (e : R -> R) (e' x : R) : (a < d)%nat -> (b < d)%nat ->
  (forall y, dyn_a d (V y) = A0) -> (forall y i j, (i < d)%nat -> (j < d)%nat -> dyn_w d (V y) i j = pert W0 a b (e y) i j) -> is_derive e x e' ->
  is_derive (fun y => 0.5 / INR n * norm2 n d (dyn_resid d p X Y (V y)) + 0.5 * rho * h_fun d (dyn_w d (V y)) * h_fun d (dyn_w d (V y)) + alpha * h_fun d (dyn_w d (V y))) x
    (e' * (-1 / INR n * mmul n (mT X) (dyn_resid d p X Y (V x)) a b + (rho * (tr d (mexp d (squared (dyn_w d (V x)))) - INR d) + alpha) * mexp d (squared (dyn_w d (V x))) b a * dyn_w d (V x) a b * 2)).
Proof.
  intros Ha Hb HA HW He. pose proof (h_derive d (fun y => dyn_w d (V y)) W0 a b e e' x Ha Hb HW He) as Dh. cbn beta in Dh.
  eapply derive_eq.
  - apply derive_plus; [apply derive_plus|].
    + apply derive_scal. apply norm2_derive with (M := fun y => dyn_resid d p X Y (V y)) (M' := fun r c => - (X r a * ((if c =? b then 1 else 0) * e'))). intros r c _ Hc.
      apply derive_ext with (fun y => mmul d X (msub mid (dyn_w d (V y))) r c - mmul (p * d) Y A0 r c); [intros t; unfold dyn_resid; rewrite HA; reflexivity|].
      eapply derive_eq; [apply derive_minus; [exact (resid_derive d X (fun y => dyn_w d (V y)) W0 a b e e' x r c Ha HW He Hc)|apply derive_const]|]. ring.
    + apply derive_mult; [apply derive_scal; exact Dh|exact Dh].
    + apply derive_scal. exact Dh.
  - cbn beta. rewrite sum_col by auto. fold (h_fun d (dyn_w d (V x))). unfold Rdiv. lra.
Qed.

(** The objective along one weight of the past *)
Lemma dyn_a_derive n d p X Y rho alpha (V : R -> rvec) A0 W0 a b (e : R -> R) (e' x : R) : (a < p * d)%nat -> (b < d)%nat ->
  (forall y i j, (i < d)%nat -> (j < d)%nat -> dyn_w d (V y) i j = W0 i j) -> (forall y i j, (i < p * d)%nat -> (j < d)%nat -> dyn_a d (V y) i j = pert A0 a b (e y) i j) -> is_derive e x e' ->
  is_derive (fun y => 0.5 / INR n * norm2 n d (dyn_resid d p X Y (V y)) + 0.5 * rho * h_fun d (dyn_w d (V y)) * h_fun d (dyn_w d (V y)) + alpha * h_fun d (dyn_w d (V y))) x
    (e' * (-1 / INR n * mmul n (mT Y) (dyn_resid d p X Y (V x)) a b)).
Proof.
  intros Ha Hb HW HA He.
  assert (Hh : forall y, h_fun d (dyn_w d (V y)) = h_fun d W0).
  { intros y. unfold h_fun. f_equal. apply rsum_ext. intros i Hi. apply mexp_ext; auto. intros i0 j0 Hi0 Hj0. unfold squared. rewrite HW by auto. auto. }
  eapply derive_eq.
  - apply derive_plus; [apply derive_plus|].
    + apply derive_scal. apply norm2_derive with (M := fun y => dyn_resid d p X Y (V y)) (M' := fun r c => - (Y r a * ((if c =? b then 1 else 0) * e'))). intros r c _ Hc.
      apply derive_ext with (fun y => mmul d X (msub mid W0) r c - mmul (p * d) Y (dyn_a d (V y)) r c).
      * intros t. unfold dyn_resid. unfold msub at 2. f_equal. apply mmul_ext; auto. intros k Hk. unfold msub. rewrite HW by auto. auto.
      * eapply derive_eq; [apply derive_minus; [apply derive_const|exact (mul_derive (p * d) d Y (fun y => dyn_a d (V y)) A0 a b e e' x r c Ha HA He Hc)]|]. ring.
    + apply derive_ext with (fun _ => 0.5 * rho * h_fun d W0 * h_fun d W0); [intros; rewrite Hh; auto|apply derive_const].
    + apply derive_ext with (fun _ => alpha * h_fun d W0); [intros; rewrite Hh; auto|apply derive_const].
  - cbn beta. rewrite sum_col by auto. unfold Rdiv. lra.
Qed.

Lemma dyn_gradient n d p X Y lambda_w lambda_a rho alpha v q : (q < 2 * (p + 1) * (d * d))%nat ->
  is_derive (fun x => dyn_func n d p X Y lambda_w lambda_a rho alpha (at_pos v q x)) (v q) (dyn_grad n d p X Y lambda_w lambda_a rho alpha v q).
Proof.
  intros H. unfold dyn_func.
  assert (D1 := rsum_pos_derive (2 * (d * d)) v q (v q) 0). cbn [Nat.leb andb Nat.add] in D1.
  assert (D2 := rsum_pos_derive (2 * p * (d * d)) v q (v q) (2 * (d * d))).
  unfold dyn_grad. destruct (Nat.ltb_spec q (2 * (d * d))) as [L|L].
  - rewrite (proj2 (Nat.leb_gt (2 * (d * d)) q) L) in D2. cbn [andb] in D2.
    assert (Ds : is_derive (fun x => lambda_w * rsum (2 * (d * d)) (at_pos v q x) + lambda_a * rsum (2 * p * (d * d)) (fun m => at_pos v q x (2 * (d * d) + m)%nat)) (v q) lambda_w).
    { eapply derive_eq; [apply derive_plus; apply derive_scal; [exact D1|exact D2]|]. ring. }
    destruct (Nat.ltb_spec q (d * d)) as [L1|L1].
    + destruct (decode d q d L1) as (a & b & Ha & Hb & E). apply derive_plus; [|exact Ds]. subst q.
      eapply derive_eq; [apply dyn_w_derive with (V := fun y => at_pos v (a * d + b)%nat y) (A0 := dyn_a d v) (W0 := lasso_mat d v) (a := a) (b := b) (e := fun y => y - v (d * d + a * d + b)%nat) (e' := 1); auto|].
      * intros y. apply dyn_a_fixed. auto.
      * intros y i j Hi Hj. apply lasso_pos; auto.
      * apply id_minus.
      * cbn beta. rewrite at_pos_self, flat_at by auto. ring.
    + assert (L2 : (q - d * d < d * d)%nat) by lia. destruct (decode d _ d L2) as (a & b & Ha & Hb & E0). assert (E : q = (d * d + a * d + b)%nat) by lia. rewrite E0. apply derive_plus; [|exact Ds]. clear E0. subst q.
      eapply derive_eq; [apply dyn_w_derive with (V := fun y => at_pos v (d * d + a * d + b)%nat y) (A0 := dyn_a d v) (W0 := lasso_mat d v) (a := a) (b := b) (e := fun y => v (a * d + b)%nat - y) (e' := -1); auto|].
      * intros y. apply dyn_a_fixed. auto.
      * intros y i j Hi Hj. apply lasso_neg; auto.
      * apply minus_id.
      * cbn beta. rewrite at_pos_self, flat_at by auto. ring.
  - rewrite (proj2 (Nat.leb_le (2 * (d * d)) q) L) in D2. cbn [andb] in D2. rewrite (proj2 (Nat.ltb_lt q (2 * (d * d) + 2 * p * (d * d)))) in D2 by lia.
    assert (Ds : is_derive (fun x => lambda_w * rsum (2 * (d * d)) (at_pos v q x) + lambda_a * rsum (2 * p * (d * d)) (fun m => at_pos v q x (2 * (d * d) + m)%nat)) (v q) lambda_a).
    { eapply derive_eq; [apply derive_plus; apply derive_scal; [exact D1|exact D2]|]. ring. }
    assert (L1 : (q - 2 * (d * d) < p * (2 * (d * d)))%nat) by lia. destruct (decode _ _ p L1) as (k & r & Hk & Hr & E0). rewrite E0. destruct (div_row _ k r Hr) as [-> ->].
    assert (E : q = (2 * (d * d) + (k * (2 * (d * d)) + r))%nat) by lia. clear E0 L1. apply derive_plus; [|exact Ds].
    assert (Hrow : forall a, (a < d)%nat -> (k * d + a < p * d)%nat). { intros a Ha. assert (k * d <= (p - 1) * d)%nat by (apply Nat.mul_le_mono_r; lia). assert ((p - 1) * d + d = p * d)%nat by (destruct p; [lia|cbn; lia]). lia. }
    destruct (Nat.ltb_spec r (d * d)) as [Lr|Lr].
    + destruct (decode d r d Lr) as (a & b & Ha & Hb & ->). subst q.
      eapply derive_eq; [apply dyn_a_derive with (V := fun y => at_pos v (2 * (d * d) + (k * (2 * (d * d)) + (a * d + b)))%nat y) (A0 := dyn_a d v) (W0 := dyn_w d v) (a := (k * d + a)%nat) (b := b) (e := fun y => y - v (2 * (d * d) + (k * (2 * (d * d)) + (d * d + (a * d + b))))%nat) (e' := 1); auto|].
      * intros y i j Hi Hj. apply dyn_w_fixed; [lia|auto|auto].
      * intros y i j Hi Hj. apply dyn_a_pos with p; auto.
      * apply id_minus.
      * cbn beta. rewrite at_pos_self. replace (k * (d * d) + (a * d + b))%nat with ((k * d + a) * d + b)%nat by ring. rewrite flat_at by auto. ring.
    + assert (Lr2 : (r - d * d < d * d)%nat) by lia. destruct (decode d _ d Lr2) as (a & b & Ha & Hb & Er). rewrite Er. assert (Er2 : r = (d * d + (a * d + b))%nat) by lia. clear Er. subst r. subst q.
      eapply derive_eq; [apply dyn_a_derive with (V := fun y => at_pos v (2 * (d * d) + (k * (2 * (d * d)) + (d * d + (a * d + b))))%nat y) (A0 := dyn_a d v) (W0 := dyn_w d v) (a := (k * d + a)%nat) (b := b) (e := fun y => v (2 * (d * d) + (k * (2 * (d * d)) + (a * d + b)))%nat - y) (e' := -1); auto|].
      * intros y i j Hi Hj. apply dyn_w_fixed; [lia|auto|auto].
      * intros y i j Hi Hj. apply dyn_a_neg with p; auto.
      * apply minus_id.
      * cbn beta. rewrite at_pos_self. replace (k * (d * d) + (a * d + b))%nat with ((k * d + a) * d + b)%nat by ring. rewrite flat_at by auto. ring.
Qed.
