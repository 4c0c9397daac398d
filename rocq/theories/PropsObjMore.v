(** * PropsObjMore: properties C87-C89, what the objective of the linear learners depends on. *)
From Coq Require Import List Arith Bool Lia Reals Lra Relations Permutation.
From Coquelicot Require Import Coquelicot.
From Verif Require Import AcycModel AcycProofs AcycThms ObjModel ObjProofs ObjGrad ObjLasso PropsObj ObjCycle ObjPerm ObjUnits.
Import ListNotations.
Local Open Scope R_scope.

(** ** Specification *)

(** The edge from [i] to [j] is there and leads back to [i] (by no further edge or by several). *)
Definition cyclic_edge (d : nat) (W : nat -> nat -> R) (i j : nat) : Prop :=
  W i j <> 0 /\ (j = i \/ clos_trans nat (fun a b => (a < d)%nat /\ (b < d)%nat /\ W a b <> 0) j i).
Definition acyclic (d : nat) (W : nat -> nat -> R) : Prop := forall i j, (i < d)%nat -> (j < d)%nat -> ~ cyclic_edge d W i j.

(** [W] with the entry [i], [j] set to [x] *)
Definition with_entry (W : nat -> nat -> R) (i j : nat) (x : R) : nat -> nat -> R := fun a b => if (a =? i)%nat && (b =? j)%nat then x else W a b.

Lemma acyclic_dag d W : acyclic d W <-> dag d W.
Proof. symmetry. apply dag_cycles. Qed.

(** ** C87: the penalty pushes on the edges of cycles and on nothing else *)
Theorem C87_penalty : forall (d : nat) (h : (nat -> nat -> R) -> R) (W : nat -> nat -> R) i j,
  (forall M, exp_penalty d M (h M)) -> (i < d)%nat -> (j < d)%nat ->
  exists g, is_derive (fun x => h (with_entry W i j x)) (W i j) g /\ (g <> 0 <-> cyclic_edge d W i j) /\
    (** the penalty grows with the size of the weight *)
    0 <= g * W i j.
Proof. exact penalty_derivative. Qed.
Print Assumptions C87_penalty.

(** The penalty has no stationary points but the acyclic matrices. *)
Theorem C87_stationary : forall (d : nat) (h : (nat -> nat -> R) -> R) (W : nat -> nat -> R), (forall M, exp_penalty d M (h M)) ->
  (forall i j, (i < d)%nat -> (j < d)%nat -> is_derive (fun x => h (with_entry W i j x)) (W i j) 0) <-> acyclic d W.
Proof. intros d h W H. rewrite acyclic_dag. exact (penalty_flat d h W H). Qed.
Print Assumptions C87_stationary.

(** At acyclic weights, the gradient handed to the optimiser is that of least squares, for all multipliers. *)
Theorem C87_gradient : forall (n d : nat) (X : nat -> nat -> R) (rho alpha : R) (w : nat -> R) i j, (i < d)%nat -> (j < d)%nat ->
  acyclic d (plain_weights d w) ->
  grad n d X rho alpha w (i * d + j)%nat = - total n (fun r => X r i * (X r j - linear d X (plain_weights d w) r j)) / INR n.
Proof.
  intros n d X rho alpha w i j Hi Hj A. apply acyclic_dag in A. rewrite (dag_gradient n d X rho alpha w i j Hi Hj A).
  replace (mmul d (mmul n (mT X) X) (msub mid (mat_at 0 d w)) i j) with (total n (fun r => X r i * (X r j - linear d X (plain_weights d w) r j))); [unfold Rdiv; lra|].
  change (mat_at 0 d w) with (plain_weights d w). rewrite total_rsum. unfold mmul at 1. unfold mmul at 1.
  transitivity (rsum n (fun r => rsum d (fun k => X r i * X r k * msub mid (plain_weights d w) k j))).
  - apply rsum_ext. intros r Hr. rewrite <- resid_entry by auto. unfold mmul. rewrite <- rsum_scal. apply rsum_ext. intros. ring.
  - rewrite rsum_swap. apply rsum_ext. intros k Hk. rewrite (Rmult_comm (rsum n _)), <- rsum_scal. apply rsum_ext. intros r Hr. unfold mT. ring.
Qed.
Print Assumptions C87_gradient.

(** 0 -> 1 -> 0 is a cycle, 2 -> 0 is on none. *)
Definition ex_loop : nat -> nat -> R := fun i j => match i, j with 0%nat, 1%nat => 1 | 1%nat, 0%nat => -2 | 2%nat, 0%nat => 3 | _, _ => 0 end.
Example C87_run : (forall M, exp_penalty 3 M (h_fun 3 M)) /\ cyclic_edge 3 ex_loop 0 1 /\ cyclic_edge 3 ex_loop 1 0 /\ ~ cyclic_edge 3 ex_loop 2 0 /\
  acyclic 2 (plain_weights 2 (fun q => match q with 1%nat => 5 | _ => 0 end)).
Proof.
  split; [intros; apply h_fun_penalty|]. split; [|split; [|split]].
  - split; [cbn; lra|]. right. apply t_step. cbn. repeat split; try lia. lra.
  - split; [cbn; lra|]. right. apply t_step. cbn. repeat split; try lia. lra.
  - intros [_ [E|C]]; [discriminate|]. apply clos_trans_tn1 in C. assert (Q : forall y, clos_trans_n1 nat (fun a b => (a < 3)%nat /\ (b < 3)%nat /\ ex_loop a b <> 0) 0%nat y -> y <> 2%nat).
    { induction 1 as [y (_ & Hy & E)|y z (_ & Hz & E) _ IH]; intros ->; [cbn in E; lra|]. destruct y as [|[|[|y]]]; cbn in E; lra. }
    exact (Q _ C eq_refl).
  - apply acyclic_dag, dag_two. unfold plain_weights. cbn. auto.
Qed.

(** ** C88: the order of the columns does not matter *)

(** [s] lists the variables 0 .. d-1 in another order; the vector [w'] is [w] in that order, in each of
    its [d * d] blocks. *)
Definition new_order (d : nat) (s : nat -> nat) : Prop := Permutation (map s (seq 0 d)) (seq 0 d).
Definition renumbered {A : Type} (d : nat) (s : nat -> nat) (blocks : nat) (w w' : nat -> A) : Prop :=
  forall b i j, (b < blocks)%nat -> (i < d)%nat -> (j < d)%nat -> w' (b * (d * d) + (i * d + j))%nat = w (b * (d * d) + (s i * d + s j))%nat.

(** [w] is a minimum of [F] among the vectors whose entries are allowed; [allowed] stands for the bounds
    handed to the optimiser (fixed zeros, tabu edges, non-negative parts). *)
Definition minimises (size : nat) (allowed : nat -> R -> Prop) (F : (nat -> R) -> R) (w : nat -> R) : Prop :=
  (forall q, (q < size)%nat -> allowed q (w q)) /\ forall v, (forall q, (q < size)%nat -> allowed q (v q)) -> F w <= F v.

Lemma minimises_order d s B F F' (allowed allowed' : nat -> R -> Prop) w w' : new_order d s ->
  (forall v v', renumbered d s B v v' -> F' v' = F v) -> renumbered d s B allowed allowed' -> renumbered d s B w w' ->
  minimises (B * (d * d)) allowed F w <-> minimises (B * (d * d)) allowed' F' w'.
Proof. intros P HF HB Hw. apply (same_minimum d s P B F F' allowed allowed' w w' HF); auto. intros b i j x Hb Hi Hj. rewrite (HB b i j Hb Hi Hj). tauto. Qed.

Theorem C88_plain : forall (n d : nat) (s : nat -> nat) (X X' : nat -> nat -> R) (rho alpha : R) allowed allowed' w w', new_order d s ->
  (forall r c, (r < n)%nat -> (c < d)%nat -> X' r c = X r (s c)) -> renumbered d s 1 allowed allowed' -> renumbered d s 1 w w' ->
  func n d X' rho alpha w' = func n d X rho alpha w /\
  (minimises (d * d) allowed (func n d X rho alpha) w <-> minimises (d * d) allowed' (func n d X' rho alpha) w').
Proof.
  intros n d s X X' rho alpha bx bx' w w' P HX HB Hw. split; [exact (func_perm d s P n X X' rho alpha w w' HX Hw)|].
  pose proof (minimises_order d s 1 (func n d X rho alpha) (func n d X' rho alpha) bx bx' w w' P (fun v v' => func_perm d s P n X X' rho alpha v v' HX) HB Hw) as M. rewrite Nat.mul_1_l in M. exact M.
Qed.
Print Assumptions C88_plain.

Theorem C88_lasso : forall (n d : nat) (s : nat -> nat) (X X' : nat -> nat -> R) (beta rho alpha : R) allowed allowed' w w', new_order d s ->
  (forall r c, (r < n)%nat -> (c < d)%nat -> X' r c = X r (s c)) -> renumbered d s 2 allowed allowed' -> renumbered d s 2 w w' ->
  lasso_func n d X' beta rho alpha w' = lasso_func n d X beta rho alpha w /\
  (minimises (2 * (d * d)) allowed (lasso_func n d X beta rho alpha) w <-> minimises (2 * (d * d)) allowed' (lasso_func n d X' beta rho alpha) w').
Proof.
  intros n d s X X' beta rho alpha bx bx' w w' P HX HB Hw. split; [exact (lasso_perm d s P n X X' beta rho alpha w w' HX Hw)|].
  exact (minimises_order d s 2 (lasso_func n d X beta rho alpha) (lasso_func n d X' beta rho alpha) bx bx' w w' P (fun v v' => lasso_perm d s P n X X' beta rho alpha v v' HX) HB Hw).
Qed.
Print Assumptions C88_lasso.

Theorem C88_dynamic : forall (n d p : nat) (s : nat -> nat) (X X' Xlags Xlags' : nat -> nat -> R) (lambda_w lambda_a rho alpha : R) allowed allowed' w w', new_order d s ->
  (forall r c, (r < n)%nat -> (c < d)%nat -> X' r c = X r (s c)) ->
  (forall r k c, (r < n)%nat -> (k < p)%nat -> (c < d)%nat -> Xlags' r (k * d + c)%nat = Xlags r (k * d + s c)%nat) ->
  renumbered d s (2 * (p + 1)) allowed allowed' -> renumbered d s (2 * (p + 1)) w w' ->
  dyn_func n d p X' Xlags' lambda_w lambda_a rho alpha w' = dyn_func n d p X Xlags lambda_w lambda_a rho alpha w /\
  (minimises (2 * (p + 1) * (d * d)) allowed (dyn_func n d p X Xlags lambda_w lambda_a rho alpha) w <->
   minimises (2 * (p + 1) * (d * d)) allowed' (dyn_func n d p X' Xlags' lambda_w lambda_a rho alpha) w').
Proof.
  intros n d p s X X' Y Y' lw la rho alpha bx bx' w w' P HX HY HB Hw. split; [exact (dyn_perm d s P n p X X' Y Y' lw la rho alpha w w' HX HY Hw)|].
  exact (minimises_order d s (2 * (p + 1)) (dyn_func n d p X Y lw la rho alpha) (dyn_func n d p X' Y' lw la rho alpha) bx bx' w w' P (fun v v' => dyn_perm d s P n p X X' Y Y' lw la rho alpha v v' HX HY) HB Hw).
Qed.
Print Assumptions C88_dynamic.

Definition swap_two (i : nat) : nat := match i with 0%nat => 1%nat | 1%nat => 0%nat | _ => i end.
(** The diagonal is fixed at zero; the weight from 0 to 1 becomes the weight from 1 to 0. *)
Definition no_loops (q : nat) : R -> Prop := match q with 0%nat | 3%nat => fun x => x = 0 | _ => fun _ => True end.
Example C88_run : new_order 2 swap_two /\ renumbered 2 swap_two 1 no_loops no_loops /\
  renumbered 2 swap_two 1 (fun q => match q with 1%nat => 5 | _ => 0 end) (fun q => match q with 2%nat => 5 | _ => 0 end) /\
  (forall r c, (r < 1)%nat -> (c < 2)%nat -> (fun _ c => match c with O => 2 | _ => 1 end) r c = ex_row r (swap_two c)).
Proof.
  split; [apply perm_swap|]. split; [|split]; [intros b i j Hb Hi Hj; destruct b; [|lia]; destruct i as [|[|i]]; try lia; destruct j as [|[|j]]; try lia; reflexivity .. |].
  intros r c _ Hc. destruct c as [|[|c]]; try lia; reflexivity.
Qed.

(** ** C89: the units of measurement matter *)

(** Acyclic weights with the smallest objective among the acyclic weights: what the learner looks for. *)
Definition best_acyclic (n d : nat) (X : nat -> nat -> R) (rho alpha : R) (w : nat -> R) : Prop :=
  acyclic d (plain_weights d w) /\ forall v, acyclic d (plain_weights d v) -> func n d X rho alpha w <= func n d X rho alpha v.

(** The data with column [c] measured in another unit *)
Definition in_unit (c : nat) (t : R) (X : nat -> nat -> R) : nat -> nat -> R := fun r k => if (k =? c)%nat then t * X r k else X r k.

Lemma func_acyclic n d X rho alpha w : acyclic d (plain_weights d w) -> func n d X rho alpha w = score n d X (plain_weights d w).
Proof.
  intros A. apply acyclic_dag in A. pose proof (h_fun_penalty d (plain_weights d w)) as P. rewrite (C73_objective n d X rho alpha w _ P).
  rewrite (proj2 (exp_penalty_zero _ _ _ P) A). unfold lagrangian, score. lra.
Qed.
Lemma score_ext n d X Y W V : (forall r c, (r < n)%nat -> (c < d)%nat -> X r c = Y r c) -> (forall i j, (i < d)%nat -> (j < d)%nat -> W i j = V i j) -> score n d X W = score n d Y V.
Proof.
  intros HX HW. unfold score, half_mse. f_equal. apply total_ext. intros r Hr. apply total_ext. intros c Hc. rewrite HX by auto. f_equal. f_equal.
  unfold linear. apply total_ext. intros k Hk. rewrite HX, HW; auto.
Qed.
Lemma dag_eq d W V : (forall i j, (i < d)%nat -> (j < d)%nat -> W i j = V i j) -> dag d W -> dag d V.
Proof.
  intros E D i C. apply (D i). revert C. generalize i at 1 3. intros k C. induction C as [x y (Hx & Hy & N)|x y z _ H1 _ H2]; [apply t_step|eapply t_trans; eauto].
  repeat split; auto. rewrite E; auto.
Qed.
Lemma weights_of d W : exists w, forall i j, (i < d)%nat -> (j < d)%nat -> plain_weights d w i j = W i j.
Proof.
  exists (fun q => W (q / d)%nat (q mod d)%nat). intros i j Hi Hj. unfold plain_weights.
  replace ((i * d + j) / d)%nat with i by (symmetry; rewrite Nat.div_add_l by lia; rewrite Nat.div_small; lia).
  replace ((i * d + j) mod d)%nat with j by (symmetry; rewrite Nat.add_comm, Nat.mod_add by lia; apply Nat.mod_small; auto). auto.
Qed.
Lemma best_score n d X rho alpha w : best_acyclic n d X rho alpha w <-> best n d X (plain_weights d w).
Proof.
  unfold best_acyclic, best. rewrite acyclic_dag. split; intros [D M]; split; auto.
  - intros W' D'. destruct (weights_of d W') as (v & E). assert (A : dag d (plain_weights d v)) by (apply (dag_eq d W'); auto; intros; symmetry; auto).
    specialize (M v (proj2 (acyclic_dag _ _) A)). rewrite !func_acyclic in M by (apply acyclic_dag; auto). rewrite (score_ext n d X X (plain_weights d v) W') in M; auto.
  - intros v A. rewrite !func_acyclic by (auto; apply acyclic_dag; auto). apply M. apply acyclic_dag. auto.
Qed.
Lemma best_ext n d X Y W : (forall r c, (r < n)%nat -> (c < d)%nat -> X r c = Y r c) -> best n d X W -> best n d Y W.
Proof. intros E [D M]. split; auto. intros W' D'. specialize (M W' D'). rewrite (score_ext n d X Y W W), (score_ext n d X Y W' W') in M; auto. Qed.
Lemma best_get n d X rho alpha W : best n d X W -> exists w, best_acyclic n d X rho alpha w /\ forall i j, (i < d)%nat -> (j < d)%nat -> plain_weights d w i j = W i j.
Proof.
  intros [D M]. destruct (weights_of d W) as (w & E). exists w. split; auto. apply best_score. split; [apply (dag_eq d W); auto; intros; symmetry; auto|].
  intros W' D'. rewrite (score_ext n d X X (plain_weights d w) W); auto.
Qed.

(** One unit for all columns: changing it changes nothing. *)
Theorem C89_common_unit_partial : forall (n d : nat) (X : nat -> nat -> R) (rho alpha t : R) (w : nat -> R), t <> 0 ->
  best_acyclic n d (fun r c => t * X r c) rho alpha w <-> best_acyclic n d X rho alpha w.
Proof. intros n d X rho alpha t w Ht. rewrite !best_score. apply common_unit. auto. Qed.
Print Assumptions C89_common_unit_partial.

(** Two variables: the best graph leads from the column with the smaller sum of squares to the other. *)
Theorem C89_direction : forall (n : nat) (X : nat -> nat -> R) (rho alpha : R), (0 < n)%nat ->
  total n (fun r => X r 0%nat * X r 1%nat) <> 0 ->
  0 < total n (fun r => X r 0%nat ^ 2) -> total n (fun r => X r 0%nat ^ 2) < total n (fun r => X r 1%nat ^ 2) ->
  (exists w, best_acyclic n 2 X rho alpha w) /\
  forall w, best_acyclic n 2 X rho alpha w -> plain_weights 2 w 0 1 <> 0 /\ plain_weights 2 w 1 0 = 0.
Proof.
  intros n X rho alpha Hn C A B.
  assert (E : forall k, total n (fun r => X r k ^ 2) = moment n X k k) by (intros; apply total_ext; intros; ring). rewrite !E in *.
  split.
  - destruct (best_exists n X Hn C) as (W & HW); [auto|lra|lra|]. destruct (best_get n 2 X rho alpha W HW) as (w & H & _). eauto.
  - intros w H. apply best_score in H. apply (small_to_large n X Hn C); auto.
Qed.
Print Assumptions C89_direction.

(** So for all data of two columns that are not orthogonal, the unit of the first column decides the direction. *)
Theorem C89_refuted : forall (n : nat) (X : nat -> nat -> R) (rho alpha : R), (0 < n)%nat -> total n (fun r => X r 0%nat * X r 1%nat) <> 0 ->
  exists t u, 0 < t /\ 0 < u /\
    (exists w, best_acyclic n 2 (in_unit 0 t X) rho alpha w) /\
    (forall w, best_acyclic n 2 (in_unit 0 t X) rho alpha w -> plain_weights 2 w 0 1 <> 0 /\ plain_weights 2 w 1 0 = 0) /\
    (exists w, best_acyclic n 2 (in_unit 0 u X) rho alpha w) /\
    (forall w, best_acyclic n 2 (in_unit 0 u X) rho alpha w -> plain_weights 2 w 1 0 <> 0 /\ plain_weights 2 w 0 1 = 0).
Proof.
  intros n X rho alpha Hn C. destruct (units_matter n X Hn C) as (t & u & Ht & Hu & E1 & D1 & E2 & D2). exists t, u. split; auto. split; auto.
  assert (S : forall x r c, (r < n)%nat -> (c < 2)%nat -> in_unit 0 x X r c = rescaled x X r c) by (intros x r c _ _; unfold in_unit, rescaled; destruct c; auto).
  split; [|split; [|split]].
  - destruct E1 as (W & B). apply (best_ext n 2 _ (in_unit 0 t X)) in B; [|intros; symmetry; auto]. destruct (best_get n 2 _ rho alpha W B) as (w & H & _). eauto.
  - intros w H. apply best_score in H. apply D1. apply (best_ext n 2 (in_unit 0 t X)); auto.
  - destruct E2 as (W & B). apply (best_ext n 2 _ (in_unit 0 u X)) in B; [|intros; symmetry; auto]. destruct (best_get n 2 _ rho alpha W B) as (w & H & _). eauto.
  - intros w H. apply best_score in H. apply D2. apply (best_ext n 2 (in_unit 0 u X)); auto.
Qed.
Print Assumptions C89_refuted.

(** The row 1, 2. *)
Example C89_run : (0 < 1)%nat /\ total 1 (fun r => ex_row r 0%nat * ex_row r 1%nat) = 2 /\ total 1 (fun r => ex_row r 0%nat ^ 2) = 1 /\ total 1 (fun r => ex_row r 1%nat ^ 2) = 4.
Proof. cbn. split; [lia|]. lra. Qed.
