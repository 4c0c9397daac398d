(** * PropsRegress: property C112, learning with bans that leave no cycle is (penalised) least squares. *)
From Coq Require Import List Bool Arith ZArith Lia String QArith Qcanon Qreals Reals Lra Relations.
From Coquelicot Require Import Coquelicot.
From Verif Require Import Base Names QcX Digraph SmModel NotearsModel NotearsProofs NotearsThms TransModel MapperModel DynoModel DynoProofs DynoThms AcycModel AcycProofs AcycThms AcycLink.
From Verif Require Import ObjModel ObjProofs ObjGrad ObjLasso PropsObj ObjUnits PropsObjMore ObjFit FitLink FitDyno.
Import ListNotations.
Local Open Scope string_scope.
Local Open Scope list_scope.
Local Open Scope nat_scope.

(** ** The minima of the objectives *)

(** Without a penalty: the minima are the solutions of the normal equations of the regressions on the
    allowed parents, whatever the multipliers. *)
Theorem C112_objective : forall n d X rho alpha (ok : nat -> nat -> bool) w, 0 < n -> no_loop d (fun i j => ok i j = true) ->
  minimises (d * d) (plain_box d (fun i j => ok i j = true)) (func n d X rho alpha) w <->
  forall i j, i < d -> j < d -> if ok i j then total n (fun r => X r i * (X r j - linear d X (plain_weights d w) r j))%R = 0%R else plain_weights d w i j = 0%R.
Proof.
  intros n d X rho alpha ok w Hn NL.
  assert (B : forall v, (forall q, q < d * d -> plain_box d (fun i j => ok i j = true) q (v q)) <-> supported d d ok (plain_weights d v)).
  { intros v. split.
    - intros H i j Hi Hj O. apply (H _ (index_lt d i j Hi Hj) i j); auto. congruence.
    - intros S q Hq i j Hi Hj -> N. apply S; auto. destruct (ok i j); congruence. }
  assert (E : forall i j, residual_moment n d X X (plain_weights d w) i j = 0%R <-> total n (fun r => X r i * (X r j - linear d X (plain_weights d w) r j))%R = 0%R).
  { intros i j. unfold residual_moment, Rdiv. split; [|intros ->; ring]. intros H. apply Rmult_integral in H. destruct H as [H|H]; [exact H|].
    exfalso. apply lt_INR in Hn. cbn in Hn. apply (Rinv_neq_0_compat (INR n)) in H; auto. lra. }
  split.
  - intros [M1 M2] i j Hi Hj. rewrite B in M1. destruct (ok i j) eqn:O; [|apply M1; auto]. apply E.
    apply (proj1 (plain_fit n d X rho alpha ok Hn NL w M1)); auto. intros v Sv. apply M2. apply B. exact Sv.
  - intros H. assert (S : supported d d ok (plain_weights d w)) by (intros i j Hi Hj O; specialize (H i j Hi Hj); rewrite O in H; exact H).
    split; [apply B; exact S|]. intros v Bv. apply B in Bv. apply (proj2 (plain_fit n d X rho alpha ok Hn NL w S)); auto.
    intros i j Hi Hj O. apply E. specialize (H i j Hi Hj). rewrite O in H. exact H.
Qed.
Print Assumptions C112_objective.

(** ** The learned structures *)

(** NOTEARS on an array: with an optimiser that returns minima, bans that leave no cycle and a penalty that
    is computed without overflow, the weights are those of the regressions on the allowed parents. *)
Theorem C112_numpy : forall fuel opt eh X p t g, 0 < max_iter p -> from_numpy fuel opt eh X p t = Ok g ->
  let d := m_cols X in let n := List.length (m_rows X) in let may := open_edge t Z.of_nat in
  (forall w, is_finite (eh d w) = true) -> no_loop d may -> exact_optimiser (d * d) (plain_box d may) (func n d (data X)) opt ->
  exists W, graph_of g d (fun i => LInt (Z.of_nat i)) "unknown" W (fun x => x <> 0%Qc /\ (w_threshold p < Qcabs x)%Qc) /\
    (forall i j, i < d -> j < d -> ~ may i j -> W i j = 0%Qc) /\
    (forall i j, i < d -> j < d -> may i j -> total n (fun r => data X r i * (data X r j - linear d (data X) (fun a b => realq (W a b)) r j))%R = 0%R).
Proof. exact plain_learned. Qed.
Print Assumptions C112_numpy.

Theorem C112_pandas : forall fuel opt eh X p t g, 0 < max_iter p -> NoDup (map fst (f_cols X)) -> notears_pandas fuel opt eh X p t = Ok g ->
  let d := List.length (f_cols X) in let n := List.length (f_rows X) in let name := fun i => nth i (map fst (f_cols X)) (LInt 0) in let may := open_edge t name in
  (forall w, is_finite (eh d w) = true) -> no_loop d may -> exact_optimiser (d * d) (plain_box d may) (func n d (frame_data X)) opt ->
  exists W, graph_of g d name "learned" W (fun x => x <> 0%Qc /\ (w_threshold p < Qcabs x)%Qc) /\
    (forall i j, i < d -> j < d -> ~ may i j -> W i j = 0%Qc) /\
    (forall i j, i < d -> j < d -> may i j -> total n (fun r => frame_data X r i * (frame_data X r j - linear d (frame_data X) (fun a b => realq (W a b)) r j))%R = 0%R).
Proof. exact plain_learned_pandas. Qed.
Print Assumptions C112_pandas.

(** With the L1 penalty [beta]: each allowed weight satisfies the optimality condition of the lasso. *)
Theorem C112_numpy_lasso : forall fuel opt eh X p t g beta, 0 < max_iter p -> from_numpy_lasso fuel opt eh X p t = Ok g -> (0 <= beta)%R ->
  let d := m_cols X in let n := List.length (m_rows X) in let may := open_edge t Z.of_nat in
  (forall w, is_finite (eh d w) = true) -> no_loop d may -> exact_optimiser (2 * (d * d)) (lasso_box d may) (lasso_func n d (data X) beta) opt ->
  exists W, graph_of g d (fun i => LInt (Z.of_nat i)) "unknown" W (fun x => x <> 0%Qc /\ (w_threshold p <= Qcabs x)%Qc) /\
    (forall i j, i < d -> j < d -> ~ may i j -> W i j = 0%Qc) /\
    (forall i j, i < d -> j < d -> may i j ->
       optimal_weight beta (total n (fun r => data X r i * (data X r j - linear d (data X) (fun a b => realq (W a b)) r j)) / INR n)%R (realq (W i j))).
Proof. exact lasso_learned. Qed.
Print Assumptions C112_numpy_lasso.

Theorem C112_pandas_lasso : forall fuel opt eh X p t g beta, 0 < max_iter p -> NoDup (map fst (f_cols X)) -> notears_pandas_lasso fuel opt eh X p t = Ok g -> (0 <= beta)%R ->
  let d := List.length (f_cols X) in let n := List.length (f_rows X) in let name := fun i => nth i (map fst (f_cols X)) (LInt 0) in let may := open_edge t name in
  (forall w, is_finite (eh d w) = true) -> no_loop d may -> exact_optimiser (2 * (d * d)) (lasso_box d may) (lasso_func n d (frame_data X) beta) opt ->
  exists W, graph_of g d name "learned" W (fun x => x <> 0%Qc /\ (w_threshold p <= Qcabs x)%Qc) /\
    (forall i j, i < d -> j < d -> ~ may i j -> W i j = 0%Qc) /\
    (forall i j, i < d -> j < d -> may i j ->
       optimal_weight beta (total n (fun r => frame_data X r i * (frame_data X r j - linear d (frame_data X) (fun a b => realq (W a b)) r j)) / INR n)%R (realq (W i j))).
Proof. exact lasso_learned_pandas. Qed.
Print Assumptions C112_pandas_lasso.

(** DYNOTEARS: effects within the period are penalised by [lambda_w], lagged effects by [lambda_a]; only the
    effects within the period can close a cycle. *)
Theorem C112_dynamic : forall fuel opt eh X Xlags par t g lambda_w lambda_a, 0 < max_iter par -> from_numpy_dynamic fuel opt eh X Xlags par t = Ok g ->
  (0 <= lambda_w)%R -> (0 <= lambda_a)%R ->
  let d := m_cols X in let p := m_cols Xlags / d in let n := List.length (m_rows X) in let may := open_lag t Z.of_nat in
  (forall w, is_finite (eh d w) = true) -> no_loop d (may 0) ->
  exact_optimiser (2 * (p + 1) * (d * d)) (dyn_box d p may) (dyn_func n d p (data X) (data Xlags) lambda_w lambda_a) opt ->
  exists E, dgraph_of g d p (fun i k => LStr (lag_name (dec i) k)) "unknown" E (fun x => x <> 0%Qc /\ (w_threshold par <= Qcabs x)%Qc) /\
    (forall k i j, k <= p -> i < d -> j < d -> ~ may k i j -> E k i j = 0%Qc) /\
    (forall k i j, k <= p -> i < d -> j < d -> may k i j ->
       optimal_weight (if k =? 0 then lambda_w else lambda_a)
         (total n (fun r => lagged X Xlags k r i * unexplained X Xlags p (fun k i j => realq (E k i j)) r j)%R / INR n) (realq (E k i j))).
Proof. exact dynamic_learned. Qed.
Print Assumptions C112_dynamic.

(** ** Examples: two rows with x1 = 2 x0; the edge from 1 to 0 is banned. *)
Lemma two_no_loop (may : nat -> nat -> Prop) : (forall i j, i < 2 -> j < 2 -> may i j -> i < j) -> no_loop 2 may.
Proof.
  intros H i C. assert (Q : forall a b, clos_trans nat (fun a b => a < 2 /\ b < 2 /\ may a b) a b -> a < b).
  { induction 1 as [x y (Hx & Hy & M)|]; [auto|lia]. }
  apply Q in C. lia.
Qed.

Definition fit_X : mat := mkMat 2 [[Fin 1; Fin (Q2Qc 2)]; [Fin (Q2Qc 2); Fin (Q2Qc 4)]]%Qc.
Definition fit_t : tabu Z := mkTabu (Some [(1, 0)%Z]) None None.
Definition fit_opt : optimiser := fun _ _ _ _ _ => [0; Q2Qc 2; 0; 0]%Qc.
Definition fit_par : params := mkParams 100 (Q2Qc (1 # 100)) 0%Qc.

Lemma fit_may i j : i < 2 -> j < 2 -> (open_edge fit_t Z.of_nat i j <-> i = 0 /\ j = 1).
Proof.
  intros Hi Hj. rewrite <- okb_open. destruct i as [|[|i]], j as [|[|j]]; try lia; cbn; split; intros H; try discriminate; try (split; reflexivity); try reflexivity; destruct H; discriminate.
Qed.

Lemma realq_2 : realq (Q2Qc 2) = 2%R. Proof. unfold realq, Q2R. cbn. lra. Qed.
Lemma realq_4 : realq (Q2Qc 4) = 4%R. Proof. unfold realq, Q2R. cbn. lra. Qed.
Lemma realq_1 : realq 1 = 1%R. Proof. unfold realq, Q2R. cbn. lra. Qed.

Lemma fit_exact : exact_optimiser 4 (plain_box 2 (open_edge fit_t Z.of_nat)) (func 2 2 (data fit_X)) fit_opt.
Proof.
  intros bnds Hb r q x k. split; [reflexivity|]. apply (minimises_box 4 (plain_box 2 (fun i j => okb fit_t i j = true))).
  - intros p y Hp. rewrite Hb by auto. apply plain_box_ext. intros i j _ _. apply okb_open.
  - apply (C112_objective 2 2 (data fit_X) (realq r) (realq q) (okb fit_t)); [lia| |].
    + apply two_no_loop. intros i j Hi Hj H. apply okb_open in H. apply fit_may in H; auto. lia.
    + intros i j Hi Hj. destruct i as [|[|i]], j as [|[|j]]; try lia; match goal with |- context [okb fit_t ?a ?b] => let v := eval vm_compute in (okb fit_t a b) in change (okb fit_t a b) with v end; cbv iota;
      unfold linear, plain_weights, vec; cbn [total data fit_X fit_opt m_rows nth Nat.mul Nat.add]; rewrite ?realq_0, ?realq_1, ?realq_2, ?realq_4; lra.
Qed.

Example C112_numpy_met : 0 < max_iter fit_par /\ (forall w : list Qc, is_finite ((fun (_ : nat) (_ : list Qc) => Fin 0%Qc) 2 w) = true) /\ no_loop 2 (open_edge fit_t Z.of_nat) /\
  exact_optimiser (2 * 2) (plain_box 2 (open_edge fit_t Z.of_nat)) (func 2 2 (data fit_X)) fit_opt /\
  exists g, from_numpy 21 fit_opt (fun _ _ => Fin 0%Qc) fit_X fit_par fit_t = Ok g /\ edges g = [(LInt 0, LInt 1)].
Proof.
  split; [cbn; lia|]. split; [reflexivity|]. split; [|split; [exact fit_exact|]].
  - apply two_no_loop. intros i j Hi Hj H. apply fit_may in H; auto. lia.
  - eexists. split; vm_compute; reflexivity.
Qed.

(** The same data as a data frame *)
Definition fit_frame : frame := mkFrame [(LStr "a", true); (LStr "b", true)] (m_rows fit_X).
Definition fit_names : tabu label := mkTabu (Some [(LStr "b", LStr "a")]) None None.
Definition fit_name (i : nat) : label := nth i [LStr "a"; LStr "b"] (LInt 0).

Lemma fit_named i j : i < 2 -> j < 2 -> (open_edge fit_t Z.of_nat i j <-> open_edge fit_names fit_name i j).
Proof.
  intros Hi Hj. apply (open_named [LStr "a"; LStr "b"] fit_names fit_t i j); auto.
  - constructor; [intros [E|[]]; discriminate|]. constructor; [intros []|constructor].
Qed.

Example C112_pandas_met : NoDup (map fst (f_cols fit_frame)) /\ no_loop 2 (open_edge fit_names fit_name) /\
  exact_optimiser (2 * 2) (plain_box 2 (open_edge fit_names fit_name)) (func 2 2 (frame_data fit_frame)) fit_opt /\
  exists g, notears_pandas 21 fit_opt (fun _ _ => Fin 0%Qc) fit_frame fit_par fit_names = Ok g /\ edges g = [(LStr "a", LStr "b")].
Proof.
  split. { constructor; [intros [E|[]]; discriminate|]. constructor; [intros []|constructor]. }
  split. { apply two_no_loop. intros i j Hi Hj H. apply fit_named in H; auto. apply fit_may in H; auto. lia. }
  split; [|eexists; split; vm_compute; reflexivity].
  apply (exact_ext _ (plain_box 2 (open_edge fit_t Z.of_nat))); [|exact fit_exact]. intros q x _. apply plain_box_ext. apply fit_named.
Qed.

(** With beta = 1 the weight shrinks from 2 to 8/5. *)
Definition lasso_opt : optimiser := fun _ _ _ _ _ => [0; Q2Qc (8 # 5); 0; 0; 0; 0; 0; 0]%Qc.
Definition shrunk (i j : nat) : R := match i, j with 0, 1 => (8 / 5)%R | _, _ => 0%R end.

Lemma realq_85 : realq (Q2Qc (8 # 5)) = (8 / 5)%R. Proof. unfold realq, Q2R. cbn. lra. Qed.
Lemma ppart_0 : ppart 0 = 0%R. Proof. unfold ppart, Rmax. destruct (Rle_dec 0 0); lra. Qed.
Lemma npart_0 : npart 0 = 0%R. Proof. unfold npart, Rmax. destruct (Rle_dec (- 0) 0); lra. Qed.
Lemma ppart_85 : ppart (8 / 5) = (8 / 5)%R. Proof. unfold ppart, Rmax. destruct (Rle_dec (8 / 5) 0); lra. Qed.
Lemma npart_85 : npart (8 / 5) = 0%R. Proof. unfold npart, Rmax. destruct (Rle_dec (- (8 / 5)) 0); lra. Qed.

Lemma lasso_func_agree n d X beta rho alpha v w : (forall q, q < 2 * (d * d) -> v q = w q) -> lasso_func n d X beta rho alpha v = lasso_func n d X beta rho alpha w.
Proof.
  intros E. assert (M : forall i j, i < d -> j < d -> lasso_mat d v i j = lasso_mat d w i j).
  { intros i j Hi Hj. rewrite !lasso_mat_at. pose proof (index_lt d i j Hi Hj). rewrite !E by lia. reflexivity. }
  unfold lasso_func. rewrite (loss_ext n d X _ _ M), (h_ext d _ _ M). rewrite (rsum_ext (2 * (d * d)) v w) by auto. reflexivity.
Qed.

Lemma lasso_exact : exact_optimiser 8 (lasso_box 2 (open_edge fit_t Z.of_nat)) (lasso_func 2 2 (data fit_X) 1) lasso_opt.
Proof.
  intros bnds Hb r q x k. split; [reflexivity|]. apply (minimises_box 8 (lasso_box 2 (open_edge fit_t Z.of_nat))); [intros; symmetry; apply Hb; auto|].
  assert (S : supported 2 2 (okb fit_t) shrunk).
  { intros i j Hi Hj O. apply okb_closed in O. rewrite fit_may in O by auto. destruct i as [|[|i]], j as [|[|j]]; try lia; cbn; auto; exfalso; apply O; auto. }
  assert (NC : no_cycle 2 (okb fit_t)).
  { apply no_loop_cycle. apply two_no_loop. intros i j Hi Hj H. apply fit_may in H; auto. lia. }
  destruct (lasso_fit_back 2 2 (data fit_X) 1 (realq r) (realq q) (okb fit_t) ltac:(lia) ltac:(lra) NC shrunk S) as [B M].
  { intros i j Hi Hj O. apply okb_open in O. apply fit_may in O; auto. destruct O as [-> ->]. unfold residual_moment, optimal_weight, linear. cbn [total data fit_X m_rows nth shrunk INR].
    rewrite ?realq_1, ?realq_2, ?realq_4. match goal with |- (Rabs ?c <= _)%R /\ _ => replace c with 1%R by lra end. rewrite Rabs_R1. split; [lra|]. split; intros; lra. }
  assert (A : forall p, p < 8 -> vec (lasso_opt bnds r (Fin q) x k) p = split_mat 2 shrunk p).
  { intros p Hp. do 8 (destruct p as [|p]; [cbn; unfold vec, split_mat, flat; cbn; rewrite ?realq_0, ?realq_85, ?ppart_0, ?npart_0, ?ppart_85, ?npart_85; reflexivity|]). lia. }
  split.
  - intros p Hp. rewrite A by auto. revert p Hp. apply (lasso_in_box fit_t 2). exact B.
  - intros v Hv. rewrite (lasso_func_agree _ _ _ _ _ _ _ (split_mat 2 shrunk)) by (exact A). apply M. apply lasso_in_box. exact Hv.
Qed.

Example C112_lasso_met : no_loop 2 (open_edge fit_t Z.of_nat) /\ exact_optimiser (2 * (2 * 2)) (lasso_box 2 (open_edge fit_t Z.of_nat)) (lasso_func 2 2 (data fit_X) 1) lasso_opt /\
  exists g, from_numpy_lasso 21 lasso_opt (fun _ _ => Fin 0%Qc) fit_X fit_par fit_t = Ok g /\ edges g = [(LInt 0, LInt 1)].
Proof.
  split; [|split; [exact lasso_exact|eexists; split; vm_compute; reflexivity]].
  apply two_no_loop. intros i j Hi Hj H. apply fit_may in H; auto. lia.
Qed.

(** One series x with x(t) = 2 x(t-1) and lambda_a = 1: the effect of the previous period is 8/5. *)
Definition ser_X : mat := mkMat 1 [[Fin (Q2Qc 2)]; [Fin (Q2Qc 4)]].
Definition ser_lags : mat := mkMat 1 [[Fin 1%Qc]; [Fin (Q2Qc 2)]].
Definition ser_t : dtabu Z := mkDtabu None None None.
Definition ser_opt : optimiser := fun _ _ _ _ _ => [0; 0; Q2Qc (8 # 5); 0]%Qc.

Lemma dyn_func_agree n d p X Y lw la rho alpha v w : (forall q, q < 2 * (p + 1) * (d * d) -> v q = w q) -> dyn_func n d p X Y lw la rho alpha v = dyn_func n d p X Y lw la rho alpha w.
Proof.
  intros E.
  assert (M : forall i j, i < d -> j < d -> dyn_w d v i j = dyn_w d w i j).
  { intros i j Hi Hj. unfold dyn_w. rewrite !lasso_mat_at. pose proof (index_lt d i j Hi Hj). rewrite !E by lia. reflexivity. }
  assert (A : forall m j, m < p * d -> j < d -> dyn_a d v m j = dyn_a d w m j).
  { intros m j Hm Hj. destruct (decode d m p Hm) as (k & i & Hk & Hi & ->). rewrite !dyn_a_at by auto. pose proof (lag_pos d p k i j Hk Hi Hj). rewrite !E by lia. reflexivity. }
  unfold dyn_func. rewrite (h_ext d _ _ M). f_equal; [f_equal; f_equal; f_equal; apply norm2_ext|f_equal; f_equal; apply rsum_ext; intros q Hq; apply E; lia].
  intros i j Hi Hj. unfold dyn_resid, msub at 1 3. f_equal; apply mmul_ext; auto. intros k Hk. unfold msub. rewrite M; auto.
Qed.

Lemma ser_exact : exact_optimiser 4 (dyn_box 1 1 (open_lag ser_t Z.of_nat)) (dyn_func 2 1 1 (data ser_X) (data ser_lags) 0 1) ser_opt.
Proof.
  intros bnds Hb r q x k. split; [reflexivity|]. apply (minimises_box 4 (dyn_box 1 1 (open_lag ser_t Z.of_nat))); [intros; symmetry; apply Hb; auto|].
  pose (W := fun _ _ : nat => 0%R). pose (A := fun _ _ : nat => (8 / 5)%R).
  assert (NC : no_cycle 1 (okd ser_t 0)).
  { intros i C. assert (Q : forall a b, clos_trans nat (fun a b => a < 1 /\ b < 1 /\ okd ser_t 0 a b = true) a b -> a < b).
    { induction 1 as [y z (Hy & Hz & O)|]; [|lia]. destruct y as [|y], z as [|z]; try lia. vm_compute in O. discriminate. }
    apply Q in C. lia. }
  assert (SW : supported 1 1 (okd ser_t 0) W) by (intros i j _ _ _; reflexivity).
  assert (SA : lag_supported 1 1 (fun k => okd ser_t (S k)) A) by (intros l i j Hl Hi Hj O; vm_compute in O; discriminate).
  destruct (dyn_fit_back 2 1 1 (data ser_X) (data ser_lags) 0 1 (realq r) (realq q) (okd ser_t 0) (fun k => okd ser_t (S k)) ltac:(lia) ltac:(lra) ltac:(lra) NC W A SW SA) as [B M].
  - intros i j Hi Hj O. destruct i as [|i], j as [|j]; try lia. vm_compute in O. discriminate.
  - intros l i j Hl Hi Hj _. destruct l as [|l], i as [|i], j as [|j]; try lia. unfold optimal_weight, left_over, linear, W, A. cbn [total data ser_X ser_lags m_rows nth Nat.mul Nat.add INR].
    rewrite ?realq_1, ?realq_2, ?realq_4. match goal with |- (Rabs ?c <= _)%R /\ _ => replace c with 1%R by lra end. rewrite Rabs_R1. split; [lra|]. split; intros; lra.
  - assert (E : forall p, p < 4 -> vec (ser_opt bnds r (Fin q) x k) p = split_dyn 1 W A p).
    { intros p Hp. do 4 (destruct p as [|p]; [cbn; unfold vec, split_dyn, split_mat, flat, W, A; cbn; rewrite ?realq_0, ?realq_85, ?ppart_0, ?npart_0, ?ppart_85, ?npart_85; reflexivity|]). lia. }
    split.
    + intros p Hp. rewrite E by auto. revert p Hp. apply (dyn_in_box ser_t 1 1). exact B.
    + intros v Hv. rewrite (dyn_func_agree _ _ _ _ _ _ _ _ _ _ (split_dyn 1 W A)) by (exact E). apply M. apply dyn_in_box. exact Hv.
Qed.

Example C112_dynamic_met : no_loop 1 (open_lag ser_t Z.of_nat 0) /\
  exact_optimiser (2 * (1 + 1) * (1 * 1)) (dyn_box 1 1 (open_lag ser_t Z.of_nat)) (dyn_func 2 1 1 (data ser_X) (data ser_lags) 0 1) ser_opt /\
  exists g, from_numpy_dynamic 21 ser_opt (fun _ _ => Fin 0%Qc) ser_X ser_lags fit_par ser_t = Ok g /\ edges g = [(LStr "0_lag1", LStr "0_lag0")].
Proof.
  split; [|split; [exact ser_exact|eexists; split; vm_compute; reflexivity]].
  intros i C. assert (Q : forall a b, clos_trans nat (fun a b => a < 1 /\ b < 1 /\ open_lag ser_t Z.of_nat 0 a b) a b -> a < b).
  { induction 1 as [y z (Hy & Hz & N & _)|]; [|lia]. destruct y as [|y], z as [|z]; try lia; try (exfalso; apply N; auto). }
  apply Q in C. lia.
Qed.
