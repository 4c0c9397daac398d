(** * PropsAcyc: properties C32 and C33, acyclicity of learned structures. *)
From Coq Require Import List Bool Arith ZArith Lia String QArith Qcanon Qreals Reals Lra Relations.
From Verif Require Import Base QcX Digraph SmModel NotearsModel NotearsProofs NotearsThms AcycModel AcycProofs AcycThms AcycLink.
Import ListNotations.
Local Open Scope list_scope.
Local Open Scope R_scope.

(** ** C32: the acyclicity functions characterise acyclic graphs *)

(** tr(exp(W * W)) - d is a number, not negative, and zero exactly when the graph of W has no cycle. *)
Theorem C32_exp : forall (d : nat) (W : nat -> nat -> R),
  exists h, exp_penalty d W h /\ (forall h', exp_penalty d W h' -> h' = h) /\ 0 <= h /\ (h = 0 <-> dag d W).
Proof.
  intros d W. destruct (exp_penalty_ex d W) as (h & H). exists h. split; [exact H|].
  split; [intros h' H'; exact (exp_penalty_unique d W h' h H' H)|]. split; [exact (exp_penalty_nonneg d W h H)|exact (exp_penalty_zero d W h H)].
Qed.
Print Assumptions C32_exp.

(** The polynomial of the torch version, for any matrix of non-negative (squared) weights. *)
Theorem C32_poly : forall (d : nat) (A : nat -> nat -> R), (0 < d)%nat ->
  (forall i j, (i < d)%nat -> (j < d)%nat -> 0 <= A i j) ->
  poly_penalty d A = tr d (mpow d (fun i j => mid i j + A i j / INR d) d) - INR d /\
  0 <= poly_penalty d A /\ (poly_penalty d A = 0 <-> dag d A).
Proof. intros d A Hd HA. split; [exact (poly_trace d A Hd)|split; [exact (poly_nonneg d A HA Hd)|exact (poly_zero d A HA Hd)]]. Qed.
Print Assumptions C32_poly.

(** Both kinds of matrix exist: 0 -> 1 is acyclic, 0 <-> 1 is not. *)
Definition one_edge : nat -> nat -> R := fun i j => match i, j with O, S O => 1 / 2 | _, _ => 0 end.
Definition two_cycle : nat -> nat -> R := fun i j => match i, j with O, S O => - (1 / 2) | S O, O => 1 / 3 | _, _ => 0 end.

Lemma one_edge_dag : dag 2 one_edge.
Proof.
  intros i C. assert (H : forall a b, clos_trans nat (medge 2 one_edge) a b -> (a < b)%nat).
  { induction 1 as [x y (Hx & Hy & E)|]; [|lia]. destruct x as [|x]; destruct y as [|[|y]]; cbn in E; try lra; try lia. }
  apply H in C. lia.
Qed.
Lemma two_cycle_cyclic : ~ dag 2 two_cycle.
Proof.
  intros D. apply (D 0%nat). apply t_trans with 1%nat; apply t_step; (split; [lia|split; [lia|]]); cbn; lra.
Qed.
Example C32_cases : exp_penalty 2 one_edge 0 /\ (forall h, exp_penalty 2 two_cycle h -> 0 < h).
Proof.
  split.
  - destruct (C32_exp 2 one_edge) as (h & H & _ & _ & Z). replace 0 with h; auto. apply Z. apply one_edge_dag.
  - intros h H. destruct (C32_exp 2 two_cycle) as (h0 & H0 & U & P & Z). rewrite (U h H). destruct P as [P|P]; auto.
    exfalso. apply two_cycle_cyclic. apply Z. auto.
Qed.

(** ** C33: a small penalty and a threshold give an acyclic structure *)

(** [delta] bounds the error of the computed penalty at the points the optimiser returns. *)
Theorem C33_numpy : forall fuel opt eh X p t g delta, from_numpy fuel opt eh X p t = Ok g -> numpy_warns fuel opt eh X p t = Ok false ->
  (forall bnds r a x k, within delta eh (m_cols X) (opt bnds r a x k)) -> (0 <= w_threshold p)%Qc ->
  excludes (m_cols X) (realq (w_threshold p)) (realq (h_tol p) + delta) -> acyclic (edges g).
Proof. exact numpy_acyclic. Qed.
Print Assumptions C33_numpy.

Theorem C33_numpy_lasso : forall fuel opt eh X p t g delta, from_numpy_lasso fuel opt eh X p t = Ok g -> numpy_lasso_warns fuel opt eh X p t = Ok false ->
  (forall bnds r a x k, within delta eh (m_cols X) (lasso_matrix (m_cols X) (opt bnds r a x k))) -> (0 <= w_threshold p)%Qc ->
  excludes (m_cols X) (realq (w_threshold p)) (realq (h_tol p) + delta) -> acyclic (edges g).
Proof. exact numpy_lasso_acyclic. Qed.
Print Assumptions C33_numpy_lasso.

Theorem C33_pandas : forall fuel opt eh X p t g delta, NoDup (map fst (f_cols X)) -> notears_pandas fuel opt eh X p t = Ok g ->
  pandas_warns (fun M tz => numpy_warns fuel opt eh M p tz) X t = Ok false ->
  (forall bnds r a x k, within delta eh (List.length (f_cols X)) (opt bnds r a x k)) -> (0 <= w_threshold p)%Qc ->
  excludes (List.length (f_cols X)) (realq (w_threshold p)) (realq (h_tol p) + delta) -> acyclic (edges g).
Proof. exact pandas_acyclic. Qed.
Print Assumptions C33_pandas.

Theorem C33_pandas_lasso : forall fuel opt eh X p t g delta, NoDup (map fst (f_cols X)) -> notears_pandas_lasso fuel opt eh X p t = Ok g ->
  pandas_warns (fun M tz => numpy_lasso_warns fuel opt eh M p tz) X t = Ok false ->
  (forall bnds r a x k, within delta eh (List.length (f_cols X)) (lasso_matrix (List.length (f_cols X)) (opt bnds r a x k))) -> (0 <= w_threshold p)%Qc ->
  excludes (List.length (f_cols X)) (realq (w_threshold p)) (realq (h_tol p) + delta) -> acyclic (edges g).
Proof. exact pandas_lasso_acyclic. Qed.
Print Assumptions C33_pandas_lasso.

(** The same bound for the polynomial penalty of the torch version. *)
Theorem C33_poly : forall d A s, (0 < d)%nat -> (forall i j, (i < d)%nat -> (j < d)%nat -> 0 <= A i j) -> 0 <= s ->
  (forall L, (0 < L <= d)%nat -> poly_penalty d A < INR L * (s / INR d) ^ L) ->
  forall i, ~ clos_trans nat (fun i j => (i < d)%nat /\ (j < d)%nat /\ s <= A i j) i i.
Proof. intros d A s Hd HA. exact (poly_threshold d A s HA Hd). Qed.
Print Assumptions C33_poly.

(** Default tolerance, threshold 1/10, and an optimiser that finds the edge 0 -> 1 with weight 1/2. *)
Definition ex_par33 : params := mkParams 100 (Q2Qc (1 # 100000000)) (Q2Qc (1 # 10)).
Definition ex_opt33 : optimiser := fun _ _ _ _ _ => [0; Q2Qc (1 # 2); 0; 0]%Qc.
Definition ex_X33 : mat := mkMat 2 [[Fin 1; Fin 0]; [Fin 0; Fin 1]]%Qc.

Example C33_hypotheses_met :
  (exists g, from_numpy 21 ex_opt33 (fun _ _ => Fin 0%Qc) ex_X33 ex_par33 (mkTabu None None None) = Ok g /\ edges g = [(LInt 0, LInt 1)]) /\
  numpy_warns 21 ex_opt33 (fun _ _ => Fin 0%Qc) ex_X33 ex_par33 (mkTabu None None None) = Ok false /\
  (forall bnds r a x k, within 0 (fun _ _ => Fin 0%Qc) (m_cols ex_X33) (ex_opt33 bnds r a x k)) /\
  excludes (m_cols ex_X33) (realq (w_threshold ex_par33)) (realq (h_tol ex_par33) + 0).
Proof.
  split; [eexists; split; [vm_compute; reflexivity|vm_compute; reflexivity]|]. split; [vm_compute; reflexivity|]. split.
  - intros bnds r a x k. exists 0%Qc. split; auto. intros h H. rewrite realq_0.
    assert (h = 0).
    { destruct (C32_exp (m_cols ex_X33) (fun i j => realq (entry (m_cols ex_X33) (ex_opt33 bnds r a x k) i j))) as (h0 & H0 & U & P & Z). rewrite (U h H). apply Z.
      intros i C. apply (one_edge_dag i). eapply clos_ext; [|exact C]. intros u v (Hu & Hv & N). split; [exact Hu|split; [exact Hv|]].
      cbn in Hu, Hv. destruct u as [|[|u]]; [| |lia]; (destruct v as [|[|v]]; [| |lia]); cbn in *; unfold realq, Q2R in N; cbn in N; lra. }
    subst h. rewrite Rminus_0_r, Rabs_R0. lra.
  - intros L HL. cbn [m_cols ex_X33] in HL. unfold realq, Q2R. cbn.
    assert (L = 1 \/ L = 2)%nat as [-> | ->] by lia; cbn; lra.
Qed.

(** Without a threshold the claim is false: defaults (h_tol = 1e-8, w_threshold = 0), no warning, the exact
    penalty is below the tolerance, and there is a cycle. *)
Theorem C33_no_threshold_refuted : exists opt eh X p g h,
  h_tol p = Q2Qc (1 # 100000000) /\ w_threshold p = 0%Qc /\
  from_numpy 21 opt eh X p (mkTabu None None None) = Ok g /\ numpy_warns 21 opt eh X p (mkTabu None None None) = Ok false /\
  (forall bnds r a x k, exp_penalty (m_cols X) (fun i j => realq (entry (m_cols X) (opt bnds r a x k) i j)) h /\
     within (/ 1000000000) eh (m_cols X) (opt bnds r a x k)) /\
  h <= realq (h_tol p) /\ ~ acyclic (edges g).
Proof.
  set (w := [0; Q2Qc (1 # 100000); Q2Qc (1 # 100000); 0]%Qc).
  destruct (exp_penalty_ex 2 (fun i j => realq (entry 2 w i j))) as (h & H).
  assert (B : 0 <= h <= / 1000000000).
  { split; [apply (exp_penalty_nonneg _ _ _ H)|].
    assert (M : forall i j, (i < 2)%nat -> (j < 2)%nat -> realq (entry 2 w i j) * realq (entry 2 w i j) <= / 10000000000).
    { intros i j Hi Hj. destruct i as [|[|i]]; [| |lia]; (destruct j as [|[|j]]; [| |lia]); unfold realq, Q2R; cbn; lra. }
    pose proof (exp_penalty_bound _ _ _ (/ 10000000000) H ltac:(lra) M) as Q.
    set (x := INR 2 * / 10000000000) in *. assert (Ex : x = / 5000000000) by (unfold x; cbn; lra).
    assert (E : exp x <= / (1 - x)).
    { rewrite <- (Rinv_involutive (exp x)) by (pose proof (exp_pos x); lra). rewrite <- exp_Ropp.
      apply Rinv_le_contravar; [lra|]. pose proof (exp_ineq1_le (- x)). lra. }
    apply Rle_trans with (1 := Q). replace (INR 2) with 2 by (cbn; lra).
    assert (/ (1 - x) <= 1 + 2 * x); [|lra]. apply (Rmult_le_reg_l (1 - x)); [lra|]. rewrite Rinv_r by lra. rewrite Ex. lra. }
  exists (fun _ _ _ _ _ => w), (fun _ _ => Fin 0%Qc), ex_X33, (mkParams 100 (Q2Qc (1 # 100000000)) 0%Qc). eexists. exists h.
  split; [reflexivity|]. split; [reflexivity|]. split; [vm_compute; reflexivity|]. split; [vm_compute; reflexivity|]. split; [|split].
  - intros bnds r a x k. split; [exact H|]. exists 0%Qc. split; auto. intros h' H'. rewrite (exp_penalty_unique _ _ _ _ H' H). rewrite realq_0.
    unfold Rabs. destruct (Rcase_abs _); lra.
  - apply Rle_trans with (/ 1000000000); [lra|]. unfold realq, Q2R. cbn. lra.
  - intros A. apply (A (LInt 0)). apply path_step with (LInt 1); [left; reflexivity|]. apply path_one. right. left. reflexivity.
Qed.
Print Assumptions C33_no_threshold_refuted.
