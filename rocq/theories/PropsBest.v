(** * PropsBest: properties C114 and C115, how well learned structures fit and when learning converges. *)
From Coq Require Import List Bool Arith ZArith Lia String QArith Qcanon Qreals Reals Lra Relations.
From Coquelicot Require Import Coquelicot.
From Verif Require Import Base Names QcX Digraph SmModel SmProofs NotearsModel NotearsProofs NotearsThms TransModel MapperModel DynoModel DynoProofs DynoThms AcycModel AcycProofs AcycThms AcycLink.
From Verif Require Import ObjModel ObjProofs ObjGrad ObjLasso PropsObj ObjUnits PropsObjMore ObjFit FitLink FitDyno OrdProofs FitBound FitBest FitBestDyno PropsRegress.
Import ListNotations.
Local Open Scope string_scope.
Local Open Scope list_scope.
Local Open Scope nat_scope.

(** ** C114: no acyclic structure fits better *)

(** NOTEARS on an array, with an optimiser whose answers are minima up to [eps]: the weights [W] that are cut at the
    threshold respect the bans and fit at least as well, up to [eps], as those of every acyclic structure that
    respects the bans; without a threshold an acyclic result is such a structure itself. *)
Theorem C114_numpy : forall fuel opt eh X p t g eps delta, 0 < max_iter p -> from_numpy fuel opt eh X p t = Ok g ->
  let d := m_cols X in let n := List.length (m_rows X) in let may := open_edge t Z.of_nat in
  let misfit := fun V => half_mse n d (data X) (linear d (data X) V) in
  near_optimiser (d * d) (plain_box d may) (func n d (data X)) eps opt ->
  (forall bnds r q x k, (0 < r)%Qc -> (0 <= q)%Qc -> penalty_close delta eh d (opt bnds r (Fin q) x k)) ->
  exists W, graph_of g d (fun i => LInt (Z.of_nat i)) "unknown" W (fun x => x <> 0%Qc /\ (w_threshold p < Qcabs x)%Qc) /\
    allowed d may (fun i j => realq (W i j)) /\
    (forall V, allowed d may V -> dag d V -> (misfit (fun i j => realq (W i j)) <= misfit V + eps)%R) /\
    (w_threshold p = 0%Qc -> Digraph.acyclic (edges g) -> dag d (fun i j => realq (W i j))).
Proof.
  intros fuel opt eh X p t g eps delta Hm E d n may misfit Op Cl. destruct (plain_best fuel opt eh X p t g eps delta Hm E Op Cl) as (W & G & A & B & D & _).
  exists W. auto.
Qed.
Print Assumptions C114_numpy.

Theorem C114_pandas : forall fuel opt eh X p t g eps delta, 0 < max_iter p -> NoDup (map fst (f_cols X)) -> notears_pandas fuel opt eh X p t = Ok g ->
  let d := List.length (f_cols X) in let n := List.length (f_rows X) in let name := fun i => nth i (map fst (f_cols X)) (LInt 0) in let may := open_edge t name in
  let misfit := fun V => half_mse n d (frame_data X) (linear d (frame_data X) V) in
  near_optimiser (d * d) (plain_box d may) (func n d (frame_data X)) eps opt ->
  (forall bnds r q x k, (0 < r)%Qc -> (0 <= q)%Qc -> penalty_close delta eh d (opt bnds r (Fin q) x k)) ->
  exists W, graph_of g d name "learned" W (fun x => x <> 0%Qc /\ (w_threshold p < Qcabs x)%Qc) /\
    allowed d may (fun i j => realq (W i j)) /\
    (forall V, allowed d may V -> dag d V -> (misfit (fun i j => realq (W i j)) <= misfit V + eps)%R) /\
    (w_threshold p = 0%Qc -> Digraph.acyclic (edges g) -> dag d (fun i j => realq (W i j))).
Proof.
  intros fuel opt eh X p t g eps delta Hm ND E d n name may misfit Op Cl. destruct (plain_best_pandas fuel opt eh X p t g eps delta Hm ND E Op Cl) as (W & G & A & B & D & _).
  exists W. auto.
Qed.
Print Assumptions C114_pandas.

(** The lasso versions: the same with the L1 penalty [beta]. *)
Theorem C114_numpy_lasso : forall fuel opt eh X p t g beta eps delta, 0 < max_iter p -> from_numpy_lasso fuel opt eh X p t = Ok g -> (0 <= beta)%R ->
  let d := m_cols X in let n := List.length (m_rows X) in let may := open_edge t Z.of_nat in
  let cost := fun V => (half_mse n d (data X) (linear d (data X) V) + beta * weight_norm d d V)%R in
  near_optimiser (2 * (d * d)) (lasso_box d may) (lasso_func n d (data X) beta) eps opt ->
  (forall bnds r q x k, (0 < r)%Qc -> (0 <= q)%Qc -> penalty_close delta eh d (lasso_matrix d (opt bnds r (Fin q) x k))) ->
  exists W, graph_of g d (fun i => LInt (Z.of_nat i)) "unknown" W (fun x => x <> 0%Qc /\ (w_threshold p <= Qcabs x)%Qc) /\
    allowed d may (fun i j => realq (W i j)) /\
    (forall V, allowed d may V -> dag d V -> (cost (fun i j => realq (W i j)) <= cost V + eps)%R) /\
    (w_threshold p = 0%Qc -> Digraph.acyclic (edges g) -> dag d (fun i j => realq (W i j))).
Proof.
  intros fuel opt eh X p t g beta eps delta Hm E Hb d n may cost Op Cl. destruct (lasso_best fuel opt eh X p t g beta eps delta Hm E Hb Op Cl) as (W & G & A & B & D & _).
  exists W. auto.
Qed.
Print Assumptions C114_numpy_lasso.

Theorem C114_pandas_lasso : forall fuel opt eh X p t g beta eps delta, 0 < max_iter p -> NoDup (map fst (f_cols X)) -> notears_pandas_lasso fuel opt eh X p t = Ok g -> (0 <= beta)%R ->
  let d := List.length (f_cols X) in let n := List.length (f_rows X) in let name := fun i => nth i (map fst (f_cols X)) (LInt 0) in let may := open_edge t name in
  let cost := fun V => (half_mse n d (frame_data X) (linear d (frame_data X) V) + beta * weight_norm d d V)%R in
  near_optimiser (2 * (d * d)) (lasso_box d may) (lasso_func n d (frame_data X) beta) eps opt ->
  (forall bnds r q x k, (0 < r)%Qc -> (0 <= q)%Qc -> penalty_close delta eh d (lasso_matrix d (opt bnds r (Fin q) x k))) ->
  exists W, graph_of g d name "learned" W (fun x => x <> 0%Qc /\ (w_threshold p <= Qcabs x)%Qc) /\
    allowed d may (fun i j => realq (W i j)) /\
    (forall V, allowed d may V -> dag d V -> (cost (fun i j => realq (W i j)) <= cost V + eps)%R) /\
    (w_threshold p = 0%Qc -> Digraph.acyclic (edges g) -> dag d (fun i j => realq (W i j))).
Proof.
  intros fuel opt eh X p t g beta eps delta Hm ND E Hb d n name may cost Op Cl. destruct (lasso_best_pandas fuel opt eh X p t g beta eps delta Hm ND E Hb Op Cl) as (W & G & A & B & D & _).
  exists W. auto.
Qed.
Print Assumptions C114_pandas_lasso.

(** DYNOTEARS: only the effects within the period [V 0] have to be without cycles. *)
Theorem C114_dynamic : forall fuel opt eh X Xlags par t g b lambda_w lambda_a eps delta, 0 < max_iter par -> learn_numpy_dynamic fuel opt eh X Xlags par t = Ok (g, b) ->
  (0 <= lambda_w)%R -> (0 <= lambda_a)%R ->
  let d := m_cols X in let p := m_cols Xlags / d in let n := List.length (m_rows X) in let may := open_lag t Z.of_nat in
  near_optimiser (2 * (p + 1) * (d * d)) (dyn_box d p may) (dyn_func n d p (data X) (data Xlags) lambda_w lambda_a) eps opt ->
  (forall bnds r q x k wa, (0 < r)%Qc -> (0 <= q)%Qc -> reshape_wa (opt bnds r (Fin q) x k) d p = Ok wa -> penalty_close delta eh d (fst wa)) ->
  exists E, dgraph_of g d p (fun i k => LStr (lag_name (dec i) k)) "unknown" E (fun x => x <> 0%Qc /\ (w_threshold par <= Qcabs x)%Qc) /\
    lag_allowed d p may (fun k i j => realq (E k i j)) /\
    (forall V, lag_allowed d p may V -> dag d (V 0) ->
       (dyn_cost X Xlags p lambda_w lambda_a (fun k i j => realq (E k i j)) <= dyn_cost X Xlags p lambda_w lambda_a V + eps)%R).
Proof.
  intros fuel opt eh X Xlags par t g b lw la eps delta Hm E Hw Ha d p n may Op Cl. destruct (dynamic_best fuel opt eh X Xlags par t g b lw la eps delta Hm E Hw Ha Op Cl) as (W & G & A & B & _).
  exists W. auto.
Qed.
Print Assumptions C114_dynamic.

(** ** C115: learning converges *)

(** [reachable m eps delta p]: sqrt (2 (m + eps) / 10^19) + delta <= h_tol and sqrt (2 (m + eps)) + delta <= 4^(max_iter - 1) h_tol.
    Then no convergence warning is given, and with a threshold as in C33 the result is acyclic. *)
Theorem C115_numpy : forall fuel opt eh X p t g b eps delta, 0 < max_iter p -> from_numpy fuel opt eh X p t = Ok g -> numpy_warns fuel opt eh X p t = Ok b ->
  let d := m_cols X in let n := List.length (m_rows X) in let may := open_edge t Z.of_nat in
  near_optimiser (d * d) (plain_box d may) (func n d (data X)) eps opt ->
  (forall bnds r q x k, (0 < r)%Qc -> (0 <= q)%Qc -> penalty_close delta eh d (opt bnds r (Fin q) x k)) ->
  reachable (half_mse n d (data X) (fun _ _ => 0%R)) eps delta p ->
  b = false /\ ((0 <= w_threshold p)%Qc -> excludes d (realq (w_threshold p)) (realq (h_tol p) + delta) -> Digraph.acyclic (edges g)).
Proof.
  intros fuel opt eh X p t g b eps delta Hm E Wn d n may Op Cl Re. destruct (plain_best fuel opt eh X p t g eps delta Hm E Op Cl) as (W & _ & _ & _ & _ & C).
  exact (C b Wn Re).
Qed.
Print Assumptions C115_numpy.

Theorem C115_pandas : forall fuel opt eh X p t g b eps delta, 0 < max_iter p -> NoDup (map fst (f_cols X)) -> notears_pandas fuel opt eh X p t = Ok g ->
  pandas_warns (fun M tz => numpy_warns fuel opt eh M p tz) X t = Ok b ->
  let d := List.length (f_cols X) in let n := List.length (f_rows X) in let name := fun i => nth i (map fst (f_cols X)) (LInt 0) in let may := open_edge t name in
  near_optimiser (d * d) (plain_box d may) (func n d (frame_data X)) eps opt ->
  (forall bnds r q x k, (0 < r)%Qc -> (0 <= q)%Qc -> penalty_close delta eh d (opt bnds r (Fin q) x k)) ->
  reachable (half_mse n d (frame_data X) (fun _ _ => 0%R)) eps delta p ->
  b = false /\ ((0 <= w_threshold p)%Qc -> excludes d (realq (w_threshold p)) (realq (h_tol p) + delta) -> Digraph.acyclic (edges g)).
Proof.
  intros fuel opt eh X p t g b eps delta Hm ND E Wn d n name may Op Cl Re. destruct (plain_best_pandas fuel opt eh X p t g eps delta Hm ND E Op Cl) as (W & _ & _ & _ & _ & C).
  exact (C b Wn Re).
Qed.
Print Assumptions C115_pandas.

Theorem C115_numpy_lasso : forall fuel opt eh X p t g b beta eps delta, 0 < max_iter p -> from_numpy_lasso fuel opt eh X p t = Ok g -> numpy_lasso_warns fuel opt eh X p t = Ok b -> (0 <= beta)%R ->
  let d := m_cols X in let n := List.length (m_rows X) in let may := open_edge t Z.of_nat in
  near_optimiser (2 * (d * d)) (lasso_box d may) (lasso_func n d (data X) beta) eps opt ->
  (forall bnds r q x k, (0 < r)%Qc -> (0 <= q)%Qc -> penalty_close delta eh d (lasso_matrix d (opt bnds r (Fin q) x k))) ->
  reachable (half_mse n d (data X) (fun _ _ => 0%R)) eps delta p ->
  b = false /\ ((0 <= w_threshold p)%Qc -> excludes d (realq (w_threshold p)) (realq (h_tol p) + delta) -> Digraph.acyclic (edges g)).
Proof.
  intros fuel opt eh X p t g b beta eps delta Hm E Wn Hb d n may Op Cl Re. destruct (lasso_best fuel opt eh X p t g beta eps delta Hm E Hb Op Cl) as (W & _ & _ & _ & _ & C).
  exact (C b Wn Re).
Qed.
Print Assumptions C115_numpy_lasso.

Theorem C115_pandas_lasso : forall fuel opt eh X p t g b beta eps delta, 0 < max_iter p -> NoDup (map fst (f_cols X)) -> notears_pandas_lasso fuel opt eh X p t = Ok g ->
  pandas_warns (fun M tz => numpy_lasso_warns fuel opt eh M p tz) X t = Ok b -> (0 <= beta)%R ->
  let d := List.length (f_cols X) in let n := List.length (f_rows X) in let name := fun i => nth i (map fst (f_cols X)) (LInt 0) in let may := open_edge t name in
  near_optimiser (2 * (d * d)) (lasso_box d may) (lasso_func n d (frame_data X) beta) eps opt ->
  (forall bnds r q x k, (0 < r)%Qc -> (0 <= q)%Qc -> penalty_close delta eh d (lasso_matrix d (opt bnds r (Fin q) x k))) ->
  reachable (half_mse n d (frame_data X) (fun _ _ => 0%R)) eps delta p ->
  b = false /\ ((0 <= w_threshold p)%Qc -> excludes d (realq (w_threshold p)) (realq (h_tol p) + delta) -> Digraph.acyclic (edges g)).
Proof.
  intros fuel opt eh X p t g b beta eps delta Hm ND E Wn Hb d n name may Op Cl Re. destruct (lasso_best_pandas fuel opt eh X p t g beta eps delta Hm ND E Hb Op Cl) as (W & _ & _ & _ & _ & C).
  exact (C b Wn Re).
Qed.
Print Assumptions C115_pandas_lasso.

Theorem C115_dynamic : forall fuel opt eh X Xlags par t g b lambda_w lambda_a eps delta, 0 < max_iter par -> learn_numpy_dynamic fuel opt eh X Xlags par t = Ok (g, b) ->
  (0 <= lambda_w)%R -> (0 <= lambda_a)%R ->
  let d := m_cols X in let p := m_cols Xlags / d in let n := List.length (m_rows X) in let may := open_lag t Z.of_nat in
  near_optimiser (2 * (p + 1) * (d * d)) (dyn_box d p may) (dyn_func n d p (data X) (data Xlags) lambda_w lambda_a) eps opt ->
  (forall bnds r q x k wa, (0 < r)%Qc -> (0 <= q)%Qc -> reshape_wa (opt bnds r (Fin q) x k) d p = Ok wa -> penalty_close delta eh d (fst wa)) ->
  reachable (half_mse n d (data X) (fun _ _ => 0%R)) eps delta par ->
  b = false /\ ((0 <= w_threshold par)%Qc -> excludes d (realq (w_threshold par)) (realq (h_tol par) + delta) -> Digraph.acyclic (edges g)).
Proof.
  intros fuel opt eh X Xlags par t g b lw la eps delta Hm E Hw Ha d p n may Op Cl Re. destruct (dynamic_best fuel opt eh X Xlags par t g b lw la eps delta Hm E Hw Ha Op Cl) as (W & _ & _ & _ & C).
  exact (C Re).
Qed.
Print Assumptions C115_dynamic.

(** The defaults (100 iterations, tolerance 1e-8) suffice for data whose half mean square and [eps] add up to at most
    450, for instance for up to 900 standardised variables. *)
Theorem C115_defaults : forall m eps delta t, (0 <= m + eps <= 450)%R -> (delta <= 5 / 10 ^ 10)%R -> reachable m eps delta (mkParams 100 (Q2Qc (1 # 100000000)) t).
Proof.
  intros m eps delta t Hm Hd. assert (Et : realq (Q2Qc (1 # 100000000)) = (1 / 10 ^ 8)%R) by (unfold realq, Q2R; cbn; lra).
  assert (S : forall x y, (0 <= x)%R -> (0 <= y)%R -> (x <= y ^ 2)%R -> (sqrt x <= y)%R).
  { intros x y Hx Hy H. rewrite <- (sqrt_pow2 y Hy). apply sqrt_le_1; auto. apply pow2_ge_0. }
  unfold reachable. cbn [h_tol max_iter]. rewrite Et. split.
  - assert (A : (sqrt (2 * (m + eps) / 10 ^ 19) <= 949 / 10 ^ 11)%R) by (apply S; cbn [pow]; lra). cbn [pow] in *. lra.
  - assert (A : (sqrt (2 * (m + eps)) <= 30)%R) by (apply S; lra).
    replace (100 - 1) with (20 + 79) by lia. rewrite pow_add. assert (B : (1 <= 4 ^ 79)%R) by (apply pow_R1_Rle; lra).
    assert (C : (4 ^ 20 * 1 <= 4 ^ 20 * 4 ^ 79)%R) by (apply Rmult_le_compat_l; [apply pow_le; lra|exact B]).
    assert (D : (31 <= 4 ^ 20 * (1 / 10 ^ 8))%R) by (cbn [pow]; lra).
    assert (F : (4 ^ 20 * 1 * (1 / 10 ^ 8) <= 4 ^ 20 * 4 ^ 79 * (1 / 10 ^ 8))%R) by (apply Rmult_le_compat_r; [cbn [pow]; lra|exact C]).
    rewrite Rmult_1_r in F. cbn [pow] in Hd. lra.
Qed.
Print Assumptions C115_defaults.

(** ** Examples *)

(** Exact optimisers are near. *)
Lemma exact_near size box F opt : exact_optimiser size box F opt -> near_optimiser size box F 0 opt.
Proof.
  intros H bnds Hb r q x k _ _ w. destruct (H bnds Hb r q x k) as [L [M1 M2]]. split; [exact L|]. split; [exact M1|]. intros v Hv. rewrite Rplus_0_r. apply M2. exact Hv.
Qed.

(** Three variables with x1 = 2 x0 and x2 orthogonal to both; only the edge from 1 to 0 is banned, so that the cycle
    0 -> 1 -> 2 -> 0 is allowed. *)
Definition best_X : mat := mkMat 3 [[Fin 1; Fin (Q2Qc 2); Fin 0]; [Fin (Q2Qc 2); Fin (Q2Qc 4); Fin 0]; [Fin 0; Fin 0; Fin 1]]%Qc.
Definition best_w : list Qc := [0; Q2Qc 2; 0; 0; 0; 0; 0; 0; 0]%Qc.
Definition best_opt : optimiser := fun _ _ _ _ _ => best_w.
Definition best_par (threshold : Qc) : params := mkParams 100 (Q2Qc (1 # 100000000)) threshold.

Lemma best_dag : dag 3 (plain_weights 3 (vec best_w)).
Proof.
  intros i C. assert (Q : forall a b, clos_trans nat (medge 3 (plain_weights 3 (vec best_w))) a b -> a < b).
  { induction 1 as [x y (Hx & Hy & N)|]; [|lia]. destruct x as [|[|[|x]]], y as [|[|[|y]]]; try lia; exfalso; apply N; unfold plain_weights, vec; cbn; apply realq_0. }
  apply Q in C. lia.
Qed.

Lemma best_near : near_optimiser (3 * 3) (plain_box 3 (open_edge fit_t Z.of_nat)) (func 3 3 (data best_X)) 0 best_opt.
Proof.
  intros bnds Hb r q x k Hr Hq w. split; [reflexivity|]. split.
  - intros p Hp. apply Hb; auto. intros i j Hi Hj -> N. unfold w, best_opt, vec.
    destruct i as [|[|[|i]]], j as [|[|[|j]]]; try lia; cbn; try apply realq_0. exfalso. apply N. split; [lia|]. intros B.
    assert (okb fit_t 0 1 = true) as O by reflexivity. apply okb_open in O. apply (proj2 O). exact B.
  - intros v Hv. rewrite !(C73_objective _ _ _ _ _ _ _ (h_fun_penalty 3 _)). unfold lagrangian.
    assert (H0 : h_fun 3 (plain_weights 3 (vec w)) = 0%R) by (apply dag_h; exact best_dag). rewrite H0.
    pose proof (h_nonneg 3 (plain_weights 3 v)) as Hh. apply Qlt_Rlt in Hr. change (realq 0 < realq r)%R in Hr. rewrite realq_0 in Hr. apply realq_nonneg in Hq.
    assert (T1 : (0 <= realq r / 2 * h_fun 3 (plain_weights 3 v) ^ 2)%R) by (apply Rmult_le_pos; [lra|apply pow2_ge_0]).
    assert (T2 : (0 <= realq q * h_fun 3 (plain_weights 3 v))%R) by (apply Rmult_le_pos; auto).
    assert (Z : forall i j, i < 3 -> j < 3 -> i = j \/ (i = 1 /\ j = 0) -> plain_weights 3 v i j = 0%R).
    { intros i j Hi Hj C. assert (Hq' : i * 3 + j < 3 * 3) by lia. specialize (Hv _ Hq'). apply Hb in Hv; auto. apply (Hv i j); auto.
      intros O. apply okb_open in O. destruct C as [->|[-> ->]]; [|vm_compute in O; discriminate]. unfold okb, bnd in O. rewrite Nat.eqb_refl in O. discriminate. }
    pose proof (Z 0 0 ltac:(lia) ltac:(lia) (or_introl eq_refl)) as Z00. pose proof (Z 1 1 ltac:(lia) ltac:(lia) (or_introl eq_refl)) as Z11. pose proof (Z 2 2 ltac:(lia) ltac:(lia) (or_introl eq_refl)) as Z22.
    pose proof (Z 1 0 ltac:(lia) ltac:(lia) (or_intror (conj eq_refl eq_refl))) as Z10.
    assert (Ew : half_mse 3 3 (data best_X) (linear 3 (data best_X) (plain_weights 3 (vec w))) = 1%R).
    { unfold half_mse, linear, plain_weights, vec, w, best_opt, best_w, data, best_X. cbn [total m_rows nth Nat.mul Nat.add INR]. rewrite ?realq_0, ?realq_1, ?realq_2, ?realq_4. lra. }
    assert (Ev : (1 <= half_mse 3 3 (data best_X) (linear 3 (data best_X) (plain_weights 3 v)))%R).
    { unfold half_mse, linear, data, best_X. cbn [total m_rows nth INR]. rewrite ?realq_0, ?realq_1, ?realq_2, ?realq_4, Z00, Z11, Z22, Z10.
      set (a := plain_weights 3 v 0 1). set (b := plain_weights 3 v 0 2). set (c := plain_weights 3 v 1 2). set (e := plain_weights 3 v 2 0). set (f := plain_weights 3 v 2 1).
      clearbody a b c e f. pose proof (pow2_ge_0 (2 - a)). pose proof (pow2_ge_0 (4 - 2 * a)). pose proof (pow2_ge_0 f). pose proof (pow2_ge_0 e). pose proof (pow2_ge_0 (b + 2 * c)). nra. }
    rewrite Ew. lra.
Qed.

Lemma best_close bnds r q x k : penalty_close 0 (fun _ _ => Fin 0%Qc) 3 (best_opt bnds r (Fin q) x k).
Proof.
  split; [|intros h [= <-]; apply Qcle_refl]. exists 0%Qc. split; [reflexivity|]. intros h P. rewrite realq_0.
  rewrite (proj2 (exp_penalty_zero _ _ _ P)); [rewrite Rminus_0_r, Rabs_R0; lra|exact best_dag].
Qed.

Example C114_numpy_met : ~ no_loop 3 (open_edge fit_t Z.of_nat) /\
  near_optimiser (3 * 3) (plain_box 3 (open_edge fit_t Z.of_nat)) (func 3 3 (data best_X)) 0 best_opt /\
  (forall bnds r q x k, (0 < r)%Qc -> (0 <= q)%Qc -> penalty_close 0 (fun _ _ => Fin 0%Qc) 3 (best_opt bnds r (Fin q) x k)) /\
  exists g, from_numpy 21 best_opt (fun _ _ => Fin 0%Qc) best_X (best_par 0) fit_t = Ok g /\ edges g = [(LInt 0, LInt 1)].
Proof.
  split.
  { intros H. apply (H 0). assert (O : forall a b, okb fit_t a b = true -> a < 3 -> b < 3 -> clos_trans nat (fun a b => a < 3 /\ b < 3 /\ open_edge fit_t Z.of_nat a b) a b).
    { intros a b O Ha Hb. apply t_step. split; [exact Ha|]. split; [exact Hb|]. apply okb_open. exact O. }
    apply t_trans with 1; [apply O; auto|]. apply t_trans with 2; [apply O; auto|]. apply O; auto. }
  split; [exact best_near|]. split; [intros; apply best_close|]. eexists. split; vm_compute; reflexivity.
Qed.

Example C115_numpy_met : reachable (half_mse 3 3 (data best_X) (fun _ _ => 0%R)) 0 0 (best_par (Q2Qc (1 # 10))) /\
  excludes 3 (realq (w_threshold (best_par (Q2Qc (1 # 10))))) (realq (h_tol (best_par (Q2Qc (1 # 10)))) + 0) /\
  numpy_warns 21 best_opt (fun _ _ => Fin 0%Qc) best_X (best_par (Q2Qc (1 # 10))) fit_t = Ok false /\
  exists g, from_numpy 21 best_opt (fun _ _ => Fin 0%Qc) best_X (best_par (Q2Qc (1 # 10))) fit_t = Ok g /\ edges g = [(LInt 0, LInt 1)].
Proof.
  split.
  { apply C115_defaults; [|cbn [pow]; lra]. unfold half_mse, data, best_X. cbn [total m_rows nth INR]. rewrite ?realq_0, ?realq_1, ?realq_2, ?realq_4. split; lra. }
  split. { intros L HL. unfold realq, Q2R. cbn. assert (L = 1 \/ L = 2 \/ L = 3) as [-> |[-> | ->]] by lia; cbn; lra. }
  split; [vm_compute; reflexivity|]. eexists. split; vm_compute; reflexivity.
Qed.

(** The optimisers of C112 for the lasso and for DYNOTEARS, and the data frame of C112 *)
Example C114_more_met : near_optimiser (2 * (2 * 2)) (lasso_box 2 (open_edge fit_t Z.of_nat)) (lasso_func 2 2 (data fit_X) 1) 0 lasso_opt /\
  near_optimiser (2 * (1 + 1) * (1 * 1)) (dyn_box 1 1 (open_lag ser_t Z.of_nat)) (dyn_func 2 1 1 (data ser_X) (data ser_lags) 0 1) 0 ser_opt /\
  near_optimiser (2 * 2) (plain_box 2 (open_edge fit_names fit_name)) (func 2 2 (frame_data fit_frame)) 0 fit_opt /\
  exists g, learn_numpy_dynamic 21 ser_opt (fun _ _ => Fin 0%Qc) ser_X ser_lags fit_par ser_t = Ok (g, false) /\ edges g = [(LStr "0_lag1", LStr "0_lag0")].
Proof.
  split; [apply exact_near, lasso_exact|]. split; [apply exact_near, ser_exact|]. split; [apply exact_near, C112_pandas_met|]. eexists. split; vm_compute; reflexivity.
Qed.
