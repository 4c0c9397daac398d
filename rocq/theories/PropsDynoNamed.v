(** * PropsDynoNamed: C112, C114 and C115 for DYNOTEARS on time series given as data frames. *)
From Coq Require Import List Bool Arith ZArith Lia String QArith Qcanon Qreals Reals Lra Relations.
From Coquelicot Require Import Coquelicot.
From Verif Require Import Base Names QcX Digraph SmModel SmProofs NotearsModel NotearsProofs NotearsThms TransModel MapperModel DynoModel DynoProofs DynoThms AcycModel AcycProofs AcycThms AcycLink DynoLoss.
From Verif Require Import ObjModel ObjProofs ObjGrad ObjLasso PropsObj ObjUnits PropsObjMore ObjFit FitLink FitDyno OrdProofs FitBound FitBest FitBestDyno FirstAnswer AscentApi DynoNamed PropsRegress PropsBest.
Import ListNotations.
Local Open Scope string_scope.
Local Open Scope list_scope.
Local Open Scope nat_scope.

(** The series [l] have the lagged data [X] and [Xlags]; bans and effects go by the names of the variables. *)
Theorem C112_pandas_dynamic : forall fuel opt eh l p par t g X Xlags lambda_w lambda_a, 0 < max_iter par -> NoDup (variables l) -> lagged_data l p X Xlags ->
  from_pandas_dynamic fuel opt eh l p par t = Ok g -> (0 <= lambda_w)%R -> (0 <= lambda_a)%R ->
  let d := List.length (variables l) in let n := List.length (m_rows X) in let name := fun i => nth i (variables l) "" in let may := open_lag t name in
  (forall w, is_finite (eh d w) = true) -> no_loop d (may 0) ->
  exact_optimiser (2 * (p + 1) * (d * d)) (dyn_box d p may) (dyn_func n d p (data X) (data Xlags) lambda_w lambda_a) opt ->
  exists E, dgraph_of g d p (fun i k => LStr (lag_name (name i) k)) "learned" E (fun x => x <> 0%Qc /\ (w_threshold par <= Qcabs x)%Qc) /\
    (forall k i j, k <= p -> i < d -> j < d -> ~ may k i j -> E k i j = 0%Qc) /\
    (forall k i j, k <= p -> i < d -> j < d -> may k i j ->
       optimal_weight (if k =? 0 then lambda_w else lambda_a)
         (total n (fun r => lagged X Xlags k r i * unexplained X Xlags p (fun k i j => realq (E k i j)) r j)%R / INR n) (realq (E k i j))).
Proof. intros fuel opt eh l p par t g X Xlags lw la Hm ND Dt H Hw Ha. exact (series_learned fuel opt eh l p par t X Xlags Hm ND Dt g lw la H Hw Ha). Qed.
Print Assumptions C112_pandas_dynamic.

Theorem C114_pandas_dynamic : forall fuel opt eh l p par t g b X Xlags lambda_w lambda_a eps delta, 0 < max_iter par -> NoDup (variables l) -> lagged_data l p X Xlags ->
  learn_pandas_dynamic fuel opt eh l p par t = Ok (g, b) -> (0 <= lambda_w)%R -> (0 <= lambda_a)%R ->
  let d := List.length (variables l) in let n := List.length (m_rows X) in let name := fun i => nth i (variables l) "" in let may := open_lag t name in
  near_optimiser (2 * (p + 1) * (d * d)) (dyn_box d p may) (dyn_func n d p (data X) (data Xlags) lambda_w lambda_a) eps opt ->
  (forall bnds r q x k wa, (0 < r)%Qc -> (0 <= q)%Qc -> reshape_wa (opt bnds r (Fin q) x k) d p = Ok wa -> penalty_close delta eh d (fst wa)) ->
  exists E, dgraph_of g d p (fun i k => LStr (lag_name (name i) k)) "learned" E (fun x => x <> 0%Qc /\ (w_threshold par <= Qcabs x)%Qc) /\
    lag_allowed d p may (fun k i j => realq (E k i j)) /\
    (forall V, lag_allowed d p may V -> dag d (V 0) ->
       (dyn_cost X Xlags p lambda_w lambda_a (fun k i j => realq (E k i j)) <= dyn_cost X Xlags p lambda_w lambda_a V + eps)%R).
Proof.
  intros fuel opt eh l p par t g b X Xlags lw la eps delta Hm ND Dt H Hw Ha d n name may Op Cl.
  destruct (series_best fuel opt eh l p par t X Xlags Hm ND Dt g b lw la eps delta H Hw Ha Op Cl) as (E & G & A & B & _). exists E. auto.
Qed.
Print Assumptions C114_pandas_dynamic.

Theorem C115_pandas_dynamic : forall fuel opt eh l p par t g b X Xlags lambda_w lambda_a eps delta, 0 < max_iter par -> NoDup (variables l) -> lagged_data l p X Xlags ->
  learn_pandas_dynamic fuel opt eh l p par t = Ok (g, b) -> (0 <= lambda_w)%R -> (0 <= lambda_a)%R ->
  let d := List.length (variables l) in let n := List.length (m_rows X) in let may := open_lag t (fun i => nth i (variables l) "") in
  near_optimiser (2 * (p + 1) * (d * d)) (dyn_box d p may) (dyn_func n d p (data X) (data Xlags) lambda_w lambda_a) eps opt ->
  (forall bnds r q x k wa, (0 < r)%Qc -> (0 <= q)%Qc -> reshape_wa (opt bnds r (Fin q) x k) d p = Ok wa -> penalty_close delta eh d (fst wa)) ->
  reachable (half_mse n d (data X) (fun _ _ => 0%R)) eps delta par ->
  b = false /\ ((0 <= w_threshold par)%Qc -> excludes d (realq (w_threshold par)) (realq (h_tol par) + delta) -> Digraph.acyclic (edges g)).
Proof.
  intros fuel opt eh l p par t g b X Xlags lw la eps delta Hm ND Dt H Hw Ha d n may Op Cl Re.
  destruct (series_best fuel opt eh l p par t X Xlags Hm ND Dt g b lw la eps delta H Hw Ha Op Cl) as (E & _ & _ & _ & C). exact (C Re).
Qed.
Print Assumptions C115_pandas_dynamic.

(** ** Examples: one series 1, 2, 4, whose lagged data are those of the example of C112 *)
Definition sales : series := mkSeries [("sales", DFloat)] true [(1%Z, [1%Qc]); (2%Z, [Q2Qc 2]); (3%Z, [Q2Qc 4])].
Definition no_bans : dtabu string := mkDtabu None None None.
Lemma sales_data : lagged_data [sales] 1 ser_X ser_lags.
Proof. do 2 eexists. split; [vm_compute; reflexivity|]. split; vm_compute; reflexivity. Qed.

Lemma sales_open k i j : open_lag no_bans (fun i => nth i ["sales"] "") k i j <-> open_lag ser_t Z.of_nat k i j.
Proof.
  unfold open_lag. split; intros [N _]; (split; [exact N|]); intros [(l & [=] & _)|[(l & [=] & _)|(l & [=] & _)]].
Qed.

Example C112_pandas_dynamic_met : lagged_data [sales] 1 ser_X ser_lags /\ no_loop 1 (open_lag no_bans (fun i => nth i ["sales"] "") 0) /\
  exact_optimiser (2 * (1 + 1) * (1 * 1)) (dyn_box 1 1 (open_lag no_bans (fun i => nth i ["sales"] ""))) (dyn_func 2 1 1 (data ser_X) (data ser_lags) 0 1) ser_opt /\
  exists g, from_pandas_dynamic 21 ser_opt (fun _ _ => Fin 0%Qc) [sales] 1 fit_par no_bans = Ok g /\ edges g = [(LStr "sales_lag1", LStr "sales_lag0")].
Proof.
  destruct C112_dynamic_met as (NL & Ex & _). split; [exact sales_data|]. split; [|split].
  - eapply no_loop_ext; [|exact NL]. intros i j _ _. symmetry. apply sales_open.
  - eapply exact_ext; [|exact Ex]. intros q x _. apply dyn_box_ext. intros. symmetry. apply sales_open.
  - eexists. split; vm_compute; reflexivity.
Qed.

Example C115_pandas_dynamic_met :
  near_optimiser (2 * (1 + 1) * (1 * 1)) (dyn_box 1 1 (open_lag no_bans (fun i => nth i ["sales"] ""))) (dyn_func 2 1 1 (data ser_X) (data ser_lags) 0 1) 0 ser_opt /\
  (forall bnds r q x k wa, (0 < r)%Qc -> (0 <= q)%Qc -> reshape_wa (ser_opt bnds r (Fin q) x k) 1 1 = Ok wa -> penalty_close 0 (fun _ _ => Fin 0%Qc) 1 (fst wa)) /\
  reachable (half_mse 2 1 (data ser_X) (fun _ _ => 0%R)) 0 0 (best_par (Q2Qc (1 # 10))) /\
  excludes 1 (realq (w_threshold (best_par (Q2Qc (1 # 10))))) (realq (h_tol (best_par (Q2Qc (1 # 10)))) + 0) /\
  exists g, learn_pandas_dynamic 21 ser_opt (fun _ _ => Fin 0%Qc) [sales] 1 (best_par (Q2Qc (1 # 10))) no_bans = Ok (g, false) /\ edges g = [(LStr "sales_lag1", LStr "sales_lag0")].
Proof.
  split; [apply exact_near, C112_pandas_dynamic_met|]. split; [|split; [|split]].
  - intros bnds r q x k wa _ _ Ew. vm_compute in Ew. injection Ew as <-. cbn [fst]. split; [|intros h [= <-]; apply Qcle_refl].
    exists 0%Qc. split; [reflexivity|]. intros h P. rewrite realq_0. rewrite (proj2 (exp_penalty_zero _ _ _ P)); [rewrite Rminus_0_r, Rabs_R0; lra|].
    intros i C. assert (Q : forall a b, clos_trans nat (medge 1 (plain_weights 1 (vec [0%Qc]))) a b -> a < b).
    { induction 1 as [u v (Hu & Hv & N)|]; [|lia]. destruct u as [|u], v as [|v]; try lia. exfalso. apply N. unfold plain_weights, vec. cbn. apply realq_0. }
    apply Q in C. lia.
  - apply C115_defaults; [|cbn [pow]; lra]. unfold half_mse, data, ser_X. cbn [total m_rows nth INR]. rewrite ?realq_0, ?realq_1, ?realq_2, ?realq_4. split; lra.
  - intros L HL. unfold realq, Q2R. cbn. assert (L = 1) as -> by lia. cbn. lra.
  - eexists. split; vm_compute; reflexivity.
Qed.
