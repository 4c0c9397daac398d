(** * PropsAscent: property C123, the structure learners run the augmented Lagrangian method. *)
From Coq Require Import List Bool Arith ZArith Lia String QArith Qcanon Reals.
From Coquelicot Require Import Coquelicot.
From Verif Require Import Base Names QcX Digraph SmModel SmProofs NotearsModel NotearsProofs NotearsThms TransModel MapperModel DynoModel DynoProofs DynoThms AcycLink.
From Verif Require Import FitLink FitDyno FirstAnswer AscentSpec AscentRun AscentApi.
From Verif Require TorchModel TorchResult TorchExact PropsNotears PropsTorch PropsDyno PropsTrans PropsFirst.
Import ListNotations.
Local Open Scope string_scope.
Local Open Scope list_scope.
Local Open Scope nat_scope.

(** NOTEARS on an array: the method of AscentSpec.v with tolerance [h_tol], weights below 1e20 and [max_iter] iterations, from
    zeros; the optimiser [opt] solves the subproblems with the bounds [bs], which say which edges may be learned.  The result is
    its last answer without the small weights, and the warning is given exactly when the method has not converged. *)
Theorem C123_numpy : forall fuel opt eh X p t g b, 0 < max_iter p -> (0 <= h_tol p)%Qc -> from_numpy fuel opt eh X p t = Ok g -> numpy_warns fuel opt eh X p t = Ok b ->
  let d := m_cols X in let P := fun w x => eh d w = Fin x in exists bs, plain_question d (open_edge t Z.of_nat) bs /\ (finite_answers opt bs P ->
    exists w v, runs opt bs P (h_tol p) (Qcpower (Q2Qc 10) 20) (max_iter p) (repeat 0%Qc (d * d)) w v /\
      graph_of g d (fun i => LInt (Z.of_nat i)) "unknown" (fun i j => nth (i * d + j) w 0%Qc) (fun x => x <> 0%Qc /\ (w_threshold p < Qcabs x)%Qc) /\ (b = true <-> v <> Converged)).
Proof. exact run_numpy. Qed.
Print Assumptions C123_numpy.

Theorem C123_pandas : forall fuel opt eh X p t g b, 0 < max_iter p -> (0 <= h_tol p)%Qc -> NoDup (map fst (f_cols X)) -> notears_pandas fuel opt eh X p t = Ok g ->
  pandas_warns (fun M tz => numpy_warns fuel opt eh M p tz) X t = Ok b ->
  let d := List.length (f_cols X) in let name := fun i => nth i (map fst (f_cols X)) (LInt 0) in let P := fun w x => eh d w = Fin x in
  exists bs, plain_question d (open_edge t name) bs /\ (finite_answers opt bs P ->
    exists w v, runs opt bs P (h_tol p) (Qcpower (Q2Qc 10) 20) (max_iter p) (repeat 0%Qc (d * d)) w v /\
      graph_of g d name "learned" (fun i j => nth (i * d + j) w 0%Qc) (fun x => x <> 0%Qc /\ (w_threshold p < Qcabs x)%Qc) /\ (b = true <-> v <> Converged)).
Proof. exact run_pandas. Qed.
Print Assumptions C123_pandas.

(** With lasso the vector has the positive parts of the weights followed by the negative parts. *)
Theorem C123_numpy_lasso : forall fuel opt eh X p t g b, 0 < max_iter p -> (0 <= h_tol p)%Qc -> from_numpy_lasso fuel opt eh X p t = Ok g -> numpy_lasso_warns fuel opt eh X p t = Ok b ->
  let d := m_cols X in let P := fun w x => eh d (lasso_matrix d w) = Fin x in exists bs, lasso_question d (open_edge t Z.of_nat) bs /\ (finite_answers opt bs P ->
    exists w v, runs opt bs P (h_tol p) (Qcpower (Q2Qc 10) 20) (max_iter p) (repeat 0%Qc (2 * (d * d))) w v /\
      graph_of g d (fun i => LInt (Z.of_nat i)) "unknown" (fun i j => nth (i * d + j) w 0 - nth (d * d + (i * d + j)) w 0)%Qc
        (fun x => x <> 0%Qc /\ (w_threshold p <= Qcabs x)%Qc) /\ (b = true <-> v <> Converged)).
Proof. exact run_lasso. Qed.
Print Assumptions C123_numpy_lasso.

Theorem C123_pandas_lasso : forall fuel opt eh X p t g b, 0 < max_iter p -> (0 <= h_tol p)%Qc -> NoDup (map fst (f_cols X)) -> notears_pandas_lasso fuel opt eh X p t = Ok g ->
  pandas_warns (fun M tz => numpy_lasso_warns fuel opt eh M p tz) X t = Ok b ->
  let d := List.length (f_cols X) in let name := fun i => nth i (map fst (f_cols X)) (LInt 0) in let P := fun w x => eh d (lasso_matrix d w) = Fin x in
  exists bs, lasso_question d (open_edge t name) bs /\ (finite_answers opt bs P ->
    exists w v, runs opt bs P (h_tol p) (Qcpower (Q2Qc 10) 20) (max_iter p) (repeat 0%Qc (2 * (d * d))) w v /\
      graph_of g d name "learned" (fun i j => nth (i * d + j) w 0 - nth (d * d + (i * d + j)) w 0)%Qc
        (fun x => x <> 0%Qc /\ (w_threshold p <= Qcabs x)%Qc) /\ (b = true <-> v <> Converged)).
Proof. exact run_pandas_lasso. Qed.
Print Assumptions C123_pandas_lasso.

(** DYNOTEARS: the penalty is that of the effects within the period. *)
Theorem C123_dynamic : forall fuel opt eh X Xlags par t g b, 0 < max_iter par -> (0 <= h_tol par)%Qc -> learn_numpy_dynamic fuel opt eh X Xlags par t = Ok (g, b) ->
  let d := m_cols X in let p := m_cols Xlags / d in let P := fun v x => exists wa, reshape_wa v d p = Ok wa /\ eh d (fst wa) = Fin x in
  exists bs, dyn_question d p (open_lag t Z.of_nat) bs /\ (finite_answers opt bs P ->
    exists w v, runs opt bs P (h_tol par) (Qcpower (Q2Qc 10) 20) (max_iter par) (repeat 0%Qc (2 * (p + 1) * (d * d))) w v /\
      dgraph_of g d p (fun i k => LStr (lag_name (dec i) k)) "unknown" (effect d w) (fun x => x <> 0%Qc /\ (w_threshold par <= Qcabs x)%Qc) /\ (b = true <-> v <> Converged)).
Proof. exact run_dynamic. Qed.
Print Assumptions C123_dynamic.

Theorem C123_pandas_dynamic : forall fuel opt eh l p par t g b, 0 < max_iter par -> (0 <= h_tol par)%Qc -> NoDup (variables l) -> learn_pandas_dynamic fuel opt eh l p par t = Ok (g, b) ->
  let d := List.length (variables l) in let name := fun i => nth i (variables l) "" in let P := fun v x => exists wa, reshape_wa v d p = Ok wa /\ eh d (fst wa) = Fin x in
  exists bs, dyn_question d p (open_lag t name) bs /\ (finite_answers opt bs P ->
    exists w v, runs opt bs P (h_tol par) (Qcpower (Q2Qc 10) 20) (max_iter par) (repeat 0%Qc (2 * (p + 1) * (d * d))) w v /\
      dgraph_of g d p (fun i k => LStr (lag_name (name i) k)) "learned" (effect d w) (fun x => x <> 0%Qc /\ (w_threshold par <= Qcabs x)%Qc) /\ (b = true <-> v <> Converged)).
Proof. exact run_pandas_dynamic. Qed.
Print Assumptions C123_pandas_dynamic.

(** The first answer decides when it is acyclic enough, as in PropsFirst.v, here for time series as data frames. *)
Theorem C118_pandas_dynamic : forall fuel opt eh l p par t g b, 0 < max_iter par -> NoDup (variables l) -> learn_pandas_dynamic fuel opt eh l p par t = Ok (g, b) ->
  let d := List.length (variables l) in let name := fun i => nth i (variables l) "" in exists bs, dyn_question d p (open_lag t name) bs /\
    let v := opt bs 1%Qc (Fin 0%Qc) (repeat 0%Qc (2 * (p + 1) * (d * d))) 0 in
    forall wa x, reshape_wa v d p = Ok wa -> eh d (fst wa) = Fin x -> (x <= h_tol par)%Qc \/ max_iter par = 1 ->
      dgraph_of g d p (fun i k => LStr (lag_name (name i) k)) "learned" (effect d v) (fun x => x <> 0%Qc /\ (w_threshold par <= Qcabs x)%Qc) /\
      (b = true <-> (h_tol par < x)%Qc).
Proof. exact first_pandas_dynamic. Qed.
Print Assumptions C118_pandas_dynamic.

(** The torch version: tolerance 1e-8 and weights below 1e16.  It does not warn when the weight reaches its limit. *)
Theorem C123_torch : forall fuel opt eh act grad rnd X schema p t l, 0 < TorchModel.tp_max_iter p -> TorchModel.torch_numpy fuel opt eh act grad rnd X schema p t = Ok l ->
  let d := nth 0 (TorchModel.l_dims l) 0 in let m := nth 1 (TorchModel.l_dims l) 0 in
  let P := fun v x => eh (TorchModel.h_size (TorchModel.l_dtypes l)) (TorchModel.h_matrix (TorchModel.l_dtypes l) d m v) = Fin x in
  exists bs, TorchExact.torch_asks X schema p t l bs /\ (finite_answers opt bs P ->
    exists v, runs opt bs P (Q2Qc (1 # 100000000)) (Qcpower (Q2Qc 10) 16) (TorchModel.tp_max_iter p)
                (repeat 0%Qc (d * m * d + (if TorchModel.tp_bias p then d * m else 0)) ++ rnd) (TorchModel.l_params l) v /\
      (TorchModel.l_warned l = true <-> v = OutOfIterations)).
Proof. exact run_torch. Qed.
Print Assumptions C123_torch.

(** The method has one outcome, so the theorems above determine the result. *)
Theorem C123_one_outcome : forall opt bs (P : list Qc -> Qc -> Prop) tol limit n from o v o' v', (forall w x y, P w x -> P w y -> x = y) ->
  runs opt bs P tol limit n from o v -> runs opt bs P tol limit n from o' v' -> o = o' /\ v = v'.
Proof. exact runs_det. Qed.
Print Assumptions C123_one_outcome.

(** ** Examples *)

(** The answer has penalty 1 / weight, at position (0, 1), and shows the multiplier at position (1, 0).  With tolerance 1/1000 the
    weights are 1; 1, 10; 10, 100; 100, 1000, and the multipliers 0, 1, 2, 3 in the four rounds. *)
Definition inv_opt : optimiser := fun _ r a _ _ => [0; / r; match a with Fin q => q | _ => 0 end; 0]%Qc.
Definition inv_eh : penalty := fun _ w => Fin (nth 1 w 0%Qc).
Definition inv_par (n : nat) : params := mkParams n (Q2Qc (1 # 1000)) 0%Qc.
Definition weight_to (g : graph) (u v : label) : option aval := match edge_attrs g u v with Some a => aget a "weight" | None => None end.
Example C123_met :
  (forall bs, finite_answers inv_opt bs (fun w x => inv_eh 2 w = Fin x)) /\
  (exists g, from_numpy 21 inv_opt inv_eh PropsFirst.two_X (inv_par 100) (mkTabu None None None) = Ok g /\
     weight_to g (LInt 0) (LInt 1) = Some (ANum (Q2Qc (1 # 1000))) /\ weight_to g (LInt 1) (LInt 0) = Some (ANum (Q2Qc 3))) /\
  numpy_warns 21 inv_opt inv_eh PropsFirst.two_X (inv_par 100) (mkTabu None None None) = Ok false /\
  (exists g, from_numpy 21 inv_opt inv_eh PropsFirst.two_X (inv_par 3) (mkTabu None None None) = Ok g /\
     weight_to g (LInt 0) (LInt 1) = Some (ANum (Q2Qc (1 # 100))) /\ weight_to g (LInt 1) (LInt 0) = Some (ANum (Q2Qc 2))) /\
  numpy_warns 21 inv_opt inv_eh PropsFirst.two_X (inv_par 3) (mkTabu None None None) = Ok true.
Proof.
  split; [intros bs r q s k; eexists; reflexivity|]. split; [eexists; split; [vm_compute; reflexivity|split; vm_compute; reflexivity]|]. split; [vm_compute; reflexivity|].
  split; [eexists; split; [vm_compute; reflexivity|split; vm_compute; reflexivity]|vm_compute; reflexivity].
Qed.

(** The torch version, where the penalty is 1 / weight^2: after three iterations the multiplier is 1 + 10 / 100.  With a
    penalty that never falls the weight reaches its limit. *)
Definition inv_teh : TorchModel.tpenalty := fun _ A => Fin (A 1 0).
Definition inv_tpar : TorchModel.tparams := TorchModel.mkTp None false None 3.
Example C123_torch_met :
  (exists l, TorchModel.torch_numpy 17 inv_opt inv_teh PropsTorch.ex_act PropsTorch.ex_grad [] PropsFirst.two_X None inv_tpar (mkTabu None None None) = Ok l /\
     TorchModel.l_warned l = true /\ nth 2 (TorchModel.l_params l) 0%Qc = Q2Qc (11 # 10)) /\
  (exists l, TorchModel.torch_numpy 17 inv_opt (fun _ _ => Fin 1%Qc) PropsTorch.ex_act PropsTorch.ex_grad [] PropsFirst.two_X None inv_tpar (mkTabu None None None) = Ok l /\
     TorchModel.l_warned l = false /\ nth 2 (TorchModel.l_params l) 0%Qc = 1%Qc).
Proof.
  split; eexists; (split; [vm_compute; reflexivity|split; vm_compute; reflexivity]).
Qed.

Example C118_pandas_dynamic_met : exists g, learn_pandas_dynamic 21 PropsDyno.ex_dopt33 PropsFirst.two_eh [PropsTrans.s1; PropsTrans.s2] 1 (mkParams 3 (Q2Qc (1 # 1000)) 0%Qc) (mkDtabu None None None) = Ok (g, false) /\
  edges g = [(LStr "u_lag1", LStr "u_lag0"); (LStr "v_lag0", LStr "u_lag0"); (LStr "v_lag1", LStr "v_lag0")].
Proof. eexists. split; vm_compute; reflexivity. Qed.

(** DYNOTEARS on two short series, with an optimiser whose within-period effect shows the weight. *)
Definition inv_dopt : optimiser := fun _ r a _ _ => [0; 0; / r; 0; 0; 0; 0; 0; match a with Fin q => q | _ => 0 end; 0; 0; 1; 0; 0; 0; 0]%Qc.
Definition inv_deh : penalty := fun _ w => Fin (nth 2 w 0%Qc).
Example C123_dynamic_met :
  (forall bs, finite_answers inv_dopt bs (within_penalty inv_deh 2 1)) /\ NoDup (variables [PropsTrans.s1; PropsTrans.s2]) /\
  exists g, learn_pandas_dynamic 21 inv_dopt inv_deh [PropsTrans.s1; PropsTrans.s2] 1 (inv_par 100) (mkDtabu None None None) = Ok (g, false) /\
    weight_to g (LStr "v_lag0") (LStr "u_lag0") = Some (ANum (Q2Qc (1 # 1000))) /\ weight_to g (LStr "u_lag1") (LStr "u_lag0") = Some (ANum (Q2Qc 3)).
Proof.
  split; [intros bs r q s k; eexists; eexists; split; [vm_compute; reflexivity|reflexivity]|]. split; [repeat constructor; cbn; intuition congruence|].
  eexists. split; [vm_compute; reflexivity|]. split; vm_compute; reflexivity.
Qed.
