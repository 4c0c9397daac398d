(** * PropsFirst: property C118, learning stops at the first answer that is acyclic enough. *)
From Coq Require Import List Bool Arith ZArith Lia String QArith Qcanon Reals.
From Coquelicot Require Import Coquelicot.
From Verif Require Import Base Names QcX Digraph SmModel SmProofs NotearsModel NotearsProofs NotearsThms TransModel MapperModel DynoModel DynoProofs DynoThms AcycLink.
From Verif Require Import FitLink FitDyno FirstAnswer.
From Verif Require TorchModel TorchResult TorchExact PropsNotears PropsTorch PropsDyno.
Import ListNotations.
Local Open Scope string_scope.
Local Open Scope list_scope.
Local Open Scope nat_scope.

(** NOTEARS on an array.  The optimiser is first asked with penalty weight 1 and multiplier 0, from zero weights, and
    with bounds that say which edges may be learned.  Its answer [w] decides the result when its penalty [x] is at
    most [h_tol], or when only one iteration is allowed; the warning is given exactly when the penalty is larger. *)
Theorem C118_numpy : forall fuel opt eh X p t g b, 0 < max_iter p -> from_numpy fuel opt eh X p t = Ok g -> numpy_warns fuel opt eh X p t = Ok b ->
  let d := m_cols X in exists bs, plain_question d (open_edge t Z.of_nat) bs /\
    let w := opt bs 1%Qc (Fin 0%Qc) (repeat 0%Qc (d * d)) 0 in
    forall x, eh d w = Fin x -> (x <= h_tol p)%Qc \/ max_iter p = 1 ->
      graph_of g d (fun i => LInt (Z.of_nat i)) "unknown" (fun i j => nth (i * d + j) w 0%Qc) (fun x => x <> 0%Qc /\ (w_threshold p < Qcabs x)%Qc) /\
      (b = true <-> (h_tol p < x)%Qc).
Proof. exact first_numpy. Qed.
Print Assumptions C118_numpy.

Theorem C118_pandas : forall fuel opt eh X p t g b, 0 < max_iter p -> NoDup (map fst (f_cols X)) -> notears_pandas fuel opt eh X p t = Ok g ->
  pandas_warns (fun M tz => numpy_warns fuel opt eh M p tz) X t = Ok b ->
  let d := List.length (f_cols X) in let name := fun i => nth i (map fst (f_cols X)) (LInt 0) in exists bs, plain_question d (open_edge t name) bs /\
    let w := opt bs 1%Qc (Fin 0%Qc) (repeat 0%Qc (d * d)) 0 in
    forall x, eh d w = Fin x -> (x <= h_tol p)%Qc \/ max_iter p = 1 ->
      graph_of g d name "learned" (fun i j => nth (i * d + j) w 0%Qc) (fun x => x <> 0%Qc /\ (w_threshold p < Qcabs x)%Qc) /\ (b = true <-> (h_tol p < x)%Qc).
Proof. exact first_pandas. Qed.
Print Assumptions C118_pandas.

Theorem C118_numpy_lasso : forall fuel opt eh X p t g b, 0 < max_iter p -> from_numpy_lasso fuel opt eh X p t = Ok g -> numpy_lasso_warns fuel opt eh X p t = Ok b ->
  let d := m_cols X in exists bs, lasso_question d (open_edge t Z.of_nat) bs /\
    let w := opt bs 1%Qc (Fin 0%Qc) (repeat 0%Qc (2 * (d * d))) 0 in
    forall x, eh d (lasso_matrix d w) = Fin x -> (x <= h_tol p)%Qc \/ max_iter p = 1 ->
      graph_of g d (fun i => LInt (Z.of_nat i)) "unknown" (fun i j => nth (i * d + j) w 0 - nth (d * d + (i * d + j)) w 0)%Qc
        (fun x => x <> 0%Qc /\ (w_threshold p <= Qcabs x)%Qc) /\ (b = true <-> (h_tol p < x)%Qc).
Proof. exact first_lasso. Qed.
Print Assumptions C118_numpy_lasso.

Theorem C118_pandas_lasso : forall fuel opt eh X p t g b, 0 < max_iter p -> NoDup (map fst (f_cols X)) -> notears_pandas_lasso fuel opt eh X p t = Ok g ->
  pandas_warns (fun M tz => numpy_lasso_warns fuel opt eh M p tz) X t = Ok b ->
  let d := List.length (f_cols X) in let name := fun i => nth i (map fst (f_cols X)) (LInt 0) in exists bs, lasso_question d (open_edge t name) bs /\
    let w := opt bs 1%Qc (Fin 0%Qc) (repeat 0%Qc (2 * (d * d))) 0 in
    forall x, eh d (lasso_matrix d w) = Fin x -> (x <= h_tol p)%Qc \/ max_iter p = 1 ->
      graph_of g d name "learned" (fun i j => nth (i * d + j) w 0 - nth (d * d + (i * d + j)) w 0)%Qc
        (fun x => x <> 0%Qc /\ (w_threshold p <= Qcabs x)%Qc) /\ (b = true <-> (h_tol p < x)%Qc).
Proof. exact first_pandas_lasso. Qed.
Print Assumptions C118_pandas_lasso.

(** DYNOTEARS: [effect d v k i j] is the weight from variable [i], [k] periods ago, to variable [j]; [fst wa] are those
    within the period. *)
Theorem C118_dynamic : forall fuel opt eh X Xlags par t g b, 0 < max_iter par -> learn_numpy_dynamic fuel opt eh X Xlags par t = Ok (g, b) ->
  let d := m_cols X in let p := m_cols Xlags / d in exists bs, dyn_question d p (open_lag t Z.of_nat) bs /\
    let v := opt bs 1%Qc (Fin 0%Qc) (repeat 0%Qc (2 * (p + 1) * (d * d))) 0 in
    forall wa x, reshape_wa v d p = Ok wa -> eh d (fst wa) = Fin x -> (x <= h_tol par)%Qc \/ max_iter par = 1 ->
      dgraph_of g d p (fun i k => LStr (lag_name (dec i) k)) "unknown" (effect d v) (fun x => x <> 0%Qc /\ (w_threshold par <= Qcabs x)%Qc) /\
      (b = true <-> (h_tol par < x)%Qc).
Proof. exact first_dynamic. Qed.
Print Assumptions C118_dynamic.

(** The torch version: the tolerance is 1e-8, and the start has zeros (a weight for each of the [m] units of each of the
    [d] features and each input, and a bias for each unit if there are biases) followed by the random initial values [rnd]
    of the further layers.  The penalised matrix is that of C33.  [torch_asks]: weights between columns of different variables
    are free unless the edge is banned, weights for banned edges and within a variable are kept at zero, all else is free. *)
Theorem C118_torch : forall fuel opt eh act grad rnd X schema p t l, 0 < TorchModel.tp_max_iter p -> TorchModel.torch_numpy fuel opt eh act grad rnd X schema p t = Ok l ->
  let d := nth 0 (TorchModel.l_dims l) 0 in let m := nth 1 (TorchModel.l_dims l) 0 in
  exists bs, TorchExact.torch_asks X schema p t l bs /\ let v := opt bs 1%Qc (Fin 0%Qc) (repeat 0%Qc (d * m * d + (if TorchModel.tp_bias p then d * m else 0)) ++ rnd) 0 in
    forall x, eh (TorchModel.h_size (TorchModel.l_dtypes l)) (TorchModel.h_matrix (TorchModel.l_dtypes l) d m v) = Fin x ->
      (x <= Q2Qc (1 # 100000000))%Qc \/ TorchModel.tp_max_iter p = 1 ->
      TorchModel.l_params l = v /\ (TorchModel.l_warned l = true <-> (Q2Qc (1 # 100000000) < x)%Qc).
Proof. exact first_torch. Qed.
Print Assumptions C118_torch.

(** An optimiser that answers 1/2 for the edge 0 -> 1 at first and 2 afterwards; the penalty is always 1/1000. *)
Definition two_opt : optimiser := fun _ _ _ _ k => [0; if Nat.eqb k 0 then Q2Qc (1 # 2) else Q2Qc 2; 0; 0]%Qc.
Definition two_X : mat := mkMat 2 [[Fin 1; Fin 0]; [Fin 0; Fin 1]]%Qc.
Definition two_eh : penalty := fun _ _ => Fin (Q2Qc (1 # 1000)).
Definition weight (g : graph) : option aval := match edge_attrs g (LInt 0) (LInt 1) with Some a => aget a "weight" | None => None end.
Example C118_met :
  (exists g, from_numpy 21 two_opt two_eh two_X (mkParams 100 (Q2Qc (1 # 1000)) 0%Qc) (mkTabu None None None) = Ok g /\ weight g = Some (ANum (Q2Qc (1 # 2)))) /\
  numpy_warns 21 two_opt two_eh two_X (mkParams 100 (Q2Qc (1 # 1000)) 0%Qc) (mkTabu None None None) = Ok false /\
  (exists g, from_numpy 21 two_opt two_eh two_X (mkParams 1 (Q2Qc (1 # 2000)) 0%Qc) (mkTabu None None None) = Ok g /\ weight g = Some (ANum (Q2Qc (1 # 2)))) /\
  numpy_warns 21 two_opt two_eh two_X (mkParams 1 (Q2Qc (1 # 2000)) 0%Qc) (mkTabu None None None) = Ok true /\
  (exists g, from_numpy 21 two_opt two_eh two_X (mkParams 2 (Q2Qc (1 # 2000)) 0%Qc) (mkTabu None None None) = Ok g /\ weight g = Some (ANum (Q2Qc 2))).
Proof.
  split; [eexists; split; vm_compute; reflexivity|]. split; [vm_compute; reflexivity|]. split; [eexists; split; vm_compute; reflexivity|].
  split; [vm_compute; reflexivity|]. eexists. split; vm_compute; reflexivity.
Qed.

(** The same for the torch version, with a penalty just at its tolerance and just above. *)
Definition one_iter : TorchModel.tparams := TorchModel.mkTp None false None 1.
Example C118_torch_met :
  (exists l, TorchModel.torch_numpy 17 two_opt (fun _ _ => Fin (Q2Qc (1 # 100000000))) PropsTorch.ex_act PropsTorch.ex_grad [] two_X None PropsTorch.ex_linear (mkTabu None None None) = Ok l /\
     TorchModel.l_params l = [0; Q2Qc (1 # 2); 0; 0]%Qc /\ TorchModel.l_warned l = false) /\
  (exists l, TorchModel.torch_numpy 17 two_opt (fun _ _ => Fin (Q2Qc (1 # 99999999))) PropsTorch.ex_act PropsTorch.ex_grad [] two_X None one_iter (mkTabu None None None) = Ok l /\
     TorchModel.l_params l = [0; Q2Qc (1 # 2); 0; 0]%Qc /\ TorchModel.l_warned l = true).
Proof. split; eexists; (split; [vm_compute; reflexivity|]); split; vm_compute; reflexivity. Qed.

(** And for DYNOTEARS. *)
Example C118_dynamic_met : exists g b, learn_numpy_dynamic 21 PropsDyno.ex_dopt33 two_eh PropsDyno.ex_dX PropsDyno.ex_dX (mkParams 3 (Q2Qc (1 # 1000)) 0%Qc) (mkDtabu None None None) = Ok (g, b) /\ b = false /\
  edges g = [(LStr "1_lag0", LStr "0_lag0"); (LStr "0_lag1", LStr "0_lag0"); (LStr "1_lag1", LStr "1_lag0")].
Proof. do 2 eexists. split; [vm_compute; reflexivity|]. split; vm_compute; reflexivity. Qed.
