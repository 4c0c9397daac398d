(** * PropsStandard: standardising estimators and units of measurement (C113); arrays (C58). *)
From Coq Require Import List Bool Arith ZArith Lia String QArith Qcanon Permutation Reals Lra.
From Verif Require Import Base Names Digraph SmModel SmProofs QcX NetModel NotearsModel NotearsProofs AcycLink
  TorchModel TorchSpec TorchResult SklModel SklCoef SklFit OrdProofs SklPairs SklUnits SklUnits2 PropsNotears PropsTorch PropsSkl.
Import ListNotations.
Local Open Scope string_scope.
Local Open Scope list_scope.
Local Open Scope nat_scope.

(** ** C113: the units of a standardising regressor *)
Theorem C113_regressor : forall fuel opt eh act grad rnd order sd e X X' y y' u uy,
  c_standardize (e_cfg e) = true -> wf_x X -> wf_cfg (e_cfg e) -> NoDup (map fst (x_cols X)) ->
  fair_units (e_cfg e) X u -> remeasured u X X' -> remeasured_target uy y y' -> (0 < fst uy)%Qc -> e_type e = None \/ e_type e = Some "cont" \/ uy = same_unit ->
  (forall i f, nth_error (map fst (x_cols X)) i = Some f -> taken_continuous (e_cfg e) f -> scales sd (u i) (column_of X i) \/ constant (column_of X i)) ->
  scales sd uy (targets_of y) \/ constant (targets_of y) ->
  let f := reg_fit fuel opt eh act grad rnd order sd e X y in let f' := reg_fit fuel opt eh act grad rnd order sd e X' y' in
  snd f' = snd f /\ e_graph (fst f') = e_graph (fst f) /\ (forall data, reg_coef (fst f') data = reg_coef (fst f) data) /\ reg_intercept (fst f') = reg_intercept (fst f) /\
  forall P P', snd f = Ok tt -> p_cols P = List.length (x_cols X) -> remeasured_input u P P' ->
    (forall i f, nth_error (map fst (x_cols X)) i = Some f -> taken_continuous (e_cfg e) f -> scales sd (u i) (column_of X i)) -> scales sd uy (targets_of y) ->
    base_predict act (fst f') P' = do r <- base_predict act (fst f) P; Ok (fst r, map (map (real_in uy)) (snd r)).
Proof. exact reg_units. Qed.
Print Assumptions C113_regressor.

Theorem C113_classifier : forall fuel opt eh act grad rnd order sd e X X' y u,
  c_standardize (e_cfg e) = true -> wf_x X -> wf_cfg (e_cfg e) -> NoDup (map fst (x_cols X)) -> fair_units (e_cfg e) X u -> remeasured u X X' ->
  (forall i f, nth_error (map fst (x_cols X)) i = Some f -> taken_continuous (e_cfg e) f -> scales sd (u i) (column_of X i) \/ constant (column_of X i)) ->
  let f := clf_fit fuel opt eh act grad rnd order sd e X y in let f' := clf_fit fuel opt eh act grad rnd order sd e X' y in
  snd f' = snd f /\ e_graph (fst f') = e_graph (fst f) /\ e_classes (fst f') = e_classes (fst f) /\ (forall data, clf_coef (fst f') data = clf_coef (fst f) data) /\ clf_intercept (fst f') = clf_intercept (fst f) /\
  forall P P', snd f = Ok tt -> p_cols P = List.length (x_cols X) -> remeasured_input u P P' ->
    (forall i f, nth_error (map fst (x_cols X)) i = Some f -> taken_continuous (e_cfg e) f -> scales sd (u i) (column_of X i)) ->
    predict_proba act (fst f') P' = predict_proba act (fst f) P /\ clf_predict act (fst f') P' = clf_predict act (fst f) P.
Proof. exact clf_units. Qed.
Print Assumptions C113_classifier.

(** Standard deviations scale with the unit, so the condition only speaks about rounding. *)
Theorem C113_deviations : forall sd u l, l <> [] -> (0 < fst u)%Qc -> is_std (sd l) l -> is_std (sd (map (in_unit u) l)) (map (in_unit u) l) -> scales sd u l.
Proof. exact std_scales. Qed.
Print Assumptions C113_deviations.

(** What a standardising regressor learns from: the standardised observations, in their order. *)
Theorem C113_standardised : forall fuel opt eh act grad rnd order sd e X y e',
  reg_fit fuel opt eh act grad rnd order sd e X y = (e', Ok tt) -> c_standardize (e_cfg e) = true -> wf_x X -> wf_cfg (e_cfg e) -> NoDup (map fst (x_cols X)) ->
  x_index X = y_index y -> exists rows vals,
    learned_from fuel opt eh act grad rnd order e e' (x_cols X ++ [(target_name y, y_numeric y)]) (map (fun o => fst o ++ [snd o]) (combine rows vals)) /\
    Forall2 (fun r r' => List.length r' = List.length r /\ forall i f, nth_error (map fst (x_cols X)) i = Some f ->
      (taken_continuous (e_cfg e) f -> exists q, nth i r NaN = Fin q /\ nth i r' NaN = Fin ((q - average (column_of X i)) / sd (column_of X i))%Qc) /\
      (~ taken_continuous (e_cfg e) f -> nth i r' NaN = nth i r NaN)) (x_rows X) rows /\
    Forall2 (fun v v' => (e_type e = None \/ e_type e = Some "cont" -> exists q, v = Fin q /\ v' = Fin ((q - average (targets_of y)) / sd (targets_of y))%Qc) /\
      (e_type e <> None -> e_type e <> Some "cont" -> v' = v)) (y_vals y) vals.
Proof. exact reg_standardised. Qed.
Print Assumptions C113_standardised.

Theorem C113_moments : forall s l, l <> [] -> is_std s l ->
  let z := map (fun q => (q - average l) / s)%Qc l in average z = 0%Qc /\ is_std 1%Qc z.
Proof. exact standardised_moments. Qed.
Print Assumptions C113_moments.

(** *** A case: two features and a target of which each takes two values equally often, for which the mean distance
    from the mean is the standard deviation. *)
Definition ex_dev (l : list Qc) : Qc := average (map (fun x => Qcabs (x - average l)) l).
Definition ix4 : list label := [LInt 0; LInt 1; LInt 2; LInt 3].
Definition ex_cm : xdata := mkX [(LStr "a", true); (LStr "b", true)] ix4 [[Fin 0; Fin 0]; [Fin 0; Fin (Q2Qc 2)]; [Fin (Q2Qc 2); Fin 0]; [Fin (Q2Qc 2); Fin (Q2Qc 2)]]%Qc.
Definition ex_m : xdata := mkX [(LStr "a", true); (LStr "b", true)] ix4
  [[Fin 0; Fin (Q2Qc 32)]; [Fin 0; Fin (Q2Qc (178 # 5))]; [Fin (Q2Qc 200); Fin (Q2Qc 32)]; [Fin (Q2Qc 200); Fin (Q2Qc (178 # 5))]]%Qc.
Definition ex_ty : ydata := mkY (Some (LStr "y")) ix4 [Fin 1; Fin (Q2Qc 5); Fin (Q2Qc 5); Fin 1]%Qc true.
Definition ex_ty' : ydata := mkY (Some (LStr "y")) ix4 [Fin (Q2Qc (- 1 # 2)); Fin (Q2Qc (3 # 2)); Fin (Q2Qc (3 # 2)); Fin (Q2Qc (- 1 # 2))]%Qc true.
Definition ex_u (i : nat) : unit_of := match i with 0 => (Q2Qc 100, 0%Qc) | _ => (Q2Qc (9 # 5), Q2Qc 32) end.
Definition ex_uy : unit_of := (Q2Qc (1 # 2), Q2Qc (- 1))%Qc.
Definition ex_stander : est := unfitted (mkCfg Regressor None true None 0%Qc no_tabu true false true 5) None.
Definition dev_fit := reg_fit 17 ex_opt ex_teh ex_act ex_grad [] (fun d => d) ex_dev.

Ltac qc_eq := apply Qc_is_canon; vm_compute; reflexivity.
Lemma fin_eq p q : p = q -> Fin p = Fin q. Proof. congruence. Qed.

Example C113_met : c_standardize (e_cfg ex_stander) = true /\ wf_x ex_cm /\ fair_units (e_cfg ex_stander) ex_cm ex_u /\ remeasured ex_u ex_cm ex_m /\ remeasured_target ex_uy ex_ty ex_ty' /\
  (forall i, i < 2 -> is_std (ex_dev (column_of ex_cm i)) (column_of ex_cm i) /\ scales ex_dev (ex_u i) (column_of ex_cm i)) /\ is_std (ex_dev (targets_of ex_ty)) (targets_of ex_ty) /\ scales ex_dev ex_uy (targets_of ex_ty) /\
  snd (dev_fit ex_stander ex_cm ex_ty) = Ok tt /\ edges_of_fit (fst (dev_fit ex_stander ex_cm ex_ty)) <> [] /\
  remeasured_input ex_u (SklModel.mkP 2 [[1; Q2Qc 5]]%Qc false) (SklModel.mkP 2 [[Q2Qc 100; Q2Qc 41]]%Qc false).
Proof.
  split; [reflexivity|]. split; [split; [repeat constructor|reflexivity]|].
  split; [split; [intros [|i]; reflexivity|]; intros i f _ H; exfalso; apply H; exact I|].
  split.
  { split; [reflexivity|]. split; [reflexivity|]. repeat constructor; intros [|[|[|i]]]; cbn; try reflexivity; try (destruct i; reflexivity); apply fin_eq; qc_eq. }
  split.
  { split; [reflexivity|]. split; [reflexivity|]. split; [reflexivity|]. unfold ex_ty, ex_ty'. cbn [y_vals map cell_in]. repeat (apply f_equal2; [apply fin_eq; qc_eq|]). reflexivity. }
  split.
  { intros [|[|i]] Hi; [| |lia]; (split; [split; [reflexivity|qc_eq]|unfold scales; qc_eq]). }
  split; [split; [reflexivity|qc_eq]|]. split; [unfold scales; qc_eq|]. split; [vm_compute; reflexivity|].
  split; [intros Q; apply (f_equal (@List.length _)) in Q; vm_compute in Q; discriminate|].
  split; [reflexivity|]. split; [reflexivity|]. repeat constructor. intros [|[|i]] Hi; [qc_eq|qc_eq|cbn in Hi; lia].
Qed.

(** ** C58: arrays *)

(** Arrays are paired by position; their columns are called 0, 1, 2, ... and the target "__target". *)
Theorem C58_arrays : forall fuel opt eh act grad rnd order sd e d obs e',
  reg_fit fuel opt eh act grad rnd order sd e (array_X d (map fst obs)) (array_y (map snd obs)) = (e', Ok tt) ->
  exists fx fy, learned_from fuel opt eh act grad rnd order e e'
      (map (fun i => (LInt (Z.of_nat i), true)) (seq 0 d) ++ [(LStr "__target", true)]) (map (fun o => fx (fst o) ++ [fy (snd o)]) obs) /\
    (c_standardize (e_cfg e) = false -> (forall r, fx r = r) /\ (forall v, fy v = v)).
Proof.
  intros fuel opt eh act grad rnd order sd e d obs e' E.
  apply (reg_pairs fuel opt eh act grad rnd order sd e _ _ e' obs E); [cbn; rewrite !map_length; reflexivity|split; reflexivity].
Qed.
Print Assumptions C58_arrays.

Example C58_arrays_met : snd (ex_reg_fit (unfitted (ex_config Regressor None) None) (array_X 2 (x_rows (ex_X "a" "b"))) (array_y (y_vals ex_y))) = Ok tt /\
  edges_of_fit (fst (ex_reg_fit (unfitted (ex_config Regressor None) None) (array_X 2 (x_rows (ex_X "a" "b"))) (array_y (y_vals ex_y)))) <> [].
Proof. split; [vm_compute; reflexivity|]. intros Q. apply (f_equal (@List.length _)) in Q. vm_compute in Q. discriminate. Qed.
