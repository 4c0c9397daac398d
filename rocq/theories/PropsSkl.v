(** * PropsSkl: the scikit-learn style estimators (C40-C43, C58-C60). *)
From Coq Require Import List Bool Arith ZArith Lia String QArith Qcanon Permutation Reals Lra.
From Verif Require Import Base Names Digraph SmModel SmProofs QcX NetModel NotearsModel NotearsProofs AcycLink
  TorchModel TorchSpec TorchResult SklModel SklCoef SklFit OrdProofs SklPredict SklNet SklProba SklClf SklLin SklRefit SklMain SklValues SklPairs PropsNotears PropsTorch.
Import ListNotations.
Local Open Scope string_scope.
Local Open Scope list_scope.
Local Open Scope nat_scope.

(** ** Data for the examples *)
Definition no_tabu : tabu label := mkTabu None None None.
Definition ex_config (k : estimator) (s : option (list (label * string))) : config := mkCfg k s true None 0%Qc no_tabu true false false 5.
Definition unfitted (c : config) (t : option string) : est := mkEst c t None None None None None.
Definition ix3 : list label := [LInt 0; LInt 1; LInt 2].
Definition ex_X (a b : string) : xdata := mkX [(LStr a, true); (LStr b, true)] ix3 [[Fin 0; Fin 1]; [Fin 1; Fin 0]; [Fin 1; Fin (Q2Qc 3)]]%Qc.
Definition ex_y : ydata := mkY (Some (LStr "y")) ix3 [Fin 1; Fin (Q2Qc 2); Fin 0]%Qc true.
Definition ex_labels (l : list string) : kdata := mkK (Some (LStr "y")) ix3 (map LStr l) false.
Definition ex_reg_fit := reg_fit 17 ex_opt ex_teh ex_act ex_grad [] (fun d => d) (fun _ => 1%Qc).
Definition ex_clf_fit := clf_fit 17 ex_opt ex_teh ex_act ex_grad [] (fun d => d) (fun _ => 1%Qc).
Definition ex_P : pdata := mkP 2 [[1; Q2Qc 2]; [Q2Qc 3; 0]]%Qc false.
Definition edges_of_fit (e : est) : list (label * label) := match e_graph e with Some gr => edges (g_edges gr) | None => [] end.

Lemma id_perm : forall ds : list dtype, Permutation ds ds.
Proof. auto. Qed.
Lemma ex_wf_X a b : wf_x (ex_X a b).
Proof. split; [repeat constructor|reflexivity]. Qed.
Lemma ex_suffixes : no_suffixes [LStr "a"; LStr "b"; LStr "y"].
Proof.
  intros c c' ds Hc Hc' N D E. cbn in Hc, Hc'. destruct Hc as [<-|[<-|[<-|[]]]], Hc' as [<-|[<-|[<-|[]]]]; try congruence; cbn in E; discriminate.
Qed.
Lemma ex_new k : new_data_ok (ex_config k None) (ex_X "a" "b") ex_P.
Proof.
  split; [reflexivity|]. split; [repeat constructor|]. intros i f s Hi Hs. assert (s = "cont") as ->.
  { cbn in Hs. destruct Hs as [[= _ <-]|[[= _ <-]|[]]]; reflexivity. }
  split; [intros [?|?]; discriminate|discriminate].
Qed.
Lemma ex_no_ordinal k : no_ordinal (ex_config k None) (ex_X "a" "b").
Proof. intros f _ H. cbn in H. intuition congruence. Qed.
Lemma ex_no_categories k : no_categories (ex_config k None) (ex_X "a" "b").
Proof. intros f _ H. cbn in H. intuition congruence. Qed.
Lemma ex_plain k : plain_features (ex_config k None) (ex_X "a" "b").
Proof. intros f s _ H. cbn in H. destruct H as [[= _ <-]|[[= _ <-]|[]]]; split; discriminate. Qed.

(** ** C40: ordinal probabilities *)
Theorem C40_probabilities : forall vals z, 2 <= List.length (nodup Qc_eq_dec vals) ->
  exists ps, get_probs (log_cum_odds vals) z = Ok ps /\ List.length ps = List.length (nodup Qc_eq_dec vals) /\ Forall (fun p => (0 < p)%R) ps /\ rsum ps = 1%R.
Proof. intros vals z H. destruct (ordinal_probs vals z H) as (ps & E & L & (D1 & D2) & _). eauto 10. Qed.
Print Assumptions C40_probabilities.

(** The odds of being in one of the first categories are those in the data, divided by the exponential of the
    output of the network. *)
Theorem C40_odds : forall vals z ps, 2 <= List.length (nodup Qc_eq_dec vals) -> get_probs (log_cum_odds vals) z = Ok ps ->
  forall k, S k < List.length ps ->
    let P := rsum (firstn (S k) ps) in let F := upto vals (nth k (categories vals) 0%Qc) in
    (0 < P < 1)%R /\ (0 < F < 1)%R /\ (P / (1 - P) = F / (1 - F) * exp (- z))%R.
Proof. intros vals z ps H E. destruct (ordinal_probs vals z H) as (ps' & E' & _ & _ & O). rewrite E in E'. injection E' as <-. exact O. Qed.
Print Assumptions C40_odds.

Example C40_met : 2 <= List.length (nodup Qc_eq_dec [0; 1; 1; Q2Qc 2; Q2Qc 2; Q2Qc 2]%Qc) /\ exists ps, get_probs (log_cum_odds [0; 1; 1; Q2Qc 2; Q2Qc 2; Q2Qc 2]%Qc) (realq (Q2Qc 2)) = Ok ps /\ List.length ps = 3.
Proof.
  assert (L : List.length (nodup Qc_eq_dec [0; 1; 1; Q2Qc 2; Q2Qc 2; Q2Qc 2]%Qc) = 3) by (vm_compute; reflexivity). split; [lia|].
  destruct (C40_probabilities [0; 1; 1; Q2Qc 2; Q2Qc 2; Q2Qc 2]%Qc (realq (Q2Qc 2))) as (ps & E & Ls & _); [lia|]. exists ps. split; [auto|]. congruence.
Qed.

(** With a single category there are no probabilities. *)
Theorem C40_one_category_refuted : exists vals, List.length (nodup Qc_eq_dec vals) = 1 /\ forall z, get_probs (log_cum_odds vals) z = Err IndexError.
Proof. exists [1; 1]%Qc. split; [vm_compute; reflexivity|]. intros z. reflexivity. Qed.

(** ** C41: a dependent target has no children *)
Theorem C41_no_children_partial : forall fuel opt eh act grad rnd order sd e X name e', fitted fuel opt eh act grad rnd order sd e X name e' -> wf_x X -> wf_cfg (e_cfg e) ->
  (forall ds, Permutation (order ds) ds) -> respects_bounds opt -> gradient_local grad \/ linear_cfg (e_cfg e) -> c_dependent (e_cfg e) = true ->
  exists gr, e_graph e' = Some gr /\
    (forall u v, In (u, v) (edges (g_edges gr)) -> exists c k, In c (map fst (x_cols X)) /\ u = category_name c k) /\
    (forall v, ~ In (name, v) (edges (l_collapsed (g_learned gr)))) /\
    (no_suffixes (map fst (x_cols X) ++ [name]) -> forall k v, ~ In (category_name name k, v) (edges (g_edges gr))).
Proof. exact target_no_children. Qed.
Print Assumptions C41_no_children_partial.

Example C41_met : let r := ex_clf_fit (unfitted (ex_config Classifier None) None) (ex_X "a" "b") (ex_labels ["n"; "y"; "u"]) in
  snd r = Ok tt /\ In (LStr "a", LStr "y1") (edges_of_fit (fst r)) /\ no_suffixes (map fst (x_cols (ex_X "a" "b")) ++ [LStr "y"]).
Proof. cbv zeta. split; [vm_compute; reflexivity|]. split; [vm_compute; tauto|exact ex_suffixes]. Qed.

(** A feature that is called like an expanded class: the node "y1" stands for both and has children. *)
Theorem C41_clash_refuted : exists e X y e', ex_clf_fit e X y = (e', Ok tt) /\ c_dependent (e_cfg e) = true /\ k_target y = LStr "y" /\
  List.length (classes_of (k_labels y)) = 3 /\ In (make_node_name (LStr "y") 1, LStr "b") (edges_of_fit e') /\ In (LStr "y1", LStr "y1") (edges_of_fit e').
Proof.
  exists (unfitted (ex_config Classifier None) None), (ex_X "y1" "b"), (ex_labels ["n"; "y"; "u"]). eexists.
  split; [vm_compute; reflexivity|]. split; [reflexivity|]. split; [reflexivity|]. split; [reflexivity|]. split; vm_compute; tauto.
Qed.

(** ** C42: a fit forgets the fits before it *)
Theorem C42_regressor : forall fuel opt eh act grad rnd order sd e0 e X y, regressor_after e0 e ->
  let again := reg_fit fuel opt eh act grad rnd order sd e X y in let first := reg_fit fuel opt eh act grad rnd order sd e0 X y in
  snd again = snd first /\ (snd again = Ok tt -> fst again = fst first).
Proof. exact refit_regressor. Qed.
Print Assumptions C42_regressor.

(** For classifiers with a given type, or if all fits have two classes, or all have more. *)
Theorem C42_classifier_partial : forall fuel opt eh act grad rnd order sd ok e0 e X y, classifier_after ok e0 e -> e_type e0 <> Some "cont" ->
  (e_type e0 <> None \/ forall y', ok y' -> multiclass y' = multiclass y) ->
  let again := clf_fit fuel opt eh act grad rnd order sd e X y in let first := clf_fit fuel opt eh act grad rnd order sd e0 X y in
  snd again = snd first /\ (snd again = Ok tt -> fst again = fst first).
Proof. exact refit_classifier. Qed.
Print Assumptions C42_classifier_partial.

Example C42_met : let e0 := unfitted (ex_config Classifier None) None in let e := fst (ex_clf_fit e0 (ex_X "u" "v") (ex_labels ["p"; "q"; "r"])) in
  classifier_after (fun y => multiclass y = true) e0 e /\ e <> e0 /\ multiclass (ex_labels ["n"; "y"; "u"]) = true /\ snd (ex_clf_fit e (ex_X "a" "b") (ex_labels ["n"; "y"; "u"])) = Ok tt.
Proof.
  cbv zeta. split; [apply cfits_more; [constructor|vm_compute; reflexivity]|]. split; [|split; vm_compute; reflexivity].
  intros E. apply (f_equal e_classes) in E. vm_compute in E. discriminate.
Qed.

(** A classifier first fitted with two classes and then with three gives two probabilities. *)
Theorem C42_refuted : exists e0 X y2 y3 P, let once := ex_clf_fit e0 X y3 in let again := ex_clf_fit (fst (ex_clf_fit e0 X y2)) X y3 in
  snd once = Ok tt /\ snd again = Ok tt /\ e_classes (fst again) = e_classes (fst once) /\ List.length (classes_of (k_labels y3)) = 3 /\
  (exists ps, predict_proba ex_act (fst once) P = Ok ps /\ List.length ps = 2 /\ Forall (fun p => List.length p = 3) ps) /\
  (exists ps, predict_proba ex_act (fst again) P = Ok ps /\ List.length ps = 2 /\ Forall (fun p => List.length p = 2) ps).
Proof.
  exists (unfitted (ex_config Classifier None) None), (ex_X "a" "b"), (ex_labels ["n"; "y"; "n"]), (ex_labels ["n"; "y"; "u"]), ex_P. cbv zeta.
  set (e0 := unfitted (ex_config Classifier None) None). set (e1 := fst (ex_clf_fit e0 (ex_X "a" "b") (ex_labels ["n"; "y"; "n"]))).
  assert (O : ex_clf_fit e0 (ex_X "a" "b") (ex_labels ["n"; "y"; "u"]) = (fst (ex_clf_fit e0 (ex_X "a" "b") (ex_labels ["n"; "y"; "u"])), Ok tt)).
  { rewrite (surjective_pairing (ex_clf_fit e0 _ _)) at 1. f_equal. }
  assert (A : ex_clf_fit e1 (ex_X "a" "b") (ex_labels ["n"; "y"; "u"]) = (fst (ex_clf_fit e1 (ex_X "a" "b") (ex_labels ["n"; "y"; "u"])), Ok tt)).
  { rewrite (surjective_pairing (ex_clf_fit e1 _ _)) at 1. f_equal. }
  assert (Wc : wf_cfg (e_cfg e0)) by (intros s Hs; discriminate). assert (C1 : e_cfg e1 = e_cfg e0) by reflexivity.
  split; [vm_compute; reflexivity|]. split; [vm_compute; reflexivity|]. split; [vm_compute; reflexivity|]. split; [vm_compute; reflexivity|]. split.
  - destruct (clf_predictions _ _ _ _ _ _ _ _ _ _ _ _ ex_P O (ex_wf_X _ _) eq_refl Wc id_perm ex_suffixes (or_introl eq_refl) (ex_no_ordinal _) (ex_new _)) as (cs & ps & ls & Ec & Ep & _ & _ & _ & Lp & Fp & _).
    exists ps. split; auto. split; [rewrite Lp; reflexivity|]. assert (L3 : List.length cs = 3).
    { assert (Q : Some cs = Some [LStr "n"; LStr "u"; LStr "y"]) by (rewrite <- Ec; vm_compute; reflexivity). injection Q as ->. reflexivity. }
    eapply Forall_impl; [|exact Fp]. cbn. intros p [Q _]. congruence.
  - rewrite <- C1 in Wc. destruct (binary_rows _ _ _ _ _ _ _ _ _ _ _ _ ex_P A (ex_wf_X _ _) Wc id_perm ex_suffixes) as (ps & Ep & Lp & Fp); [vm_compute; reflexivity|apply (ex_no_ordinal Classifier)|apply (ex_new Classifier)|].
    exists ps. split; auto. 
Qed.

(** ** C43: one coefficient for each feature, in the order of the features *)

(** If no feature is categorical. *)
Theorem C43_regressor_partial : forall fuel opt eh act grad rnd order sd e X name e', fitted fuel opt eh act grad rnd order sd e X name e' -> wf_x X -> wf_cfg (e_cfg e) ->
  (forall ds, Permutation (order ds) ds) -> respects_bounds opt -> gradient_local grad \/ linear_cfg (e_cfg e) -> no_suffixes (map fst (x_cols X) ++ [name]) ->
  forall data, no_categories (e_cfg e) X -> exists gr, e_graph e' = Some gr /\
    reg_coef e' data = Ok (map (fun f => edge_number (g_edges gr) data f name) (map fst (x_cols X))).
Proof. exact coefficients. Qed.
Print Assumptions C43_regressor_partial.

(** One row for each class if there are more than two. *)
Theorem C43_classifier_partial : forall fuel opt eh act grad rnd order sd e X name e', fitted fuel opt eh act grad rnd order sd e X name e' -> wf_x X -> wf_cfg (e_cfg e) ->
  (forall ds, Permutation (order ds) ds) -> respects_bounds opt -> gradient_local grad \/ linear_cfg (e_cfg e) -> no_suffixes (map fst (x_cols X) ++ [name]) ->
  forall data, no_categories (e_cfg e) X -> forall cs, e_classes e' = Some cs -> exists gr, e_graph e' = Some gr /\
    clf_coef e' data = Ok (map (fun k => map (fun f => edge_number (g_edges gr) data f (category_name name k)) (map fst (x_cols X))) (if List.length cs =? 2 then [0] else seq 0 (List.length cs))).
Proof. exact class_coefficients. Qed.
Print Assumptions C43_classifier_partial.

Example C43_met : let r := ex_clf_fit (unfitted (ex_config Classifier None) None) (ex_X "a" "b") (ex_labels ["n"; "y"; "u"]) in
  snd r = Ok tt /\ no_categories (ex_config Classifier None) (ex_X "a" "b") /\
  match clf_coef (fst r) "mean_effect" with Ok m => map (map this) m = repeat [1 # 2; 1 # 2]%Q 3 | Err _ => False end.
Proof. cbv zeta. split; [vm_compute; reflexivity|]. split; [exact (ex_no_categories _)|vm_compute; reflexivity]. Qed.

(** A categorical feature adds coefficients: three numbers for two features. *)
Theorem C43_refuted : exists e X y e' w, ex_reg_fit e X y = (e', Ok tt) /\ List.length (x_cols X) = 2 /\ reg_coef e' "mean_effect" = Ok w /\ List.length w = 3.
Proof.
  exists (unfitted (ex_config Regressor (Some [(LStr "a", "cat"); (LStr "b", "cont")])) None), (ex_X "a" "b"), ex_y. eexists. eexists.
  split; [vm_compute; reflexivity|]. split; [reflexivity|]. split; vm_compute; reflexivity.
Qed.

(** An ordinal target with three classes: no coefficients for two of them, and no intercepts. *)
Theorem C43_ordinal_refuted : exists e X y e' w, e_type e = Some "ord" /\ ex_clf_fit e X y = (e', Ok tt) /\ List.length (classes_of (k_labels y)) = 3 /\
  clf_coef e' "mean_effect" = Ok w /\ Forall (fun q => q = 0%Qc) (nth 1 w []) /\ Forall (fun q => q = 0%Qc) (nth 2 w []) /\ ~ Forall (fun q => q = 0%Qc) (nth 0 w []) /\
  clf_intercept e' = Err KeyError.
Proof.
  exists (unfitted (ex_config Classifier None) (Some "ord")), (ex_X "a" "b"), (ex_labels ["n"; "y"; "u"]). eexists. eexists. split; [reflexivity|].
  split; [vm_compute; reflexivity|]. split; [reflexivity|]. split; [vm_compute; reflexivity|]. cbn [nth].
  split; [repeat constructor; apply Qc_is_canon; reflexivity|]. split; [repeat constructor; apply Qc_is_canon; reflexivity|].
  split; [|vm_compute; reflexivity]. intros H. inversion H as [|q l Hq Hl Eq]. apply (f_equal this) in Hq. discriminate.
Qed.

(** ** C58: rows are paired by position *)

(** If features and target have the same index, the index does not matter. *)
Theorem C58_regressor_partial : forall fuel opt eh act grad rnd order sd ix e X y, x_index X = y_index y ->
  reg_fit fuel opt eh act grad rnd order sd e (mkX (x_cols X) ix (x_rows X)) (mkY (y_name y) ix (y_vals y) (y_numeric y)) = reg_fit fuel opt eh act grad rnd order sd e X y.
Proof. intros. apply reg_fit_reindex. auto. Qed.
Print Assumptions C58_regressor_partial.

Theorem C58_classifier_partial : forall fuel opt eh act grad rnd order sd ix e X y, x_index X = k_index y ->
  clf_fit fuel opt eh act grad rnd order sd e (mkX (x_cols X) ix (x_rows X)) (mkK (k_name y) ix (k_labels y) (k_array y)) = clf_fit fuel opt eh act grad rnd order sd e X y.
Proof. intros. apply clf_fit_reindex. auto. Qed.
Print Assumptions C58_classifier_partial.

(** Then the n-th row of features belongs to the n-th target: the structure is learned from the table with one row
    for each observation, its features followed by its own target.  Without [standardize] the values are those given;
    the labels of a classifier are replaced by their positions among the classes. *)
Theorem C58_regressor_rows_partial : forall fuel opt eh act grad rnd order sd e X y e' obs,
  reg_fit fuel opt eh act grad rnd order sd e X y = (e', Ok tt) -> x_index X = y_index y -> x_rows X = map fst obs /\ y_vals y = map snd obs ->
  exists fx fy, learned_from fuel opt eh act grad rnd order e e' (x_cols X ++ [(target_name y, y_numeric y)]) (map (fun o => fx (fst o) ++ [fy (snd o)]) obs) /\
    (c_standardize (e_cfg e) = false -> (forall r, fx r = r) /\ (forall v, fy v = v)).
Proof. exact reg_pairs. Qed.
Print Assumptions C58_regressor_rows_partial.

Theorem C58_classifier_rows_partial : forall fuel opt eh act grad rnd order sd e X y e' obs,
  clf_fit fuel opt eh act grad rnd order sd e X y = (e', Ok tt) -> x_index X = k_index y -> x_rows X = map fst obs /\ k_labels y = map snd obs ->
  exists cs fx fy numeric, e_classes e' = Some cs /\
    learned_from fuel opt eh act grad rnd order e e' (x_cols X ++ [(k_target y, numeric)]) (map (fun o => fx (fst o) ++ [fy (snd o)]) obs) /\
    (c_standardize (e_cfg e) = false -> (forall r, fx r = r)) /\
    (c_standardize (e_cfg e) = false \/ e_type e <> Some "cont" -> forall k l, nth_error cs k = Some l -> fy l = Fin (Q2Qc (inject_Z (Z.of_nat k)))).
Proof. exact clf_pairs. Qed.
Print Assumptions C58_classifier_rows_partial.

Example C58_rows_met : exists obs e', x_rows (ex_X "a" "b") = map fst obs /\ y_vals ex_y = map snd obs /\ List.length obs = 3 /\
  ex_reg_fit (unfitted (ex_config Regressor None) None) (ex_X "a" "b") ex_y = (e', Ok tt).
Proof. exists (combine (x_rows (ex_X "a" "b")) (y_vals ex_y)). eexists. split; [reflexivity|]. split; [reflexivity|]. split; [reflexivity|]. vm_compute. reflexivity. Qed.

(** Features that kept their index after dropping a row, and an array as target: as many rows, but the fit fails. *)
Theorem C58_index_refuted : exists e X y, List.length (x_rows X) = List.length (y_vals y) /\ y = array_y (y_vals y) /\
  snd (ex_reg_fit e (array_X 2 (x_rows X)) y) = Ok tt /\ snd (ex_reg_fit e X y) = Err ValueError.
Proof.
  exists (unfitted (ex_config Regressor None) None), (mkX [(LInt 0, true); (LInt 1, true)] [LInt 0; LInt 2; LInt 3] (x_rows (ex_X "a" "b"))), (array_y (y_vals ex_y)).
  split; [reflexivity|]. split; [reflexivity|]. split; vm_compute; reflexivity.
Qed.

(** A target in another order: the table that structure is learned from pairs other rows. *)
Theorem C58_order_refuted : exists X y rows, List.length (x_rows X) = List.length (y_vals y) /\ concat_xy X y = Ok rows /\
  rows <> map (fun rv => fst rv ++ [snd rv]) (combine (x_rows X) (y_vals y)).
Proof.
  exists (ex_X "a" "b"), (mkY (Some (LStr "y")) [LInt 2; LInt 1; LInt 0] (y_vals ex_y) true). eexists. split; [reflexivity|]. split; [vm_compute; reflexivity|].
  intros E. apply (f_equal (fun r => match last (hd [] r) NaN with Fin q => Some (this q) | _ => None end)) in E. vm_compute in E. discriminate.
Qed.

(** ** C59: what a classifier predicts *)
Theorem C59_predictions_partial : forall fuel opt eh act grad rnd order sd e X y e' P, clf_fit fuel opt eh act grad rnd order sd e X y = (e', Ok tt) ->
  wf_x X -> labels_ok y -> wf_cfg (e_cfg e) -> (forall ds, Permutation (order ds) ds) ->
  no_suffixes (map fst (x_cols X) ++ [k_target y]) -> type_fits e X y -> no_ordinal (e_cfg e) X -> new_data_ok (e_cfg e) X P ->
  exists cs ps ls, e_classes e' = Some cs /\ predict_proba act e' P = Ok ps /\ clf_predict act e' P = Ok ls /\
    NoDup cs /\ (forall l, In l cs <-> In l (k_labels y)) /\ List.length ps = List.length (p_rows P) /\
    Forall (fun p => List.length p = List.length cs /\ distribution p) ps /\ Forall2 (most_probable cs) ps ls.
Proof. exact clf_predictions. Qed.
Print Assumptions C59_predictions_partial.

Example C59_met : let e := unfitted (ex_config Classifier None) (Some "ord") in let y := ex_labels ["n"; "y"; "u"] in
  snd (ex_clf_fit e (ex_X "a" "b") y) = Ok tt /\ labels_ok y /\ type_fits e (ex_X "a" "b") y /\ no_ordinal (e_cfg e) (ex_X "a" "b") /\ new_data_ok (e_cfg e) (ex_X "a" "b") ex_P.
Proof.
  cbv zeta. split; [vm_compute; reflexivity|]. split; [reflexivity|]. split; [|split; [apply (ex_no_ordinal Classifier)|apply (ex_new Classifier)]].
  right. right. right. split; [reflexivity|]. cbn. intuition discriminate.
Qed.

(** The type "bin" is accepted for three classes. *)
Theorem C59_binary_refuted : exists e X y e' P, e_type e = Some "bin" /\ ex_clf_fit e X y = (e', Ok tt) /\ List.length (classes_of (k_labels y)) = 3 /\
  exists ps, predict_proba ex_act e' P = Ok ps /\ List.length ps = 2 /\ Forall (fun p => List.length p = 2) ps.
Proof.
  set (e := unfitted (ex_config Classifier None) (Some "bin")). exists e, (ex_X "a" "b"), (ex_labels ["n"; "y"; "u"]), (fst (ex_clf_fit e (ex_X "a" "b") (ex_labels ["n"; "y"; "u"]))), ex_P.
  split; [reflexivity|]. assert (A : ex_clf_fit e (ex_X "a" "b") (ex_labels ["n"; "y"; "u"]) = (fst (ex_clf_fit e (ex_X "a" "b") (ex_labels ["n"; "y"; "u"])), Ok tt)).
  { rewrite (surjective_pairing (ex_clf_fit e _ _)) at 1. f_equal. }
  split; auto. split; [reflexivity|]. assert (Wc : wf_cfg (e_cfg e)) by (intros s Hs; discriminate).
  destruct (binary_rows _ _ _ _ _ _ _ _ _ _ _ _ ex_P A (ex_wf_X _ _) Wc id_perm ex_suffixes eq_refl (ex_no_ordinal Classifier) (ex_new Classifier)) as (ps & Ep & Lp & Fp).
  exists ps. auto.
Qed.

(** Labels that are strings work in a Series but not in an array. *)
Theorem C59_string_array_refuted : exists e X l, snd (ex_clf_fit e X (mkK None ix3 l false)) = Ok tt /\ snd (ex_clf_fit e X (mkK None ix3 l true)) = Err ValueError.
Proof. exists (unfitted (ex_config Classifier None) None), (ex_X "a" "b"), (map LStr ["n"; "y"; "n"]). split; vm_compute; reflexivity. Qed.

(** ** C60: linear estimators predict with their coefficients and their intercept *)
Theorem C60_regressor_partial : forall fuel opt eh act grad rnd order sd e X y e' P, reg_fit fuel opt eh act grad rnd order sd e X y = (e', Ok tt) -> wf_x X -> wf_cfg (e_cfg e) ->
  (forall ds, Permutation (order ds) ds) -> no_suffixes (map fst (x_cols X) ++ [target_name y]) -> linear_cfg (e_cfg e) -> plain_features (e_cfg e) X -> respects_bounds opt ->
  c_threshold (e_cfg e) = 0%Qc -> c_enforce (e_cfg e) = false -> c_standardize (e_cfg e) = false -> new_data_ok (e_cfg e) X P ->
  match e_type e with None => True | Some a => In a ["cont"; "poiss"] end ->
  exists w b, reg_coef e' "mean_effect" = Ok w /\ reg_intercept e' = Ok b /\ List.length w = List.length (x_cols X) /\
    exists k, base_predict act e' P = Ok (k, map (fun r => [match e_type e with Some "poiss" => exp (realq (affine w b r)) | _ => realq (affine w b r) end]) (p_rows P)).
Proof. exact linear_regressor. Qed.
Print Assumptions C60_regressor_partial.

Theorem C60_classifier_partial : forall fuel opt eh act grad rnd order sd e X y e' P, clf_fit fuel opt eh act grad rnd order sd e X y = (e', Ok tt) -> wf_x X -> wf_cfg (e_cfg e) ->
  (forall ds, Permutation (order ds) ds) -> no_suffixes (map fst (x_cols X) ++ [k_target y]) -> linear_cfg (e_cfg e) -> plain_features (e_cfg e) X -> respects_bounds opt ->
  c_threshold (e_cfg e) = 0%Qc -> c_enforce (e_cfg e) = false -> c_standardize (e_cfg e) = false -> new_data_ok (e_cfg e) X P ->
  List.length (classes_of (k_labels y)) = 2 -> e_type e = None \/ e_type e = Some "bin" ->
  exists w b, clf_coef e' "mean_effect" = Ok [w] /\ clf_intercept e' = Ok [b] /\ List.length w = List.length (x_cols X) /\
    predict_proba act e' P = Ok (map (fun r => let q := sigmoid (realq (affine w b r)) in [(1 - q)%R; q]) (p_rows P)).
Proof. exact linear_classifier. Qed.
Print Assumptions C60_classifier_partial.

Example C60_met : let e := unfitted (ex_config Regressor None) (Some "poiss") in
  snd (ex_reg_fit e (ex_X "a" "b") ex_y) = Ok tt /\ linear_cfg (e_cfg e) /\ plain_features (e_cfg e) (ex_X "a" "b") /\ new_data_ok (e_cfg e) (ex_X "a" "b") ex_P /\
  match reg_coef (fst (ex_reg_fit e (ex_X "a" "b") ex_y)) "mean_effect" with Ok w => map this w = [1 # 2; 1 # 2]%Q | Err _ => False end.
Proof.
  cbv zeta. split; [vm_compute; reflexivity|]. split; [reflexivity|]. split; [apply (ex_plain Regressor)|]. split; [apply (ex_new Regressor)|vm_compute; reflexivity].
Qed.

Lemma fit_ok (r : est * res unit) : snd r = Ok tt -> r = (fst r, Ok tt).
Proof. destruct r. cbn. congruence. Qed.

(** What a fitted estimator learned. *)
Definition learned_of (e : est) : learned := match e_graph e with Some g => g_learned g | None => mkLearned [] [] [] [] [] [] false [] false end.
Lemma learned_gr e gr : e_graph e = Some gr -> g_learned gr = learned_of e.
Proof. unfold learned_of. intros ->. auto. Qed.

(** With a threshold the coefficients are cut but the predictions are not. *)
Definition ex_cut : est := unfitted (mkCfg Regressor None false None 1%Qc no_tabu true false false 5) None.
Theorem C60_threshold_refuted : exists e X y e' P w b k v, ex_reg_fit e X y = (e', Ok tt) /\ linear_cfg (e_cfg e) /\ plain_features (e_cfg e) X /\
  reg_coef e' "mean_effect" = Ok w /\ reg_intercept e' = Ok b /\ base_predict ex_act e' P = Ok (k, [[v]]) /\
  forall r, In r (p_rows P) -> v <> realq (affine w b r).
Proof.
  set (e' := fst (ex_reg_fit ex_cut (ex_X "a" "b") ex_y)). set (P := mkP 2 [[1; Q2Qc 2]]%Qc false).
  assert (E : ex_reg_fit ex_cut (ex_X "a" "b") ex_y = (e', Ok tt)) by (apply fit_ok; vm_compute; reflexivity).
  assert (Wc : wf_cfg (e_cfg ex_cut)) by (intros s Hs; discriminate).
  assert (Nd : new_data_ok (e_cfg ex_cut) (ex_X "a" "b") P).
  { split; [reflexivity|]. split; [repeat constructor|].
    intros i f s Hi Hs. assert (s = "cont") as -> by (cbn in Hs; destruct Hs as [[= _ <-]|[[= _ <-]|[]]]; reflexivity). split; [intros [?|?]; discriminate|discriminate]. }
  destruct (regressor_values _ _ _ _ _ _ _ _ _ _ _ _ P E (ex_wf_X _ _) Wc id_perm ex_suffixes I (ex_no_ordinal Regressor) Nd) as (gr & t & X' & Eg & Et & Ct & ET & Lr & EP).
  exists ex_cut, (ex_X "a" "b"), ex_y, e', P, [0; 0]%Qc, 0%Qc, (dt_kind t), (realq (Q2Qc (3 # 2))).
  split; [exact E|]. split; [reflexivity|]. split; [apply (ex_plain Regressor)|]. split; [vm_compute; reflexivity|]. split; [vm_compute; reflexivity|]. split.
  - pose proof (learned_gr e' gr Eg) as G. rewrite G in *. change (target_name ex_y) with (LStr "y") in Et. vm_compute in Et. injection Et as <-. vm_compute in ET. injection ET as <-.
    rewrite EP. cbn [dt_kind TorchModel.rows map link].
    replace (outs_q ex_act (learned_of e') _ _) with [Q2Qc (3 # 2)] by (vm_compute; reflexivity). cbn [map]. reflexivity.
  - intros r [<-|[]]. intros Q. apply realq_inj in Q. apply (f_equal this) in Q. vm_compute in Q. discriminate.
Qed.
