(** * PropsSklMore: more about the scikit-learn style estimators (C60-C66). *)
From Coq Require Import List Bool Arith ZArith Lia String QArith Qcanon Permutation Reals Lra.
From Verif Require Import Base Names Digraph SmModel SmProofs QcX NetModel NotearsModel NotearsProofs NotearsThms AcycLink
  TorchModel TorchSpec TorchResult SklModel SklCoef SklFit OrdProofs SklPredict SklNet SklProba SklClf SklLin SklRefit SklMain SklValues PropsNotears PropsTorch PropsSkl.
Import ListNotations.
Local Open Scope string_scope.
Local Open Scope list_scope.
Local Open Scope nat_scope.

(** ** C60: an ordinal feature spoils predictions *)
Definition ex_ordinal : est := unfitted (ex_config Regressor (Some [(LStr "a", "ord"); (LStr "b", "cont")])) None.

Definition values_of (e : est) (i : nat) : list Qc := match e_graph e with Some g => g_values g i | None => [] end.

(** With two categories predict raises an IndexError for every input. *)
Theorem C60_ordinal_two_refuted : exists e X y e', ex_reg_fit e X y = (e', Ok tt) /\
  forall x b, In x [0; 1]%Qc -> base_predict ex_act e' (mkP 2 [[x; b]] false) = Err IndexError.
Proof.
  set (e' := fst (ex_reg_fit ex_ordinal (ex_X "a" "b") ex_y)). exists ex_ordinal, (ex_X "a" "b"), ex_y, e'. split; [apply fit_ok; vm_compute; reflexivity|].
  intros x b Hx. unfold base_predict. replace (c_standardize (e_cfg e')) with false by (vm_compute; reflexivity). cbn [bind p_rows p_cols map].
  destruct (e_graph e') as [gr|] eqn:Eg; [|vm_compute in Eg; discriminate]. pose proof (learned_gr e' gr Eg) as G.
  assert (Ev : log_cum_odds (g_values gr 0) = log_cum_odds (values_of e' 0)) by (unfold values_of; rewrite Eg; reflexivity).
  replace (e_names e') with (Some ([LStr "a"; LStr "b"], LStr "y")) by (vm_compute; reflexivity). rewrite G. unfold reconstruct_data.
  let D := eval vm_compute in (l_dtypes (learned_of e')) in replace (l_dtypes (learned_of e')) with D by (vm_compute; reflexivity).
  replace (l_dims (learned_of e')) with [3; 1] by (vm_compute; reflexivity). cbn [nth].
  set (O := log_cum_odds (values_of e' 0)) in *. assert (LO : List.length O = 1) by (unfold O, log_cum_odds; rewrite map_length; vm_compute; reflexivity).
  match goal with |- context [foldM ?f ?l (mkData 3 ?r)] => set (pre := foldM f l (mkData 3 r)) end.
  assert (Ep : exists c, pre = Ok (mkData 3 [[c; b; 0%Qc]])).
  { unfold pre. destruct Hx as [<-|[<-|[]]]; eexists; vm_compute; reflexivity. }
  destruct Ep as (c & ->). cbn [bind width Nat.eqb negb TorchModel.rows map foldM].
  match goal with |- context [mkRm 3 [?z]] => set (row := z) end.
  unfold inverse_link at 1. cbn [dt_kind dt_idx Nat.ltb Nat.leb r_width r_rows mapM]. rewrite Ev. fold O.
  destruct O as [|o O']; [discriminate|]. destruct O'; [|discriminate]. unfold get_probs. cbn [map bind combine tl last app List.length inverse_link dt_kind].
  replace (dget label_eqb (l_dist (learned_of e')) (LStr "y")) with (Some (mkDt Cont 2 [] [])) by (vm_compute; reflexivity). reflexivity.
Qed.

(** With three categories what is predicted is the probability of the last category of that feature. *)
Definition ex_X3 : xdata := mkX [(LStr "a", true); (LStr "b", true)] ix3 [[Fin 0; Fin 1]; [Fin 1; Fin 0]; [Fin (Q2Qc 2); Fin (Q2Qc 3)]]%Qc.
Theorem C60_ordinal_refuted : exists e X y e', ex_reg_fit e X y = (e', Ok tt) /\
  (exists w, reg_coef e' "mean_effect" = Ok w /\ map this w = [1 # 2; 1 # 2]%Q) /\ (exists b, reg_intercept e' = Ok b /\ this b = (1 # 2)%Q) /\
  forall x b, In x [0; 1; Q2Qc 2]%Qc -> exists v, base_predict ex_act e' (mkP 2 [[x; b]] false) = Ok (Cont, [[v]]) /\ (0 < v < 1)%R.
Proof.
  set (e' := fst (ex_reg_fit ex_ordinal ex_X3 ex_y)). exists ex_ordinal, ex_X3, ex_y, e'. split; [apply fit_ok; vm_compute; reflexivity|].
  split; [eexists; split; vm_compute; reflexivity|]. split; [eexists; split; vm_compute; reflexivity|].
  intros x b Hx. unfold base_predict. replace (c_standardize (e_cfg e')) with false by (vm_compute; reflexivity). cbn [bind p_rows p_cols map].
  destruct (e_graph e') as [gr|] eqn:Eg; [|vm_compute in Eg; discriminate]. pose proof (learned_gr e' gr Eg) as G.
  assert (Ev : log_cum_odds (g_values gr 0) = log_cum_odds (values_of e' 0)) by (unfold values_of; rewrite Eg; reflexivity).
  replace (e_names e') with (Some ([LStr "a"; LStr "b"], LStr "y")) by (vm_compute; reflexivity). rewrite G. unfold reconstruct_data.
  let D := eval vm_compute in (l_dtypes (learned_of e')) in replace (l_dtypes (learned_of e')) with D by (vm_compute; reflexivity).
  replace (l_dims (learned_of e')) with [3; 1] by (vm_compute; reflexivity). cbn [nth].
  set (O := log_cum_odds (values_of e' 0)) in *. assert (LO : List.length O = 2) by (unfold O, log_cum_odds; rewrite map_length; vm_compute; reflexivity).
  match goal with |- context [foldM ?f ?l (mkData 3 ?r)] => set (pre := foldM f l (mkData 3 r)) end.
  assert (Ep : exists c, pre = Ok (mkData 3 [[c; b; 0%Qc]])).
  { unfold pre. destruct Hx as [<-|[<-|[<-|[]]]]; eexists; vm_compute; reflexivity. }
  destruct Ep as (c & ->). cbn [bind width Nat.eqb negb TorchModel.rows map foldM].
  match goal with |- context [mkRm 3 [?z]] => set (row := z) end.
  assert (L3 : List.length (nodup Qc_eq_dec (values_of e' 0)) = 3) by (vm_compute; reflexivity).
  destruct (C40_probabilities (values_of e' 0) (nth 0 row 0%R)) as (ps & Eps & Lps & Pos & Sum); [lia|]. fold O in Eps.
  unfold inverse_link at 1. cbn [dt_kind dt_idx Nat.ltb Nat.leb r_width r_rows mapM]. rewrite Ev, Eps, LO. cbn [bind inverse_link dt_kind].
  replace (dget label_eqb (l_dist (learned_of e')) (LStr "y")) with (Some (mkDt Cont 2 [] [])) by (vm_compute; reflexivity).
  replace (e_type e') with (Some "cont") by (vm_compute; reflexivity). cbn [dt_kind dt_columns dt_idx forallb Nat.ltb Nat.leb r_width r_rows andb bind map].
  exists (nth 2 ps 0%R). split; [reflexivity|]. rewrite L3 in Lps. clear - Lps Pos Sum. do 4 (destruct ps as [|? ps]; try discriminate Lps). cbn [nth]. cbn in Sum.
  inversion Pos as [|? ? P0 Q0]. inversion Q0 as [|? ? P1 Q1]. inversion Q1 as [|? ? P2 Q2]. lra.
Qed.
Print Assumptions C60_ordinal_refuted.

(** ** C61: estimators that were never fitted *)
Theorem C61_unfitted_partial : forall c a1 a2 a3 a4 t e act P, dag_init c a1 a2 a3 a4 t = Ok e -> c_standardize c = false ->
  base_predict act e P = Err NotFittedError /\ predict_proba act e P = Err NotFittedError /\ clf_predict act e P = Err NotFittedError /\
  forall name data, get_edges_to_node e name data = Err NotFittedError.
Proof.
  intros c a1 a2 a3 a4 t e act P E Sc. assert (Q : exists t', e = mkEst c t' None None None None None).
  { unfold dag_init in E. destruct a1, a2, a3, a4; try discriminate. cbn [negb] in E. destruct t as [a|]; [destruct (smem a _); [|discriminate]|]; injection E as <-; eauto. }
  destruct Q as (t' & ->). assert (B : base_predict act (mkEst c t' None None None None None) P = Err NotFittedError) by (unfold base_predict; cbn [e_cfg]; rewrite Sc; reflexivity).
  split; auto. unfold predict_proba, clf_predict, predict_proba. rewrite B. auto.
Qed.
Print Assumptions C61_unfitted_partial.

Example C61_met : exists e, dag_init (ex_config Classifier None) true true true true (Some "ord") = Ok e /\ dag_init (ex_config Classifier None) true true true true (Some "cont") = Err NotImplementedError.
Proof. eexists. split; reflexivity. Qed.

(** With standardize, or after a failed fit of a classifier, it is an AttributeError. *)
Theorem C61_refuted : exists c c' X y P, (exists e, dag_init c true true true true None = Ok e /\ base_predict ex_act e P = Err AttributeError) /\
  (exists e, dag_init c' true true true true None = Ok e /\ snd (ex_clf_fit e X y) = Err ValueError /\ clf_predict ex_act (fst (ex_clf_fit e X y)) P = Err AttributeError).
Proof.
  exists (mkCfg Regressor None true None 0%Qc no_tabu true false true 5), (ex_config Classifier None), (ex_X "a" "b"), (ex_labels ["n"; "n"; "n"]), ex_P.
  split; eexists; split; try reflexivity. split; reflexivity.
Qed.

(** The type of the target is always one the estimator supports. *)
Theorem C61_types : forall c a1 a2 a3 a4 t e0 e, c_est c = Regressor -> dag_init c a1 a2 a3 a4 t = Ok e0 -> regressor_after e0 e ->
  e_type e = None \/ e_type e = Some "cont" \/ e_type e = Some "poiss".
Proof. exact regressor_types. Qed.
Print Assumptions C61_types.

(** ** C62: arrays of integers *)
Theorem C62_integers_partial : forall act e d rows ints, c_standardize (e_cfg e) = false -> base_predict act e (mkP d rows ints) = base_predict act e (mkP d rows false).
Proof. intros act e d rows ints Sc. unfold base_predict. cbn [p_cols p_rows p_ints]. rewrite Sc. reflexivity. Qed.
Print Assumptions C62_integers_partial.

(** With standardize the scaled values are cut to integers. *)
Definition ex_std : est := unfitted (mkCfg Regressor None true None 0%Qc no_tabu true false true 5) (Some "poiss").
Theorem C62_refuted : exists e X y e' rows u v, ex_reg_fit e X y = (e', Ok tt) /\ Forall (Forall (fun q => trunc q = q)) rows /\
  base_predict ex_act e' (mkP 2 rows false) = Ok (Poiss, [[u]]) /\ base_predict ex_act e' (mkP 2 rows true) = Ok (Poiss, [[v]]) /\ u <> v.
Proof.
  set (e' := fst (ex_reg_fit ex_std (ex_X "a" "b") ex_y)). assert (E : ex_reg_fit ex_std (ex_X "a" "b") ex_y = (e', Ok tt)) by (apply fit_ok; vm_compute; reflexivity).
  assert (Wc : wf_cfg (e_cfg ex_std)) by (intros s Hs; discriminate).
  assert (Nd : forall i, new_data_ok (e_cfg ex_std) (ex_X "a" "b") (mkP 2 [[1; Q2Qc 2]]%Qc i)).
  { intros i. split; [reflexivity|]. split; [repeat constructor|].
    intros k f s Hi Hs. assert (s = "cont") as -> by (cbn in Hs; destruct Hs as [[= _ <-]|[[= _ <-]|[]]]; reflexivity). split; [intros [?|?]; discriminate|discriminate]. }
  assert (No : no_ordinal (e_cfg ex_std) (ex_X "a" "b")) by (intros f _ H; cbn in H; intuition congruence).
  assert (V : forall i q, match foldM transform (l_dtypes (learned_of e')) (mkData 3 (map (fun r => r ++ [0%Qc]) (scaled_rows e' (mkP 2 [[1; Q2Qc 2]]%Qc i)))) with
      | Ok X' => map (outs_q ex_act (learned_of e') (mkDt Poiss 2 [] [])) (TorchModel.rows X') | Err _ => [] end = [[q]] ->
    base_predict ex_act e' (mkP 2 [[1; Q2Qc 2]]%Qc i) = Ok (Poiss, [[exp (realq q)]])).
  { intros i q Q. destruct (regressor_values _ _ _ _ _ _ _ _ _ _ _ _ _ E (ex_wf_X _ _) Wc id_perm ex_suffixes (or_intror (or_introl eq_refl)) No (Nd i)) as (gr & t & X' & Eg & Et & Ct & ET & Lr & EP).
    pose proof (learned_gr e' gr Eg) as G. rewrite G in *. change (target_name ex_y) with (LStr "y") in Et.
    assert (Et' : dget label_eqb (l_dist (learned_of e')) (LStr "y") = Some (mkDt Poiss 2 [] [])) by (vm_compute; reflexivity). rewrite Et in Et'. injection Et' as ->.
    change (List.length (x_cols (ex_X "a" "b"))) with 2 in ET. rewrite ET in Q. rewrite EP. cbn [dt_kind]. do 2 f_equal.
    transitivity (map (fun z => map (unscale e') (link Poiss (map realq z))) (map (outs_q ex_act (learned_of e') (mkDt Poiss 2 [] [])) (TorchModel.rows X'))); [rewrite map_map; reflexivity|].
    rewrite Q. cbn [map link]. replace (unscale e') with (fun v : R => v) by (vm_compute; reflexivity). reflexivity. }
  exists ex_std, (ex_X "a" "b"), ex_y, e', [[1; Q2Qc 2]]%Qc. eexists. eexists. split; [exact E|]. split; [repeat constructor; apply Qc_is_canon; reflexivity|].
  split; [apply V; vm_compute; reflexivity|]. split; [apply V; vm_compute; reflexivity|]. intros Q. apply exp_inv in Q. apply realq_inj in Q. apply (f_equal this) in Q. vm_compute in Q. discriminate.
Qed.

(** ** C63: copies *)
Theorem C63_clone_partial : forall c a1 a2 a3 a4 e0 e, dag_init c a1 a2 a3 a4 None = Ok e0 -> c_iter c = 100 -> regressor_after e0 e \/ (exists ok, classifier_after ok e0 e) -> clone e = Ok e0.
Proof.
  intros c a1 a2 a3 a4 e0 e E It H. assert (Q : e0 = mkEst c None None None None None None) by (unfold dag_init in E; destruct a1, a2, a3, a4; try discriminate E; injection E as <-; reflexivity).
  assert (Ce : e_cfg e = c).
  { destruct H as [H|(ok & H)].
    - destruct (regressor_state _ _ H) as ((C & _) & _). rewrite C, Q. reflexivity.
    - induction H as [|e fuel opt eh act grad rnd order sd X y H IH]; [rewrite Q; reflexivity|]. unfold clf_fit. destruct (_ && _); auto. cbv zeta. destruct (_ <? 2); auto.
      match goal with |- e_cfg (fst (base_fit _ _ _ _ _ _ _ _ ?e1 ?X1 ?y1)) = _ => destruct (base_fit_keeps fuel opt eh act grad rnd order sd e1 X1 y1) as (B & _); rewrite B end.
      rewrite with_type_cfg. auto. }
  unfold clone, dag_init. rewrite Ce, Q. cbn [negb]. do 2 f_equal. destruct c. cbn in It. subst. reflexivity.
Qed.
Print Assumptions C63_clone_partial.

Example C63_met : exists e0, dag_init (mkCfg Regressor None true None 0%Qc no_tabu true false false 100) true true true true None = Ok e0 /\ regressor_after e0 (fst (ex_reg_fit e0 (ex_X "a" "b") ex_y)) /\
  e_graph (fst (ex_reg_fit e0 (ex_X "a" "b") ex_y)) <> None.
Proof. eexists. split; [reflexivity|]. split; [apply rfits_more; constructor|]. intros Q. apply (f_equal (fun o => match o with Some _ => true | None => false end)) in Q. vm_compute in Q. discriminate. Qed.

(** The type of the target and the number of iterations are not copied. *)
Theorem C63_refuted : exists c e e1, c_iter c = 5 /\ dag_init c true true true true (Some "poiss") = Ok e /\ clone e = Ok e1 /\ c_iter (e_cfg e1) = 100 /\
  forall X y, snd (ex_reg_fit e X y) = Ok tt -> e_type (fst (ex_reg_fit e X y)) = Some "poiss" /\ e_type (fst (ex_reg_fit e1 X y)) = Some "cont".
Proof.
  exists (ex_config Regressor None). eexists. eexists. split; [reflexivity|]. split; [reflexivity|]. split; [reflexivity|]. split; [reflexivity|]. intros X y _. unfold ex_reg_fit, reg_fit.
  split; match goal with |- e_type (fst (base_fit ?a ?b ?c ?d ?e ?f ?g ?h ?e1 ?X1 ?y1)) = _ => destruct (base_fit_keeps a b c d e f g h e1 X1 y1) as (_ & B & _); rewrite B; reflexivity end.
Qed.

(** ** C64: enforce_dag and bans *)
Theorem C64_acyclic : forall fuel opt eh act grad rnd order sd e X name e', fitted fuel opt eh act grad rnd order sd e X name e' -> wf_x X -> wf_cfg (e_cfg e) ->
  (forall ds, Permutation (order ds) ds) -> c_enforce (e_cfg e) = true -> exists gr, e_graph e' = Some gr /\ acyclic (edges (g_edges gr)).
Proof. exact fitted_acyclic. Qed.
Print Assumptions C64_acyclic.

Theorem C64_tabu : forall fuel opt eh act grad rnd order sd e X name e', fitted fuel opt eh act grad rnd order sd e X name e' -> wf_x X -> wf_cfg (e_cfg e) ->
  (forall ds, Permutation (order ds) ds) -> respects_bounds opt -> gradient_local grad \/ linear_cfg (e_cfg e) ->
  exists gr, e_graph e' = Some gr /\ forall u v, In (u, v) (edges (g_edges gr)) -> exists c c' k k',
    In c (map fst (x_cols X) ++ [name]) /\ In c' (map fst (x_cols X) ++ [name]) /\ u = category_name c k /\ v = category_name c' k' /\ c <> c' /\ ~ banned (c_tabu (e_cfg e)) c c'.
Proof. exact fitted_tabu. Qed.
Print Assumptions C64_tabu.

Definition ex_enforce : est := unfitted (mkCfg Regressor None true None 0%Qc (mkTabu (Some [(LStr "b", LStr "a")]) None None) true true false 5) None.
Example C64_met : snd (ex_reg_fit ex_enforce (ex_X "a" "b") ex_y) = Ok tt /\ edges_of_fit (fst (ex_reg_fit ex_enforce (ex_X "a" "b") ex_y)) = [(LStr "a", LStr "b"); (LStr "a", LStr "y"); (LStr "b", LStr "y")].
Proof. split; vm_compute; reflexivity. Qed.

(** ** C65: a fit that fails changes nothing *)

(** If the data are rejected before anything is done. *)
Theorem C65_rejected_partial : forall fuel opt eh act grad rnd order sd e X y a, e_type e = Some a -> check_X_y X y = false ->
  reg_fit fuel opt eh act grad rnd order sd e X y = (e, Err ValueError).
Proof. intros. unfold reg_fit, with_type. rewrite H. unfold base_fit. rewrite H0. reflexivity. Qed.
Print Assumptions C65_rejected_partial.

Example C65_met : check_X_y (ex_X "a" "b") (mkY None ix3 [Fin 1%Qc; NaN; Fin 0%Qc] true) = false.
Proof. reflexivity. Qed.

(** Other failures leave a mixture of the old and the new: the regressor reports a coefficient for each new feature
    and one more; a classifier predicts a class of the data that could not be fitted. *)
Theorem C65_refuted : exists e X X' y y' w w', let before := fst (ex_reg_fit e X y) in let failed := ex_reg_fit before X' y' in
  snd (ex_reg_fit e X y) = Ok tt /\ snd failed = Err ValueError /\ reg_coef before "mean_effect" = Ok w /\ reg_coef (fst failed) "mean_effect" = Ok w' /\ List.length w = 2 /\ List.length w' = 3.
Proof.
  exists (unfitted (ex_config Regressor None) None), (ex_X "a" "b"), (ex_X "c" "b"), ex_y, (mkY (Some (LStr "y")) [LInt 0; LInt 1; LInt 3] (y_vals ex_y) true). eexists. eexists. cbv zeta.
  split; [vm_compute; reflexivity|]. split; [vm_compute; reflexivity|]. split; [vm_compute; reflexivity|]. split; [vm_compute; reflexivity|]. split; reflexivity.
Qed.

Theorem C65_classifier_refuted : exists e X y y', let before := fst (ex_clf_fit e X y) in let failed := ex_clf_fit before X y' in
  snd (ex_clf_fit e X y) = Ok tt /\ snd failed = Err ValueError /\ e_classes before = Some [LStr "n"; LStr "y"] /\ e_classes (fst failed) = Some [LStr "z"] /\
  e_graph (fst failed) = e_graph before.
Proof.
  exists (unfitted (ex_config Classifier None) None), (ex_X "a" "b"), (ex_labels ["n"; "y"; "n"]), (ex_labels ["z"; "z"; "z"]). cbv zeta.
  split; [vm_compute; reflexivity|]. split; [vm_compute; reflexivity|]. split; [vm_compute; reflexivity|]. split; [vm_compute; reflexivity|]. reflexivity.
Qed.

(** ** C66: a fitted regressor predicts one number for each row *)
Theorem C66_regressor_partial : forall fuel opt eh act grad rnd order sd e X y e' P, reg_fit fuel opt eh act grad rnd order sd e X y = (e', Ok tt) -> wf_x X -> wf_cfg (e_cfg e) ->
  (forall ds, Permutation (order ds) ds) -> no_suffixes (map fst (x_cols X) ++ [target_name y]) -> match e_type e with None => True | Some a => In a ["cont"; "poiss"] end ->
  no_ordinal (e_cfg e) X -> new_data_ok (e_cfg e) X P ->
  exists k vs, base_predict act e' P = Ok (k, map (fun v => [v]) vs) /\ List.length vs = List.length (p_rows P) /\ (e_type e = Some "poiss" -> Forall (fun v => (0 < v)%R) vs).
Proof.
  intros fuel opt eh act grad rnd order sd e X y e' P E Wx Wc Po NS T No ND.
  destruct (regressor_values _ _ _ _ _ _ _ _ _ _ _ _ P E Wx Wc Po NS T No ND) as (gr & t & X' & Eg & Et & Ct & ET & Lr & EP).
  destruct (reg_fit_inv _ _ _ _ _ _ _ _ _ _ _ _ E) as (X1 & y1 & rows & gr1 & FO). cbv zeta in FO.
  rewrite <- (with_type_cfg e "cont") in *.
  destruct (fitted_net _ _ _ _ _ _ _ _ _ _ _ _ _ _ _ _ FO Wx Wc Po NS) as (t1 & N). rewrite (fo_graph _ _ _ _ _ _ _ _ _ _ _ _ _ _ _ _ FO) in Eg. injection Eg as <-.
  pose proof (nt_dist _ _ _ _ _ _ _ N) as D. rewrite Et in D. injection D as <-. pose proof (nt_kind _ _ _ _ _ _ _ N) as Kt.
  assert (Ka : dt_kind t = Cont \/ dt_kind t = Poiss).
  { destruct (e_type e) as [a|]; [|injection Kt as <-; auto]. cbn in T. destruct T as [<-|[<-|[]]]; injection Kt as <-; auto. }
  exists (dt_kind t), (map (fun r => unscale e' (hd 0%R (link (dt_kind t) (map realq (outs_q act (g_learned gr1) t r))))) (TorchModel.rows X')). split; [|split].
  - rewrite EP, map_map. do 2 f_equal. apply map_ext. intros r. unfold outs_q. rewrite Ct. destruct Ka as [-> | ->]; reflexivity.
  - rewrite map_length. exact Lr.
  - intros Tp. rewrite Tp in *. injection Kt as <-. apply Forall_forall. intros v Hv. apply in_map_iff in Hv. destruct Hv as (r & <- & _). unfold outs_q. rewrite Ct. cbn [map link hd].
    unfold unscale. rewrite (fo_type _ _ _ _ _ _ _ _ _ _ _ _ _ _ _ _ FO). apply exp_pos.
Qed.
Print Assumptions C66_regressor_partial.

Example C66_met : let e := unfitted (ex_config Regressor None) (Some "poiss") in snd (ex_reg_fit e (ex_X "a" "b") ex_y) = Ok tt /\ wf_x (ex_X "a" "b") /\ wf_cfg (e_cfg e) /\
  no_suffixes (map fst (x_cols (ex_X "a" "b")) ++ [target_name ex_y]) /\ no_ordinal (e_cfg e) (ex_X "a" "b") /\ new_data_ok (e_cfg e) (ex_X "a" "b") ex_P.
Proof.
  cbv zeta. split; [vm_compute; reflexivity|]. split; [apply ex_wf_X|]. split; [intros s Hs; discriminate|]. split; [exact ex_suffixes|]. split; [apply ex_no_ordinal|apply ex_new].
Qed.
