(** * AscentApi: every structure learner runs the augmented Lagrangian method. *)
From Coq Require Import List Bool Arith ZArith Lia String QArith Qcanon Reals.
From Coquelicot Require Import Coquelicot.
From Verif Require Import Base Names QcX Digraph SmModel SmProofs NotearsModel NotearsProofs NotearsThms TransModel MapperModel DynoModel DynoProofs DynoThms AcycLink.
From Verif Require Import FitLink FitDyno FirstAnswer AscentSpec AscentRun.
From Verif Require TorchModel TorchResult TorchExact.
Import ListNotations.
Local Open Scope string_scope.
Local Open Scope list_scope.
Local Open Scope nat_scope.

(** ** Specification *)

(** The answers of the optimiser have finite penalties; [P w x]: [w] has penalty [x]. *)
Definition finite_answers (opt : optimiser) (bs : list bound) (P : list Qc -> Qc -> Prop) : Prop :=
  forall r q s k, exists x, P (opt bs r (Fin q) s k) x.

(** The method of AscentSpec with the optimiser for the subproblems, from weight 1 and multiplier 0. *)
Definition runs (opt : optimiser) (bs : list bound) (P : list Qc -> Qc -> Prop) (tol limit : Qc) (n : nat) (from out : list Qc) (v : verdict) : Prop :=
  method (fun r q s k => opt bs r (Fin q) s k) P tol limit n 0 1%Qc 0%Qc None from out v.

(** The penalty of the effects within the period. *)
Definition within_penalty (eh : penalty) (d p : nat) (v : list Qc) (x : Qc) : Prop := exists wa, reshape_wa v d p = Ok wa /\ eh d (fst wa) = Fin x.

(** ** Proofs *)
Lemma method_ext solve (P P' : list Qc -> Qc -> Prop) tol limit : (forall w x, P w x -> P' w x) ->
  forall n k r a last from o v, method solve P tol limit n k r a last from o v -> method solve P' tol limit n k r a last from o v.
Proof.
  intros I. induction 1;
    [eapply raise|eapply limit_close|eapply limit_far|eapply converged|eapply exhausted|eapply next]; eauto.
Qed.

Lemma runs_det opt bs (P : list Qc -> Qc -> Prop) tol limit n from o v o' v' : (forall w x y, P w x -> P w y -> x = y) ->
  runs opt bs P tol limit n from o v -> runs opt bs P tol limit n from o' v' -> o = o' /\ v = v'.
Proof. intros F M M'. exact (method_det _ _ _ _ F _ _ _ _ _ _ _ _ M _ _ M'). Qed.

Lemma within_h eh d p v x : within_penalty eh d p v x <-> dyn_h eh d p v = Fin x.
Proof.
  unfold within_penalty, dyn_h. destruct (reshape_wa v d p) as [wa|e].
  - split; [intros (wa' & [= <-] & E); exact E|intros E; exists wa; auto].
  - split; [intros (wa' & E & _); discriminate|discriminate].
Qed.

Theorem run_numpy fuel opt eh X p t g b : 0 < max_iter p -> (0 <= h_tol p)%Qc -> from_numpy fuel opt eh X p t = Ok g -> numpy_warns fuel opt eh X p t = Ok b ->
  let d := m_cols X in let P := fun w x => eh d w = Fin x in exists bs, plain_question d (open_edge t Z.of_nat) bs /\ (finite_answers opt bs P ->
    exists w v, runs opt bs P (h_tol p) rho_max (max_iter p) (repeat 0%Qc (d * d)) w v /\
      graph_of g d node "unknown" (fun i j => nth (i * d + j) w 0%Qc) (keep_gt (w_threshold p)) /\ (b = true <-> v <> Converged)).
Proof.
  intros Hm Ht H Wn d P. exists (bnds_matrix t free d). split; [apply plain_asks|]. intros Fi.
  unfold from_numpy in H. fold d in H. destruct (all_finite X); cbn [negb] in H; [|discriminate]. destruct (m_size X =? 0); [discriminate|].
  apply bind_ok in H as ([s b'] & E & H). cbn [fst] in H. unfold numpy_warns in Wn. fold d in Wn. rewrite E in Wn. cbn [bind snd] in Wn. injection Wn as <-.
  destruct (ascent_method _ _ _ _ Ht Fi _ _ _ _ _ Hm E) as (v & M & B). exists (w_est s), v. split; [exact M|]. split; [|exact B]. eapply matrix_graph_of; [exact H|].
  intros i j Hi Hj. rewrite cut_le_entry. unfold keep_gt, entry.
  destruct (qle _ _) eqn:Q.
  + apply qle_iff in Q. split; [|intros [_ X1]; exfalso; apply (Qclt_not_le _ _ X1); auto].
    split; [congruence|]. intros [_ X1]. exfalso. apply (Qclt_not_le _ _ X1); auto.
  + apply qle_false in Q. tauto.
Qed.

Theorem run_lasso fuel opt eh X p t g b : 0 < max_iter p -> (0 <= h_tol p)%Qc -> from_numpy_lasso fuel opt eh X p t = Ok g -> numpy_lasso_warns fuel opt eh X p t = Ok b ->
  let d := m_cols X in let P := fun w x => eh d (lasso_matrix d w) = Fin x in exists bs, lasso_question d (open_edge t Z.of_nat) bs /\ (finite_answers opt bs P ->
    exists w v, runs opt bs P (h_tol p) rho_max (max_iter p) (repeat 0%Qc (2 * (d * d))) w v /\
      graph_of g d node "unknown" (fun i j => nth (i * d + j) w 0 - nth (d * d + (i * d + j)) w 0)%Qc (keep_ge (w_threshold p)) /\ (b = true <-> v <> Converged)).
Proof.
  intros Hm Ht H Wn d P. exists (bnds_matrix t nonneg d ++ bnds_matrix t nonneg d). split; [apply lasso_asks|]. intros Fi.
  unfold from_numpy_lasso in H. fold d in H. destruct (all_finite X); cbn [negb] in H; [|discriminate]. destruct (m_size X =? 0); [discriminate|].
  apply bind_ok in H as ([s b'] & E & H). cbn [fst] in H. unfold numpy_lasso_warns in Wn. fold d in Wn. rewrite E in Wn. cbn [bind snd] in Wn. injection Wn as <-.
  replace (2 * d * d) with (2 * (d * d)) in E by lia.
  destruct (ascent_method (fun w => eh d (lasso_matrix d w)) _ _ _ Ht Fi _ _ _ _ _ Hm E) as (v & M & B). exists (w_est s), v. split; [exact M|]. split; [|exact B].
  set (w := w_est s) in *.
  assert (L : List.length (lasso_matrix d w) = d * d).
  { unfold sm_of_matrix in H. rewrite cut_lt_length in H. destruct (_ =? _) eqn:L; [|discriminate]. apply Nat.eqb_eq; auto. }
  eapply matrix_graph_of; [exact H|]. intros i j Hi Hj. rewrite cut_lt_entry, lasso_entry by auto. unfold keep_ge, diff_entry.
  destruct (qlt _ _) eqn:Q.
  + apply qlt_iff in Q. split; [|intros [_ X1]; exfalso; apply (Qclt_not_le _ _ Q); auto].
    split; [congruence|]. intros [_ X1]. exfalso. apply (Qclt_not_le _ _ Q); auto.
  + apply qlt_false in Q. tauto.
Qed.

Theorem run_pandas fuel opt eh X p t g b : 0 < max_iter p -> (0 <= h_tol p)%Qc -> NoDup (map fst (f_cols X)) -> notears_pandas fuel opt eh X p t = Ok g ->
  pandas_warns (fun M tz => numpy_warns fuel opt eh M p tz) X t = Ok b ->
  let d := List.length (f_cols X) in let name := col_name (map fst (f_cols X)) in let P := fun w x => eh d w = Fin x in
  exists bs, plain_question d (open_edge t name) bs /\ (finite_answers opt bs P ->
    exists w v, runs opt bs P (h_tol p) rho_max (max_iter p) (repeat 0%Qc (d * d)) w v /\
      graph_of g d name "learned" (fun i j => nth (i * d + j) w 0%Qc) (keep_gt (w_threshold p)) /\ (b = true <-> v <> Converged)).
Proof.
  intros Hm Ht ND H Wn d name P. destruct (from_pandas_graph _ X t g ND H) as (tz & g0 & Et & E0 & G). fold d in E0, G.
  unfold pandas_warns in Wn. rewrite Et in Wn. cbn [bind] in Wn. rewrite map_length in Wn. fold d in Wn.
  destruct (run_numpy _ _ _ _ _ _ _ _ Hm Ht E0 Wn) as (bs & Q & K). cbn [m_cols] in *. exists bs. split.
  - apply (plain_question_ext d _ (open_edge tz Z.of_nat)); [|exact Q]. intros i j Hi Hj. symmetry. apply open_named; auto; rewrite map_length; auto.
  - intros Fi. destruct (K Fi) as (w & v & M & Gx & Bx). exists w, v. split; [exact M|]. split; [exact (G _ _ _ Gx)|exact Bx].
Qed.

Theorem run_pandas_lasso fuel opt eh X p t g b : 0 < max_iter p -> (0 <= h_tol p)%Qc -> NoDup (map fst (f_cols X)) -> notears_pandas_lasso fuel opt eh X p t = Ok g ->
  pandas_warns (fun M tz => numpy_lasso_warns fuel opt eh M p tz) X t = Ok b ->
  let d := List.length (f_cols X) in let name := col_name (map fst (f_cols X)) in let P := fun w x => eh d (lasso_matrix d w) = Fin x in
  exists bs, lasso_question d (open_edge t name) bs /\ (finite_answers opt bs P ->
    exists w v, runs opt bs P (h_tol p) rho_max (max_iter p) (repeat 0%Qc (2 * (d * d))) w v /\
      graph_of g d name "learned" (fun i j => nth (i * d + j) w 0 - nth (d * d + (i * d + j)) w 0)%Qc (keep_ge (w_threshold p)) /\ (b = true <-> v <> Converged)).
Proof.
  intros Hm Ht ND H Wn d name P. destruct (from_pandas_graph _ X t g ND H) as (tz & g0 & Et & E0 & G). fold d in E0, G.
  unfold pandas_warns in Wn. rewrite Et in Wn. cbn [bind] in Wn. rewrite map_length in Wn. fold d in Wn.
  destruct (run_lasso _ _ _ _ _ _ _ _ Hm Ht E0 Wn) as (bs & Q & K). cbn [m_cols] in *. exists bs. split.
  - apply (lasso_question_ext d _ (open_edge tz Z.of_nat)); [|exact Q]. intros i j Hi Hj. symmetry. apply open_named; auto; rewrite map_length; auto.
  - intros Fi. destruct (K Fi) as (w & v & M & Gx & Bx). exists w, v. split; [exact M|]. split; [exact (G _ _ _ Gx)|exact Bx].
Qed.

Theorem run_dynamic fuel opt eh X Xlags par t g b : 0 < max_iter par -> (0 <= h_tol par)%Qc -> learn_numpy_dynamic fuel opt eh X Xlags par t = Ok (g, b) ->
  let d := m_cols X in let p := m_cols Xlags / d in let P := within_penalty eh d p in exists bs, dyn_question d p (open_lag t Z.of_nat) bs /\ (finite_answers opt bs P ->
    exists w v, runs opt bs P (h_tol par) rho_max (max_iter par) (repeat 0%Qc (2 * (p + 1) * (d * d))) w v /\
      dgraph_of g d p dname "unknown" (effect d w) (keep_ge (w_threshold par)) /\ (b = true <-> v <> Converged)).
Proof.
  intros Hm Ht H d p P. exists (dbnds t d p). split; [apply dyn_asks|]. intros Fi.
  destruct (numpy_dynamic_states _ _ _ _ _ _ _ _ _ H) as (_ & _ & v' & G & _ & _ & (s & Ea & Ev) & _). fold d p in G, Ea. rewrite Ev in G.
  assert (Fi' : forall r q s k, exists x, dyn_h eh d p (opt (dbnds t d p) r (Fin q) s k) = Fin x).
  { intros r q s0 k. destruct (Fi r q s0 k) as [x Hx]. exists x. apply within_h. exact Hx. }
  destruct (ascent_method _ _ _ _ Ht Fi' _ _ _ _ _ Hm Ea) as (v & M & B). exists (w_est s), v. split; [|split; [exact G|exact B]].
  eapply method_ext; [|exact M]. intros w x Hx. apply within_h. exact Hx.
Qed.

(** ** Time series as data frames *)
Lemma dtabu_index_ban_inv names t tz k i j : NoDup names -> dtabu_index (col_idx (map LStr names)) t = Ok tz -> i < List.length names -> j < List.length names ->
  dbanned tz k (Z.of_nat i) (Z.of_nat j) -> dbanned t k (cname names i) (cname names j).
Proof.
  intros ND E Hi Hj B. unfold dtabu_index in E. apply bind_ok in E. destruct E as (e & E1 & E). apply bind_ok in E. destruct E as (q & E2 & E).
  apply bind_ok in E. destruct E as (c & E3' & E). injection E as <-.
  assert (F : forall A B (f : A -> res B) l l' y, mapM f l = Ok l' -> In y l' -> exists x, In x l /\ f x = Ok y).
  { intros A B0 f l l' y M Hy. apply mapM_ok in M. induction M as [|a b l l' Hab M IH]; [destruct Hy|].
    destruct Hy as [->|Hy]; [exists a; split; auto; left; auto|]. destruct (IH Hy) as (x & Hx & Ex). exists x. split; auto. right; auto. }
  assert (C : forall n m, m < List.length names -> idx_of (col_idx (map LStr names)) (LStr n) = Ok (Z.of_nat m) -> n = cname names m).
  { intros n m Hm En. apply idx_of_inv in En; [|apply LStr_NoDup; auto]. unfold col_name in En. rewrite (nth_indep _ _ (LStr "")) in En by (rewrite map_length; auto).
    rewrite map_nth in En. injection En as En. symmetry. exact En. }
  destruct B as [(l & El & I)|[(l & El & I)|(l & El & I)]]; cbn in El; subst.
  - destruct (dt_edges t) as [l0|] eqn:T; cbn [opt_mapM] in E1; [|discriminate]. apply bind_ok in E1. destruct E1 as (l' & M & [= ->]).
    destruct (F _ _ _ _ _ _ M I) as ([[m u] v] & Iu & Eu). cbn [fst snd] in Eu. apply bind_ok in Eu. destruct Eu as (a & Ea & Eu). apply bind_ok in Eu. destruct Eu as (b & Eb & Eu).
    injection Eu as -> -> ->. apply C in Ea; auto. apply C in Eb; auto. left. exists l0. split; auto. congruence.
  - destruct (dt_parents t) as [l0|] eqn:T; cbn [opt_mapM] in E2; [|discriminate]. apply bind_ok in E2. destruct E2 as (l' & M & [= ->]).
    destruct (F _ _ _ _ _ _ M I) as (u & Iu & Eu). apply C in Eu; auto. right; left. exists l0. split; auto. congruence.
  - destruct (dt_children t) as [l0|] eqn:T; cbn [opt_mapM] in E3'; [|discriminate]. apply bind_ok in E3'. destruct E3' as (l' & M & [= ->]).
    destruct (F _ _ _ _ _ _ M I) as (u & Iu & Eu). apply C in Eu; auto. right; right. exists l0. split; auto. congruence.
Qed.

Lemma open_lag_named names t tz k i j : NoDup names -> dtabu_index (col_idx (map LStr names)) t = Ok tz -> i < List.length names -> j < List.length names ->
  (open_lag tz Z.of_nat k i j <-> open_lag t (cname names) k i j).
Proof.
  intros ND E Hi Hj. unfold open_lag. split; intros [N B]; (split; [exact N|]); intros C; apply B.
  - eapply dtabu_index_ban; eauto.
  - eapply dtabu_index_ban_inv; eauto.
Qed.

Lemma dyn_question_ext d p may may' bs : (forall k i j, i < d -> j < d -> (may k i j <-> may' k i j)) -> dyn_question d p may' bs -> dyn_question d p may bs.
Proof. intros H [L Q]. split; [exact L|]. intros k s i j Hk Hs Hi Hj b. subst b. destruct (Q k s i j Hk Hs Hi Hj) as [A B]. split; intros M; [apply A|apply B]; rewrite <- H; auto. Qed.

Theorem run_pandas_dynamic fuel opt eh l p par t g b : 0 < max_iter par -> (0 <= h_tol par)%Qc -> NoDup (variables l) -> learn_pandas_dynamic fuel opt eh l p par t = Ok (g, b) ->
  let d := List.length (variables l) in let name := cname (variables l) in let P := within_penalty eh d p in
  exists bs, dyn_question d p (open_lag t name) bs /\ (finite_answers opt bs P ->
    exists w v, runs opt bs P (h_tol par) rho_max (max_iter par) (repeat 0%Qc (2 * (p + 1) * (d * d))) w v /\
      dgraph_of g d p (fun i k => LStr (lag_name (name i) k)) "learned" (effect d w) (keep_ge (w_threshold par)) /\ (b = true <-> v <> Converged)).
Proof.
  intros Hm Ht ND H d name P. destruct (pandas_dynamic_states _ _ _ _ _ _ _ _ _ ND H) as (X & Xl & tz & g0 & _ & Et & El & _ & T). fold d in El, T.
  destruct (numpy_dynamic_states _ _ _ _ _ _ _ _ _ El) as (Hd & _). cbn [m_cols] in Hd.
  destruct (run_dynamic _ _ _ _ _ _ _ _ _ Hm Ht El) as (bs & Q & K). cbn [m_cols] in *. rewrite Nat.div_mul in * by lia. exists bs. split.
  - apply (dyn_question_ext d p _ (open_lag tz Z.of_nat)); [|exact Q]. intros k i j Hi Hj. symmetry. apply open_lag_named; auto.
  - intros Fi. destruct (K Fi) as (w & v & M & Gx & Bx). exists w, v. split; [exact M|]. split; [exact (T _ _ _ Gx)|exact Bx].
Qed.

Theorem first_pandas_dynamic fuel opt eh l p par t g b : 0 < max_iter par -> NoDup (variables l) -> learn_pandas_dynamic fuel opt eh l p par t = Ok (g, b) ->
  let d := List.length (variables l) in let name := cname (variables l) in exists bs, dyn_question d p (open_lag t name) bs /\
    let v := opt bs 1%Qc (Fin 0%Qc) (repeat 0%Qc (2 * (p + 1) * (d * d))) 0 in
    forall wa x, reshape_wa v d p = Ok wa -> eh d (fst wa) = Fin x -> decided par x ->
      dgraph_of g d p (fun i k => LStr (lag_name (name i) k)) "learned" (effect d v) (keep_ge (w_threshold par)) /\ (b = true <-> (h_tol par < x)%Qc).
Proof.
  intros Hm ND H d name. destruct (pandas_dynamic_states _ _ _ _ _ _ _ _ _ ND H) as (X & Xl & tz & g0 & _ & Et & El & _ & T). fold d in El, T.
  destruct (numpy_dynamic_states _ _ _ _ _ _ _ _ _ El) as (Hd & _). cbn [m_cols] in Hd.
  destruct (first_dynamic _ _ _ _ _ _ _ _ _ Hm El) as (bs & Q & K). cbn [m_cols] in *. rewrite Nat.div_mul in * by lia. exists bs. split.
  - apply (dyn_question_ext d p _ (open_lag tz Z.of_nat)); [|exact Q]. intros k i j Hi Hj. symmetry. apply open_lag_named; auto.
  - cbv zeta. intros wa x Re Ex C. destruct (K wa x Re Ex C) as [Gx Bx]. split; [exact (T _ _ _ Gx)|exact Bx].
Qed.

(** ** torch *)
Theorem run_torch fuel opt eh act grad rnd X schema p t l : 0 < TorchModel.tp_max_iter p -> TorchModel.torch_numpy fuel opt eh act grad rnd X schema p t = Ok l ->
  let d := nth 0 (TorchModel.l_dims l) 0 in let m := nth 1 (TorchModel.l_dims l) 0 in
  let P := fun v x => eh (TorchModel.h_size (TorchModel.l_dtypes l)) (TorchModel.h_matrix (TorchModel.l_dtypes l) d m v) = Fin x in
  exists bs, TorchExact.torch_asks X schema p t l bs /\ (finite_answers opt bs P ->
    exists v, runs opt bs P TorchModel.torch_h_tol TorchModel.torch_rho_max (TorchModel.tp_max_iter p)
                (repeat 0%Qc (d * m * d + (if TorchModel.tp_bias p then d * m else 0)) ++ rnd) (TorchModel.l_params l) v /\
      (TorchModel.l_warned l = true <-> v = OutOfIterations)).
Proof.
  intros Hm H d m P. destruct (TorchResult.torch_numpy_inv _ _ _ _ _ _ _ _ _ _ _ H) as (ks & dts & X' & t' & Ek & Ep & O).
  destruct (TorchResult.oc_fit _ _ _ _ _ _ _ _ _ _ _ _ _ O) as (k & Ef). unfold TorchResult.fit_call in Ef. cbv zeta in Ef.
  rewrite <- (TorchResult.oc_dtypes _ _ _ _ _ _ _ _ _ _ _ _ _ O) in Ef.
  pose proof (TorchResult.oc_dims _ _ _ _ _ _ _ _ _ _ _ _ _ O) as Ed. rewrite <- Ed in Ef.
  assert (E0 : nth 0 (TorchModel.l_dims l) 0 = TorchModel.width X') by (rewrite Ed; apply TorchResult.net_dims_0).
  pose proof (TorchExact.outcome_asks _ _ _ _ _ _ _ _ _ _ _ _ _ _ _ Ek Ep O) as As. cbv zeta in As.
  subst P d m. rewrite !E0. eexists. split; [exact As|]. intros Fi.
  destruct (TorchModel.tp_max_iter p) as [|n] eqn:En; [lia|].
  refine (fit_method (fun v => eh (TorchModel.h_size (TorchModel.l_dtypes l)) (TorchModel.h_matrix (TorchModel.l_dtypes l) (TorchModel.width X') (nth 1 (TorchModel.l_dims l) 0) v)) _ _ Fi _ _ _ _ _ _ _ _ _ _ None Ef eq_refl _).
  reflexivity.
Qed.
