(** * SklMain: fits of regressors and classifiers alike. *)
From Coq Require Import List Bool Arith ZArith Lia String QArith Qcanon Permutation Reals Lra.
From Verif Require Import Base Names Digraph SmModel SmProofs QcX NetModel NotearsModel NotearsProofs NotearsThms AcycLink
  TorchModel TorchSpec TorchProofs TorchThms TorchGraph TorchResult TorchPandas TorchFrame TorchTotal TorchFinal SklModel SklCoef SklFit SklThms OrdProofs SklPredict SklNet SklProba SklClf SklLin.
Import ListNotations.
Local Open Scope string_scope.
Local Open Scope list_scope.
Local Open Scope nat_scope.

Local Notation lspec := label_eqb_spec.

(** ** Specification *)

(** The network of the estimator has no hidden layer. *)
Definition linear_cfg (c : config) : Prop := linear (mkTp (c_hidden c) (c_bias c) (Some (c_threshold c)) (c_iter c)).

(** No feature is categorical. *)
Definition no_categories (c : config) (X : xdata) : Prop := forall f, In f (map fst (x_cols X)) -> ~ In (f, "cat") (feature_schema c X).

Section Fitted.
  Context (fuel : nat) (opt : optimiser) (eh : tpenalty) (act : activation) (grad : autograd) (rnd : list Qc) (order : list dtype -> list dtype) (sd : list Qc -> Qc).

  (** [e'] comes out of fitting [e] with features [X] and a target called [name]. *)
  Definition fitted (e : est) (X : xdata) (name : label) (e' : est) : Prop :=
    (exists y, name = target_name y /\ reg_fit fuel opt eh act grad rnd order sd e X y = (e', Ok tt)) \/
    (exists y, name = k_target y /\ clf_fit fuel opt eh act grad rnd order sd e X y = (e', Ok tt)).

  (** ** Proof *)
  Lemma reg_fit_inv e X y e' : reg_fit fuel opt eh act grad rnd order sd e X y = (e', Ok tt) ->
    let a := match e_type e with Some a => a | None => "cont" end in
    exists X1 y1 rows gr, fit_outcome fuel opt eh act grad rnd order (with_type e "cont") X y a e' X1 y1 rows gr.
  Proof.
    intros E a. unfold reg_fit in E. apply (base_fit_inv _ _ _ _ _ _ _ _ _ _ _ a) in E; auto. unfold with_type, a. destruct (e_type e) eqn:T; auto.
  Qed.
  Lemma with_type_cfg e a : e_cfg (with_type e a) = e_cfg e.
  Proof. unfold with_type. destruct (e_type e); auto. Qed.

  Lemma fitted_outcome e X name e' : fitted e X name e' -> exists e1 y a X1 y1 rows gr,
    e_cfg e1 = e_cfg e /\ target_name y = name /\ fit_outcome fuel opt eh act grad rnd order e1 X y a e' X1 y1 rows gr.
  Proof.
    intros [(y & -> & E)|(y & -> & E)].
    - destruct (reg_fit_inv _ _ _ _ E) as (X1 & y1 & rows & gr & FO). exists (with_type e "cont"), y. do 5 eexists. rewrite with_type_cfg. eauto.
    - destruct (clf_fit_inv _ _ _ _ _ _ _ _ _ _ _ _ E) as (_ & e1 & X1 & y2 & rows & gr & C1 & _ & _ & _ & FO). cbv zeta in FO.
      exists e1. eexists. do 5 eexists. split; [eauto|]. split; [|exact FO]. reflexivity.
  Qed.

  Section One.
    Context (e : est) (X : xdata) (name : label) (e' : est) (FT : fitted e X name e') (Wx : wf_x X) (Wc : wf_cfg (e_cfg e)) (Po : forall ds, Permutation (order ds) ds).

    Theorem fitted_acyclic : c_enforce (e_cfg e) = true -> exists gr, e_graph e' = Some gr /\ acyclic (edges (g_edges gr)).
    Proof.
      intros En. destruct (fitted_outcome _ _ _ _ FT) as (e1 & y & a & X1 & y1 & rows & gr & C & <- & FO). exists gr. split; [apply (fo_graph _ _ _ _ _ _ _ _ _ _ _ _ _ _ _ _ FO)|].
      rewrite <- C in *. apply (enforced_acyclic _ _ _ _ _ _ _ _ _ _ _ _ _ _ _ _ FO Wx Wc Po En).
    Qed.

    Context (RB : respects_bounds opt) (GL : gradient_local grad \/ linear_cfg (e_cfg e)).

    Theorem target_no_children : c_dependent (e_cfg e) = true -> exists gr, e_graph e' = Some gr /\
      (forall u v, In (u, v) (edges (g_edges gr)) -> exists c k, In c (map fst (x_cols X)) /\ u = category_name c k) /\
      (forall v, ~ In (name, v) (edges (l_collapsed (g_learned gr)))) /\
      (no_suffixes (map fst (x_cols X) ++ [name]) -> forall k v, ~ In (category_name name k, v) (edges (g_edges gr))).
    Proof.
      intros D. destruct (fitted_outcome _ _ _ _ FT) as (e1 & y & a & X1 & y1 & rows & gr & C & <- & FO). exists gr. split; [apply (fo_graph _ _ _ _ _ _ _ _ _ _ _ _ _ _ _ _ FO)|].
      unfold linear_cfg in GL. rewrite <- C in *. split; [|split].
      - apply (dependent_no_children _ _ _ _ _ _ _ _ _ _ _ _ _ _ _ _ FO Wx Wc Po RB GL D).
      - apply (dependent_collapsed _ _ _ _ _ _ _ _ _ _ _ _ _ _ _ _ FO Wx Wc Po RB GL D).
      - apply (dependent_no_children_names _ _ _ _ _ _ _ _ _ _ _ _ _ _ _ _ FO Wx Wc Po RB GL D).
    Qed.

    (** Every edge goes from a column of the data to a column of the data that is another one and is not banned. *)
    Theorem fitted_tabu : exists gr, e_graph e' = Some gr /\ forall u v, In (u, v) (edges (g_edges gr)) -> exists c c' k k',
      In c (map fst (x_cols X) ++ [name]) /\ In c' (map fst (x_cols X) ++ [name]) /\ u = category_name c k /\ v = category_name c' k' /\ c <> c' /\ ~ banned (c_tabu (e_cfg e)) c c'.
    Proof.
      destruct (fitted_outcome _ _ _ _ FT) as (e1 & y & a & X1 & y1 & rows & gr & C & <- & FO). exists gr. split; [apply (fo_graph _ _ _ _ _ _ _ _ _ _ _ _ _ _ _ _ FO)|].
      unfold linear_cfg in GL. rewrite <- C in *. intros u v H.
      destruct (fitted_no_ban _ _ _ _ _ _ _ _ _ _ _ _ _ _ _ _ FO Wx Wc Po RB GL u v H) as (c & c' & k & k' & Hc & Hc' & Eu & Ev & N & B).
      exists c, c', k, k'. repeat (split; auto). intros Q. apply B. destruct Q as [Q|[Q|Q]]; [left; exact Q| |right; right; exact Q].
      right. left. destruct Q as (l & El & Il). unfold fit_tabu. cbn [t_parents]. rewrite El. destruct (c_dependent (e_cfg e1)); eauto.
      destruct (lmem (target_name y) l); eauto. eexists. split; [reflexivity|]. apply in_app_iff. auto.
    Qed.

    Context (NS : no_suffixes (map fst (x_cols X) ++ [name])).

    (** A feature that is not categorical has one node. *)
    Lemma one_node : no_categories (e_cfg e) X -> forall gr, e_graph e' = Some gr -> forall u v, In (u, v) (edges (g_edges gr)) ->
      forall c i, In c (map fst (x_cols X)) -> u = category_name c i -> i = 0.
    Proof.
      intros NC gr0 Eg u v H c i Hc Eu. destruct (fitted_outcome _ _ _ _ FT) as (e1 & y & a & X1 & y1 & rows & gr & C & En & FO).
      rewrite (fo_graph _ _ _ _ _ _ _ _ _ _ _ _ _ _ _ _ FO) in Eg. injection Eg as <-. rewrite <- C in *. clear GL.
      apply (fitted_edge _ _ _ _ _ _ _ _ _ _ _ _ _ _ _ _ FO Wx Wc Po) in H.
      pose proof (fo_nodup _ _ _ _ _ _ _ _ _ _ _ _ _ _ _ _ FO) as Nd. rewrite En in Nd.
      destruct (torch_pandas_renamed _ _ _ _ _ _ _ _ _ _ _ _ (cols_nodup _ _ _ _ _ _ _ _ _ _ _ _ _ _ _ _ FO) (rows_rect _ _ _ _ _ _ _ _ _ _ _ _ _ _ _ _ FO Wx)
        (schema_nodup _ _ _ _ _ _ _ _ _ _ _ _ _ _ _ _ FO Wc) Po (fo_learned _ _ _ _ _ _ _ _ _ _ _ _ _ _ _ _ FO)) as (sz & tz & ks & l0 & nm & Es & Et & Ek & Nz & Rm & E0 & Rn).
      cbn [f_cols f_rows] in *. rewrite En in *. assert (Ec : map fst (x_cols X ++ [(name, y_numeric y1)]) = map fst (x_cols X) ++ [name]) by (rewrite map_app; auto). rewrite Ec in *.
      set (features := map fst (x_cols X)) in *. set (cols := features ++ [name]) in *. set (M := mkMat (List.length cols) rows) in *.
      destruct (torch_numpy_inv _ _ _ _ _ _ _ _ _ _ _ E0) as (ks' & dts & X' & t' & Ek' & Ep & O). cbn [m_cols M] in Ek'. rewrite Ek in Ek'. injection Ek' as <-.
      pose proof (prepare_facts _ _ _ _ _ _ _ Rm Nz Ek Ep) as Fa.
      destruct (rn_params _ _ _ _ _ _ Rn) as (P1 & P2 & P3 & P4 & P5). rewrite (oc_dtypes _ _ _ _ _ _ _ _ _ _ _ _ _ O) in P3.
      apply (rn_edges _ _ _ _ _ _ Rn) in H. destruct H as (x & z & Hx & _ & Ex & _).
      destruct (rn_name _ _ _ _ _ _ Rn x Hx) as (b & k & Hb & Kb & Eb). rewrite Eb, Eu in Ex. apply (category_name_inj cols) in Ex; auto; [|apply in_app_iff; auto|apply nth_In; auto].
      destruct Ex as [Ecb ->]. rewrite Ecb in Hc.
      assert (Ib : In b (map dt_idx dts)) by (apply (fa_vars _ _ _ _ _ _ Fa); auto). apply in_map_iff in Ib. destruct Ib as (t & Eb' & Ht).
      destruct (fitted_net _ _ _ _ _ _ _ _ _ _ _ _ _ _ _ _ FO Wx Wc Po) as (t0 & N); [rewrite En; exact NS|].
      assert (Kc : dt_kind t <> Cat).
      { intros Kt. rewrite <- P3 in Ht. destruct (nt_kinds _ _ _ _ _ _ _ N t Ht) as (s & Is & As). rewrite En in Is. fold features in Is. fold cols in Is. rewrite Eb' in Is.
        assert (Nn : ~ In name features) by (unfold cols in Nd; apply NoDup_remove_2 in Nd; rewrite app_nil_r in Nd; auto).
        assert (Q : dget label_eqb (dset label_eqb (feature_schema (e_cfg e1) X) name a) (nth b cols (LInt 0)) = Some s).
        { apply (In_dget _ lspec); auto. rewrite <- En. apply (schema_nodup _ _ _ _ _ _ _ _ _ _ _ _ _ _ _ _ FO Wc); auto. }
        rewrite (dget_dset_other _ lspec) in Q by congruence. apply (dget_In _ lspec) in Q. apply alias_name in As. rewrite Kt in As. subst s. apply (NC _ Hc Q). }
      rewrite (columns_of_In (expanded M ks) b (dt_columns t)) in Kb.
      - unfold dt_columns in Kb. destruct (dt_kind t); try congruence; destruct k as [|k]; auto; destruct k; discriminate.
      - rewrite <- (fa_layout _ _ _ _ _ _ Fa), map_map. apply (fa_nodup _ _ _ _ _ _ Fa).
      - rewrite <- (fa_layout _ _ _ _ _ _ Fa). apply in_map_iff. exists t. rewrite Eb'. auto.
    Qed.

    Lemma edges_of k data : no_categories (e_cfg e) X -> exists gr, e_graph e' = Some gr /\
      get_edges_to_node e' (category_name name k) data = Ok (map (fun f => (f, edge_number (g_edges gr) data f (category_name name k))) (map fst (x_cols X))).
    Proof.
      intros NC. pose proof (one_node NC) as On. destruct (fitted_outcome _ _ _ _ FT) as (e1 & y & a & X1 & y1 & rows & gr & C & En & FO).
      pose proof (fo_graph _ _ _ _ _ _ _ _ _ _ _ _ _ _ _ _ FO) as Eg. exists gr. split; auto. specialize (On gr Eg). clear FT.
      unfold linear_cfg in GL. rewrite <- C, <- En in *.
      destruct (fitted_coefficients _ _ _ _ _ _ _ _ _ _ _ _ _ _ _ _ FO Wx Wc Po RB GL k data NS) as (more & E & _ & Km & Qm).
      destruct more as [|[u q] more]; [rewrite app_nil_r in E; exact E|]. exfalso. destruct (proj1 (Km u) (or_introl eq_refl)) as [_ H].
      destruct (Qm u q (or_introl eq_refl)) as (_ & c & i & Hc & Hi & Eu). pose proof (On _ _ H c i Hc Eu). lia.
    Qed.

    Theorem coefficients data : no_categories (e_cfg e) X -> exists gr, e_graph e' = Some gr /\
      reg_coef e' data = Ok (map (fun f => edge_number (g_edges gr) data f name) (map fst (x_cols X))).
    Proof.
      intros NC. destruct (edges_of 0 data NC) as (gr & Eg & E). exists gr. split; auto. destruct (fitted_outcome _ _ _ _ FT) as (e1 & y & a & X1 & y1 & rows & gr' & C & En & FO).
      unfold reg_coef. rewrite (fo_names _ _ _ _ _ _ _ _ _ _ _ _ _ _ _ _ FO), En. cbn [category_name] in E. rewrite E. cbn [bind]. rewrite map_map. reflexivity.
    Qed.

    Theorem class_coefficients data : no_categories (e_cfg e) X -> forall cs, e_classes e' = Some cs -> exists gr, e_graph e' = Some gr /\
      clf_coef e' data = Ok (map (fun k => map (fun f => edge_number (g_edges gr) data f (category_name name k)) (map fst (x_cols X))) (if List.length cs =? 2 then [0] else seq 0 (List.length cs))).
    Proof.
      intros NC cs Ec. destruct (edges_of 0 data NC) as (gr & Eg & E). exists gr. split; auto. destruct (fitted_outcome _ _ _ _ FT) as (e1 & y & a & X1 & y1 & rows & gr' & C & En & FO).
      unfold clf_coef. rewrite Ec, (fo_names _ _ _ _ _ _ _ _ _ _ _ _ _ _ _ _ FO), En. destruct (List.length cs =? 2).
      - cbn [category_name] in E. rewrite E. cbn [bind map]. rewrite map_map. reflexivity.
      - assert (Q : mapM (fun k => do s <- get_edges_to_node e' (make_node_name name k) data; Ok (map snd s)) (seq 0 (List.length cs)) =
                    Ok (map (fun k => map (fun f => edge_number (g_edges gr) data f (category_name name k)) (map fst (x_cols X))) (seq 0 (List.length cs)))).
        { generalize (seq 0 (List.length cs)) as ns. induction ns as [|k ns IH]; auto. cbn [mapM map]. destruct (edges_of k data NC) as (gr1 & Eg1 & E1). rewrite Eg in Eg1. injection Eg1 as <-.
          assert (Nk : make_node_name name k = category_name name k) by (unfold make_node_name, category_name; destruct k; auto). rewrite Nk, E1. cbn [bind]. rewrite map_map, IH. reflexivity. }
        rewrite Q. cbn [bind]. assert (Fb : forall (A : list (list Qc)) n, Forall (fun r => List.length r = n) A -> forallb (fun r => List.length r =? n) A = true).
        { intros A n FA. apply forallb_forall. rewrite Forall_forall in FA. intros r Hr. apply Nat.eqb_eq. auto. }
        rewrite Fb; [reflexivity|]. set (n := List.length (map fst (x_cols X))). set (m := map _ (seq 0 (List.length cs))).
        assert (Fm : Forall (fun r => List.length r = n) m). { apply Forall_forall. intros r Hr. apply in_map_iff in Hr. destruct Hr as (k & <- & _). rewrite map_length. auto. }
        destruct m as [|r m]; auto. cbn [hd]. inversion Fm; subst. match goal with H : List.length r = _ |- _ => rewrite H end. auto.
    Qed.
  End One.

  (** ** Linear estimators *)
  Theorem linear_regressor e X y e' P : reg_fit fuel opt eh act grad rnd order sd e X y = (e', Ok tt) -> wf_x X -> wf_cfg (e_cfg e) -> (forall ds, Permutation (order ds) ds) ->
    no_suffixes (map fst (x_cols X) ++ [target_name y]) -> linear_cfg (e_cfg e) -> plain_features (e_cfg e) X -> respects_bounds opt ->
    c_threshold (e_cfg e) = 0%Qc -> c_enforce (e_cfg e) = false -> c_standardize (e_cfg e) = false -> new_data_ok (e_cfg e) X P ->
    match e_type e with None => True | Some a => In a ["cont"; "poiss"] end ->
    exists w b, reg_coef e' "mean_effect" = Ok w /\ reg_intercept e' = Ok b /\ List.length w = List.length (x_cols X) /\
      exists k, base_predict act e' P = Ok (k, map (fun r => [match e_type e with Some "poiss" => exp (realq (affine w b r)) | _ => realq (affine w b r) end]) (p_rows P)).
  Proof.
    intros E Wx Wc Po NS Lin Pf RB Th Ne Ns ND T. destruct (reg_fit_inv _ _ _ _ E) as (X1 & y1 & rows & gr & FO). cbv zeta in FO.
    set (a := match e_type e with Some a => a | None => "cont" end) in *. unfold linear_cfg in Lin. rewrite <- (with_type_cfg e "cont") in *.
    assert (Ka : alias_kind a = Some Cont \/ alias_kind a = Some Poiss).
    { unfold a. destruct (e_type e) as [b|]; [|left; reflexivity]. cbn in T. destruct T as [<-|[<-|[]]]; [left|right]; reflexivity. }
    destruct (linear_predictions _ _ _ _ _ _ _ _ _ _ _ _ _ _ _ _ FO Wx Wc Po NS Lin Pf) with (P := P) as (w & b & s & Es & Ew & Ef & Eb & k & Ek & EP); auto.
    { split; intros Q; rewrite Q in Ka; destruct Ka; discriminate. }
    exists w, b. unfold reg_coef, reg_intercept. rewrite (fo_names _ _ _ _ _ _ _ _ _ _ _ _ _ _ _ _ FO), Es. cbn [bind]. split; [congruence|]. split; auto.
    split; [rewrite <- Ew, map_length, <- (map_length fst s), Ef, map_length; auto|]. exists k. rewrite EP. do 2 f_equal. apply map_ext. intros r.
    unfold a in Ek. destruct (e_type e) as [c|]; [|injection Ek as <-; reflexivity]. cbn in T. destruct T as [<-|[<-|[]]]; injection Ek as <-; reflexivity.
  Qed.

  Theorem linear_classifier e X y e' P : clf_fit fuel opt eh act grad rnd order sd e X y = (e', Ok tt) -> wf_x X -> wf_cfg (e_cfg e) -> (forall ds, Permutation (order ds) ds) ->
    no_suffixes (map fst (x_cols X) ++ [k_target y]) -> linear_cfg (e_cfg e) -> plain_features (e_cfg e) X -> respects_bounds opt ->
    c_threshold (e_cfg e) = 0%Qc -> c_enforce (e_cfg e) = false -> c_standardize (e_cfg e) = false -> new_data_ok (e_cfg e) X P ->
    List.length (classes_of (k_labels y)) = 2 -> e_type e = None \/ e_type e = Some "bin" ->
    exists w b, clf_coef e' "mean_effect" = Ok [w] /\ clf_intercept e' = Ok [b] /\ List.length w = List.length (x_cols X) /\
      predict_proba act e' P = Ok (map (fun r => let q := sigmoid (realq (affine w b r)) in [(1 - q)%R; q]) (p_rows P)).
  Proof.
    intros E Wx Wc Po NS Lin Pf RB Th Ne Ns ND L2 T. destruct (clf_fit_inv _ _ _ _ _ _ _ _ _ _ _ _ E) as (_ & e1 & X1 & y2 & rows & gr & C1 & T1 & K1 & _ & FO). cbv zeta in *.
    set (y1 := mkY (k_name y) (k_index y) (map (code (classes_of (k_labels y))) (k_labels y)) (negb (k_array y && existsb is_str (k_labels y)))) in *.
    assert (Ea : match e_type e with Some a => a | None => if 2 <? List.length (classes_of (k_labels y)) then "cat" else "bin" end = "bin").
    { destruct T as [T|T]; rewrite T; auto. rewrite L2. reflexivity. }
    rewrite Ea in *. unfold linear_cfg in Lin. rewrite <- C1 in *. change (k_target y) with (target_name y1) in *.
    destruct (linear_predictions _ _ _ _ _ _ _ _ _ _ _ _ _ _ _ _ FO Wx Wc Po NS Lin Pf) with (P := P) as (w & b & s & Es & Ew & Ef & Eb & k & Ek & EP); auto.
    { split; discriminate. }
    exists w, b. unfold clf_coef, clf_intercept. rewrite (fo_names _ _ _ _ _ _ _ _ _ _ _ _ _ _ _ _ FO), (fo_classes _ _ _ _ _ _ _ _ _ _ _ _ _ _ _ _ FO), K1, L2, Es, Eb. cbn [Nat.eqb bind]. rewrite Ew.
    split; auto. split; auto. split; [rewrite <- Ew, map_length, <- (map_length fst s), Ef, map_length; auto|].
    unfold predict_proba. rewrite EP. cbn [bind fst snd]. injection Ek as <-. rewrite map_map. reflexivity.
  Qed.
End Fitted.
