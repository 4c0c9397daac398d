(** * SklLin: linear estimators predict with their coefficients and their intercept. *)
From Coq Require Import List Bool Arith ZArith Lia String QArith Qcanon Permutation Reals Lra.
From Verif Require Import Base Names Digraph SmModel SmProofs QcX NetModel NotearsModel NotearsProofs NotearsThms AcycLink
  TorchModel TorchSpec TorchProofs TorchThms TorchGraph TorchResult TorchPandas TorchFrame TorchTotal TorchFinal SklModel SklCoef SklFit SklThms OrdProofs SklPredict SklNet SklProba.
Import ListNotations.
Local Open Scope string_scope.
Local Open Scope list_scope.
Local Open Scope nat_scope.

Local Notation lspec := label_eqb_spec.

(** ** Specification *)

(** No feature is categorical or ordinal. *)
Definition plain_features (c : config) (X : xdata) : Prop :=
  forall f s, In f (map fst (x_cols X)) -> In (f, s) (feature_schema c X) -> s <> "cat" /\ s <> "ord".

(** A weighted sum of the entries of a row plus a constant. *)
Definition affine (w : list Qc) (b : Qc) (r : list Qc) : Qc := (Qsum (fun p => fst p * snd p)%Qc (combine w r) + b)%Qc.

(** ** Proof *)
Lemma forward_linear act ub d v x j : j < d -> nth j (forward act ub [d; 1] v x) 0%Qc =
  (Qsum (fun i => nth (j * d + i) v 0 * nth i x 0)%Qc (seq 0 d) + if ub then dag_b d 1 v j else 0)%Qc.
Proof.
  intros Hj. unfold forward. cbn [nth net_layers tl removelast combine]. rewrite nth_map_seq by lia. cbn [plus run_layers]. unfold dag_units. cbn [seq map nth].
  replace (j * 1 + 0) with j by lia. f_equal. apply Qsum_ext. intros i _. unfold dag_w. replace ((j * 1 + 0) * d + i) with (j * d + i) by lia. auto.
Qed.

Lemma Qsum_combine (f g : nat -> Qc) n : Qsum (fun p => fst p * snd p)%Qc (combine (map f (seq 0 n)) (map g (seq 0 n))) = Qsum (fun i => f i * g i)%Qc (seq 0 n).
Proof. generalize 0. induction n as [|n IH]; intros s; auto. cbn [seq map combine]. rewrite !Qsum_cons, IH. auto. Qed.

Lemma Qcabs_eq_0 x : Qcabs x = 0%Qc -> x = 0%Qc.
Proof. unfold Qcabs. destruct (Qclt_le_dec x 0); intros H; auto. rewrite <- (Qcopp_involutive x), H. reflexivity. Qed.

Lemma list_as_map {A} (l : list A) d : l = map (fun i => nth i l d) (seq 0 (List.length l)).
Proof. induction l as [|x l IH]; cbn [List.length seq map nth]; auto. f_equal. rewrite <- seq_shift, map_map. exact IH. Qed.

Section Fitted.
  Context (fuel : nat) (opt : optimiser) (eh : tpenalty) (act : activation) (grad : autograd) (rnd : list Qc) (order : list dtype -> list dtype).
  Context (e : est) (X : xdata) (y : ydata) (a : string) (e' : est) (X1 : xdata) (y1 : ydata) (rows : list (list fl)) (gr : graphs).
  Context (FO : fit_outcome fuel opt eh act grad rnd order e X y a e' X1 y1 rows gr).
  Context (Wx : wf_x X) (Wc : wf_cfg (e_cfg e)) (Po : forall ds, Permutation (order ds) ds).
  Let name := target_name y.
  Let features := map fst (x_cols X).
  Let cols := features ++ [name].
  Context (NS : no_suffixes cols).
  Let l := g_learned gr.
  Let n := List.length features.
  Let p := mkTp (c_hidden (e_cfg e)) (c_bias (e_cfg e)) (Some (c_threshold (e_cfg e))) (c_iter (e_cfg e)).
  Context (Lin : linear p) (Pf : plain_features (e_cfg e) X) (Ta : alias_kind a <> Some Cat /\ alias_kind a <> Some Ord).

  Lemma linear_net : exists nm, (forall i, i < S n -> nm i = nth i cols (LInt 0)) /\ l_dims l = [S n; 1] /\ l_use_bias l = c_bias (e_cfg e) /\
    effects_graph (l_graph l) (S n) nm (fun i j => Qcabs (nth (j * S n + i) (l_params l) 0%Qc)) (fun i j => nth (j * S n + i) (l_params l) 0%Qc) (survives (Some (c_threshold (e_cfg e)))) /\
    (forall x, x < S n -> dget label_eqb (l_bias l) (nm x) = Some (if c_bias (e_cfg e) then Some (dag_b (S n) 1 (l_params l) x) else None)).
  Proof.
    destruct (fitted_net _ _ _ _ _ _ _ _ _ _ _ _ _ _ _ _ FO Wx Wc Po NS) as (t & N).
    pose proof (cols_nodup _ _ _ _ _ _ _ _ _ _ _ _ _ _ _ _ FO) as Cn. pose proof (rows_rect _ _ _ _ _ _ _ _ _ _ _ _ _ _ _ _ FO Wx) as Rr.
    pose proof (schema_nodup _ _ _ _ _ _ _ _ _ _ _ _ _ _ _ _ FO Wc) as Sn.
    destruct (torch_pandas_renamed _ _ _ _ _ _ _ _ _ _ _ _ Cn Rr Sn Po (fo_learned _ _ _ _ _ _ _ _ _ _ _ _ _ _ _ _ FO)) as (sz & tz & ks & l0 & nm & Es & Et & Ek & Nz & Rm & E0 & Rn).
    fold name in N, Cn, Es, Et, Ek, Rm, E0, Rn. fold features in N. fold l in N, Rn. cbn [f_cols f_rows] in *.
    assert (Ec : map fst (x_cols X ++ [(name, y_numeric y1)]) = cols) by (rewrite map_app; auto). rewrite Ec in *.
    assert (Lc : List.length cols = S n) by (unfold cols; rewrite app_length; cbn; fold n; lia).
    set (M := mkMat (List.length cols) rows) in *.
    destruct (torch_numpy_inv _ _ _ _ _ _ _ _ _ _ _ E0) as (ks' & dts & X' & t' & Ek' & Ep & O). cbn [m_cols M] in Ek'. rewrite Ek in Ek'. injection Ek' as <-.
    pose proof (prepare_facts _ _ _ _ _ _ _ Rm Nz Ek Ep) as Fa.
    destruct (rn_params _ _ _ _ _ _ Rn) as (P1 & P2 & P3 & P4 & P5). rewrite (oc_dtypes _ _ _ _ _ _ _ _ _ _ _ _ _ O) in P3.
    assert (D : nth 0 (l_dims l0) 0 = width X') by (rewrite (oc_dims _ _ _ _ _ _ _ _ _ _ _ _ _ O); apply net_dims_0).
    assert (Nd : NoDup cols) by exact Cn.
    assert (Nn : ~ In name features) by (unfold cols in Nd; apply NoDup_remove_2 in Nd; rewrite app_nil_r in Nd; auto).
    assert (K : forall u, In u dts -> dt_kind u <> Cat).
    { intros u Hu Ku. rewrite <- P3 in Hu. destruct (nt_kinds _ _ _ _ _ _ _ N u Hu) as (s & Is & As). fold features cols in Is.
      pose proof (proj1 (nt_vars _ _ _ _ _ _ _ N (dt_idx u)) (in_map _ _ _ Hu)) as Bu. fold n in Bu.
      set (schema := dset label_eqb (feature_schema (e_cfg e) X) name a) in *.
      assert (Q : dget label_eqb schema (nth (dt_idx u) cols (LInt 0)) = Some s) by (apply (In_dget _ lspec); auto; apply (schema_nodup _ _ _ _ _ _ _ _ _ _ _ _ _ _ _ _ FO Wc); auto).
      destruct (Nat.eq_dec (dt_idx u) n) as [Eu|Nu].
      - rewrite Eu in Q. unfold cols in Q. rewrite app_nth2, Nat.sub_diag in Q by (fold n; lia). cbn [nth] in Q. unfold schema in Q. rewrite (dget_dset_same _ lspec) in Q. injection Q as <-. rewrite Ku in As. tauto.
      - unfold cols in Q. rewrite app_nth1 in Q by (fold n; lia). assert (Hf : In (nth (dt_idx u) features (LInt 0)) features) by (apply nth_In; fold n; lia).
        unfold schema in Q. rewrite (dget_dset_other _ lspec) in Q by congruence. apply (dget_In _ lspec) in Q. apply Pf in Q; auto. apply alias_name in As. rewrite Ku in As. tauto. }
    assert (W : width X' = S n).
    { rewrite <- D, <- P2, (nt_width _ _ _ _ _ _ _ N). fold n. rewrite P3. assert (Z : list_sum (map extra_cols dts) = 0); [|lia].
      clear - K. induction dts as [|u us IH]; auto. cbn [map list_sum fold_right]. fold (list_sum (map extra_cols us)). rewrite IH by (intros; apply K; right; auto).
      unfold extra_cols. pose proof (K u (or_introl eq_refl)). destruct (dt_kind u); auto; congruence. }
    assert (Nm : forall i, i < S n -> nm i = nth i cols (LInt 0)).
    { intros i Hi. assert (Hd : i < nth 0 (l_dims l0) 0) by (rewrite D, W; auto). destruct (rn_name _ _ _ _ _ _ Rn i Hd) as (b & k & Hb & Kb & ->).
      assert (Ib : In b (map dt_idx dts)) by (apply (fa_vars _ _ _ _ _ _ Fa); auto). apply in_map_iff in Ib. destruct Ib as (u & Eu & Hu).
      assert (Cu : columns_of (expanded M ks) b = [b]).
      { rewrite (columns_of_In (expanded M ks) b (dt_columns u)); [unfold dt_columns; pose proof (K u Hu); rewrite <- Eu; destruct (dt_kind u); auto; congruence| |].
        - rewrite <- (fa_layout _ _ _ _ _ _ Fa), map_map. apply (fa_nodup _ _ _ _ _ _ Fa).
        - rewrite <- (fa_layout _ _ _ _ _ _ Fa). apply in_map_iff. exists u. rewrite Eu. auto. }
      rewrite Cu in Kb. destruct k as [|k]; cbn in Kb; [injection Kb as ->; auto|destruct k; discriminate]. }
    assert (Dm : l_dims l0 = [S n; 1]). { rewrite (oc_dims _ _ _ _ _ _ _ _ _ _ _ _ _ O), W. unfold net_dims. fold p. rewrite (linear_units p Lin). auto. }
    assert (Inj : forall x z, x < nth 0 (l_dims l0) 0 -> z < nth 0 (l_dims l0) 0 -> nm x = nm z -> x = z).
    { intros x z Hx Hz Q. rewrite D, W in *. rewrite !Nm in Q by auto. apply (proj1 (NoDup_nth cols (LInt 0)) Nd); auto; lia. }
    exists nm. split; auto. split; [congruence|]. split; [rewrite P4; apply (oc_bias _ _ _ _ _ _ _ _ _ _ _ _ _ O)|]. split.
    - pose proof (torch_graph_linear _ _ _ _ _ _ _ _ _ _ _ Lin Rm Nz E0) as G. cbv zeta in G. apply (rn_effects _ _ _ _ _ _ Rn Inj) in G. rewrite P1. rewrite Dm in G. exact G.
    - intros x Hx. apply (rn_bias _ _ _ _ _ _ Rn Inj). rewrite (oc_biases _ _ _ _ _ _ _ _ _ _ _ _ _ O), Dm, W, P1. cbn [nth]. apply in_map_iff. exists x. split; auto. apply in_seq. lia.
  Qed.

  Context (RB : respects_bounds opt) (Th : c_threshold (e_cfg e) = 0%Qc) (Ne : c_enforce (e_cfg e) = false) (Ns : c_standardize (e_cfg e) = false).

  (** The numbers get_edges_to_node and the biases give, and the prediction. *)
  Theorem linear_predictions P : new_data_ok (e_cfg e) X P ->
    exists w b s, get_edges_to_node e' name "mean_effect" = Ok s /\ map snd s = w /\ map fst s = features /\ bias_of e' name = Ok b /\
      exists k, alias_kind a = Some k /\ base_predict act e' P = Ok (k, map (fun r => link k [realq (affine w b r)]) (p_rows P)).
  Proof.
    intros ND. destruct linear_net as (nm & Nm & Dm & Ub & G & B).
    destruct (fitted_coefficients _ _ _ _ _ _ _ _ _ _ _ _ _ _ _ _ FO Wx Wc Po RB (or_intror Lin) 0 "mean_effect" NS) as (more & Eg & _ & Km & Qm).
    cbn [category_name] in *. fold name features in Eg, Km, Qm.
    pose proof (fo_edges _ _ _ _ _ _ _ _ _ _ _ _ _ _ _ _ FO) as Ge. rewrite Ne in Ge. fold l in Ge.
    pose proof (cols_nodup _ _ _ _ _ _ _ _ _ _ _ _ _ _ _ _ FO) as Nd. cbn [f_cols] in Nd. rewrite map_app in Nd. cbn [map fst] in Nd. fold features name in Nd. fold cols in Nd.
    assert (Lc : List.length cols = S n) by (unfold cols; rewrite app_length; cbn; fold n; lia).
    assert (Tn : nth n cols (LInt 0) = name) by (unfold cols; rewrite app_nth2, Nat.sub_diag by (fold n; lia); auto).
    destruct G as (Gn & Gd & Gi & Ga).
    assert (Em : more = []).
    { destruct more as [|[u q] more]; auto. exfalso. destruct (Qm u q (or_introl eq_refl)) as (_ & c & i & Hc & Hi & Eu).
      destruct (proj1 (Km u) (or_introl eq_refl)) as [_ H]. rewrite Ge in H. apply Gi in H. destruct H as (x & z & Hx & Hz & Ex & _).
      rewrite Nm in Ex by auto. rewrite Eu in Ex. change (nth x cols (LInt 0)) with (category_name (nth x cols (LInt 0)) 0) in Ex.
      apply (category_name_inj cols) in Ex; auto; [lia|apply in_app_iff; auto|apply nth_In; lia]. }
    subst more. rewrite app_nil_r in Eg.
    set (w := fun i => nth (n * S n + i) (l_params l) 0%Qc).
    assert (Ew : forall i, i < n -> edge_number (g_edges gr) "mean_effect" (nth i features (LInt 0)) name = w i).
    { intros i Hi. assert (Ei : nth i features (LInt 0) = nm i) by (rewrite Nm by lia; unfold cols; rewrite app_nth1; auto).
      assert (En : name = nm n) by (rewrite Nm by lia; auto). rewrite Ei, En, Ge. unfold edge_number. destruct (Qc_eq_dec (w i) 0) as [Ez|Nz].
      - destruct (edge_attrs (l_graph l) (nm i) (nm n)) as [at_|] eqn:Ea; auto. exfalso.
        assert (H : In (nm i, nm n) (edges (l_graph l))) by (apply edges_In; [apply (learned_wf _ _ _ _ _ _ _ _ _ _ _ _ _ _ _ _ FO Wx Wc Po)|]; eauto).
        apply Gi in H. destruct H as (x & z & Hx & Hz & Ex & Ezz & Sv & _). rewrite !Nm in Ex, Ezz by lia.
        apply (proj1 (NoDup_nth cols (LInt 0)) Nd) in Ex, Ezz; try lia. subst x z. apply Sv. fold (w i). rewrite Ez. reflexivity.
      - destruct (Ga i n) as (at_ & Ea & Da); [lia|lia| |].
        + split; [|intros t0 [= <-]; rewrite Th; apply Qcabs_nonneg]. intros Q. apply Nz. fold (w i) in Q. apply Qcabs_eq_0. auto.
        + rewrite Ea, Da. reflexivity. }
    set (b := (if c_bias (e_cfg e) then dag_b (S n) 1 (l_params l) n else 0)%Qc).
    exists (map w (seq 0 n)), b. eexists. split; [exact Eg|]. split; [|split; [rewrite map_map; apply map_id|split]].
    - rewrite map_map. cbn [snd]. rewrite (list_as_map features (LInt 0)) at 1. rewrite map_map. fold n. apply map_ext_in. intros i Hi. apply in_seq in Hi. apply Ew. lia.
    - unfold bias_of. rewrite (fo_graph _ _ _ _ _ _ _ _ _ _ _ _ _ _ _ _ FO). fold l. specialize (B n). rewrite Nm, Tn in B by lia. rewrite B by lia. unfold b. destruct (c_bias (e_cfg e)); auto.
    - destruct (predict_total _ _ _ _ _ _ _ _ _ _ _ _ _ _ _ _ FO Wx Wc Po NS P ND) as (t & X' & N & ET & _ & _ & ys & EP & Sh).
      { intros f Hf Io. apply Pf in Io; tauto. }
      { intros [Q|Q]; tauto. }
      { intros Q; tauto. }
      exists (dt_kind t). split; [apply (nt_kind _ _ _ _ _ _ _ N)|]. rewrite EP. do 2 f_equal.
      assert (U : forall v, unscale e' v = v). { intros v. unfold unscale. rewrite (fo_cfg _ _ _ _ _ _ _ _ _ _ _ _ _ _ _ _ FO), Ns. destruct (e_type e') as [s|]; auto. clear. repeat match goal with |- context [match ?b with _ => _ end] => destruct b; try reflexivity end. }
      assert (SR : scaled_rows e' P = p_rows P) by (unfold scaled_rows; rewrite (fo_cfg _ _ _ _ _ _ _ _ _ _ _ _ _ _ _ _ FO), Ns; auto).
      rewrite SR in ET. fold features in ET. fold n in ET.
      assert (Kt : forall u, In u (l_dtypes l) -> dt_kind u <> Cat /\ dt_kind u <> Ord).
      { intros u Hu. destruct (nt_kinds _ _ _ _ _ _ _ N u Hu) as (s & Is & As). fold features in Is. fold name in Is. fold cols in Is.
        pose proof (proj1 (nt_vars _ _ _ _ _ _ _ N (dt_idx u)) (in_map _ _ _ Hu)) as Bu. fold features in Bu. fold n in Bu.
        set (schema := dset label_eqb (feature_schema (e_cfg e) X) name a) in *.
        assert (Q : dget label_eqb schema (nth (dt_idx u) cols (LInt 0)) = Some s) by (apply (In_dget _ lspec); auto; apply (schema_nodup _ _ _ _ _ _ _ _ _ _ _ _ _ _ _ _ FO Wc); auto).
        destruct (Nat.eq_dec (dt_idx u) n) as [Eu|Nu].
        - rewrite Eu, Tn in Q. unfold schema in Q. rewrite (dget_dset_same _ lspec) in Q. injection Q as <-. split; intros Ku; rewrite Ku in As; tauto.
        - unfold cols in Q. rewrite app_nth1 in Q by (fold n; lia). assert (Hf : In (nth (dt_idx u) features (LInt 0)) features) by (apply nth_In; fold n; lia).
          assert (Nn : ~ In name features) by (unfold cols in Nd; apply NoDup_remove_2 in Nd; rewrite app_nil_r in Nd; auto).
          unfold schema in Q. rewrite (dget_dset_other _ lspec) in Q by congruence. apply (dget_In _ lspec) in Q. apply Pf in Q; auto. apply alias_name in As. split; intros Ku; rewrite Ku in As; tauto. }
      assert (EX : X' = mkData (S n) (map (fun r => r ++ [0%Qc]) (p_rows P))).
      { fold l in ET. revert ET. generalize (mkData (S n) (map (fun r => r ++ [0%Qc]) (p_rows P))). clear - Kt. induction (l_dtypes l) as [|u us IH]; intros D ET; cbn [foldM] in ET; [congruence|].
        apply bind_ok in ET. destruct ET as (D1 & E1 & ET). assert (D1 = D); [|subst D1; apply IH; auto; intros; apply Kt; right; auto].
        unfold transform, preprocess in E1. pose proof (Kt u (or_introl eq_refl)) as Ku. destruct (dt_kind u); try tauto; try congruence. destruct (_ <? _); [|discriminate]. destruct (existsb _ _); congruence. }
      assert (Ek : dt_kind t <> Cat /\ dt_kind t <> Ord) by (apply Kt; apply (nt_in _ _ _ _ _ _ _ N)).
      assert (Ys : ys = map (fun r => link (dt_kind t) (outs act gr t r)) (TorchModel.rows X')) by (destruct (dt_kind t); auto; tauto).
      rewrite Ys, EX. cbn [TorchModel.rows]. rewrite !map_map. apply map_ext_in. intros r Hr. destruct ND as (Pc & Pr & _). rewrite Forall_forall in Pr. specialize (Pr r Hr).
      assert (Lr : List.length r = n) by (unfold n, features; rewrite map_length; congruence).
      rewrite (map_ext _ (fun v => v)) by (apply U). rewrite map_id. f_equal. unfold outs, pick.
      assert (Ct : dt_columns t = [n]). { unfold dt_columns. rewrite (nt_idx _ _ _ _ _ _ _ N). fold features. fold n. destruct (dt_kind t); auto; tauto. }
      rewrite Ct. cbn [map]. f_equal. fold l. rewrite <- realq_0 at 1. rewrite map_nth. f_equal. rewrite Dm, forward_linear by lia. unfold affine. f_equal.
      + rewrite seq_S, Qsum_app. cbn [plus]. assert (Er : r = map (fun i => nth i r 0%Qc) (seq 0 n)) by (rewrite <- Lr; apply list_as_map). transitivity (Qsum (fun p => fst p * snd p)%Qc (combine (map w (seq 0 n)) (map (fun i => nth i r 0%Qc) (seq 0 n)))); [|rewrite <- Er; reflexivity]. rewrite Qsum_combine. rewrite Qsum_cons, Qsum_nil. rewrite app_nth2, Lr, Nat.sub_diag by lia. cbn [nth].
        replace (nth (n * S n + n) (l_params l) 0 * 0 + 0)%Qc with 0%Qc by ring. rewrite Qcplus_0_r. apply Qsum_ext. intros i Hi. apply in_seq in Hi. rewrite app_nth1 by lia. reflexivity.
      + rewrite Ub. reflexivity.
  Qed.
End Fitted.
