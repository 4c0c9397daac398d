(** * SklNet: the network of a fitted estimator and what it predicts. *)
From Coq Require Import List Bool Arith ZArith Lia String QArith Qcanon Permutation Reals Lra.
From Verif Require Import Base Names Digraph SmModel SmProofs QcX NetModel NotearsModel NotearsProofs NotearsThms AcycLink
  TorchModel TorchSpec TorchProofs TorchThms TorchGraph TorchResult TorchPandas TorchFrame TorchTotal TorchFinal SklModel SklCoef SklFit SklThms OrdProofs SklPredict.
Import ListNotations.
Local Open Scope string_scope.
Local Open Scope list_scope.
Local Open Scope nat_scope.

Local Notation lspec := label_eqb_spec.

(** The distribution types of a fitted network with [n] features: [t] is that of the target, [kinds] says which
    alias each column has. *)
Record net (l : learned) (features : list label) (name : label) (schema : list (label * string)) (rows : list (list fl)) (a : string) (t : dtype) : Prop := mkNet {
  nt_dist : dget label_eqb (l_dist l) name = Some t;
  nt_in : In t (l_dtypes l);
  nt_idx : dt_idx t = List.length features;
  nt_kind : alias_kind a = Some (dt_kind t);
  nt_nodup : NoDup (map dt_idx (l_dtypes l));
  nt_good : Forall good_dt (l_dtypes l);
  nt_disjoint : forall u v x, In u (l_dtypes l) -> In v (l_dtypes l) -> In x (dt_columns u) -> In x (dt_columns v) -> dt_idx u = dt_idx v;
  nt_cols : forall u x, In u (l_dtypes l) -> In x (dt_columns u) -> x < nth 0 (l_dims l) 0;
  nt_vars : forall i, In i (map dt_idx (l_dtypes l)) <-> i < S (List.length features);
  nt_kinds : forall u, In u (l_dtypes l) -> exists s, In (nth (dt_idx u) (features ++ [name]) (LInt 0), s) schema /\ alias_kind s = Some (dt_kind u);
  nt_cats : forall u, In u (l_dtypes l) -> dt_kind u = Cat \/ dt_kind u = Ord -> dt_cats u = categories (fl_column (dt_idx u) rows);
  nt_width : nth 0 (l_dims l) 0 = S (List.length features) + list_sum (map extra_cols (l_dtypes l));
  nt_last : forall s', schema = s' ++ [(name, a)] -> exists ts, l_dtypes l = ts ++ [t];
  nt_size : List.length (dt_columns t) = n_columns (dt_kind t) (fl_column (List.length features) rows);
  nt_finite : forall r x, In r rows -> In x r -> exists q, x = Fin q
}.

Lemma Forall2_nth_error {A B} (P : A -> B -> Prop) l m : Forall2 P l m -> forall i b, nth_error m i = Some b -> exists x, nth_error l i = Some x /\ P x b.
Proof. induction 1; intros i b E; [destruct i; discriminate|]. destruct i as [|i]; cbn in *; [injection E as <-; eauto|auto]. Qed.
Lemma Forall2_In_r' {A B} (P : A -> B -> Prop) l m : Forall2 P l m -> forall b, In b m -> exists x, In x l /\ P x b.
Proof. induction 1; intros b I; [destruct I|]. destruct I as [<-|I]; [exists x; split; auto; left; auto|]. destruct (IHForall2 b I) as (z & Hz & Q). exists z. split; auto. right. auto. Qed.
Lemma Forall2_last {A B} (P : A -> B -> Prop) l x m : Forall2 P (l ++ [x]) m -> exists m' y, m = m' ++ [y] /\ P x y.
Proof. intros H. apply Forall2_app_inv_l in H. destruct H as (m1 & m2 & _ & H & ->). inversion H; subst. inversion H4; subst. eauto. Qed.

Section Fitted.
  Context (fuel : nat) (opt : optimiser) (eh : tpenalty) (act : activation) (grad : autograd) (rnd : list Qc) (order : list dtype -> list dtype).
  Context (e : est) (X : xdata) (y : ydata) (a : string) (e' : est) (X1 : xdata) (y1 : ydata) (rows : list (list fl)) (gr : graphs).
  Context (FO : fit_outcome fuel opt eh act grad rnd order e X y a e' X1 y1 rows gr).
  Context (Wx : wf_x X) (Wc : wf_cfg (e_cfg e)) (Po : forall ds, Permutation (order ds) ds).
  Let name := target_name y.
  Let features := map fst (x_cols X).
  Context (NS : no_suffixes (features ++ [name])).
  Let schema := dset label_eqb (feature_schema (e_cfg e) X) name a.
  Let l := g_learned gr.

  Lemma fitted_net : exists t, net l features name schema rows a t.
  Proof.
    set (F := mkFrame (x_cols X ++ [(name, y_numeric y1)]) rows).
    pose proof (cols_nodup _ _ _ _ _ _ _ _ _ _ _ _ _ _ _ _ FO) as Cn. pose proof (rows_rect _ _ _ _ _ _ _ _ _ _ _ _ _ _ _ _ FO Wx) as Rr.
    pose proof (schema_nodup _ _ _ _ _ _ _ _ _ _ _ _ _ _ _ _ FO Wc) as Sn.
    destruct (torch_pandas_renamed _ _ _ _ _ _ _ _ _ _ _ _ Cn Rr Sn Po (fo_learned _ _ _ _ _ _ _ _ _ _ _ _ _ _ _ _ FO)) as (sz & tz & ks & l0 & nm & Es & Et & Ek & Nz & Rm & E0 & Rn).
    fold name in Cn, Es, Et, Ek, Rm, E0, Rn. fold schema in Es. fold l in Rn. cbn [f_cols f_rows] in *.
    assert (Ec : map fst (x_cols X ++ [(name, y_numeric y1)]) = features ++ [name]) by (rewrite map_app; auto). rewrite Ec in *.
    set (n := List.length features). set (cols := features ++ [name]) in *.
    assert (Lc : List.length cols = S n) by (unfold cols; rewrite app_length; cbn; fold n; lia).
    set (M := mkMat (List.length cols) rows) in *.
    destruct (torch_numpy_inv _ _ _ _ _ _ _ _ _ _ _ E0) as (ks' & dts & X' & t' & Ek' & Ep & O). cbn [m_cols M] in Ek'. rewrite Ek in Ek'. injection Ek' as <-.
    pose proof (prepare_facts _ _ _ _ _ _ _ Rm Nz Ek Ep) as Fa.
    destruct (rn_params _ _ _ _ _ _ Rn) as (P1 & P2 & P3 & P4 & P5). rewrite (oc_dtypes _ _ _ _ _ _ _ _ _ _ _ _ _ O) in P3.
    assert (D : nth 0 (l_dims l0) 0 = width X') by (rewrite (oc_dims _ _ _ _ _ _ _ _ _ _ _ _ _ O); apply net_dims_0).
    assert (Inj : forall x z, x < nth 0 (l_dims l0) 0 -> z < nth 0 (l_dims l0) 0 -> nm x = nm z -> x = z).
    { intros x z Hx Hz Q. pose proof (rn_name _ _ _ _ _ _ Rn x Hx) as A. pose proof (rn_name _ _ _ _ _ _ Rn z Hz) as B. rewrite <- Q in B.
      eapply (names_distinct cols M); eauto. }
    assert (Kn : In n (map dt_idx dts)) by (apply (fa_vars _ _ _ _ _ _ Fa); cbn [m_cols M]; lia).
    assert (Ncol : NoDup (map fst (expanded M ks))). { rewrite <- (fa_layout _ _ _ _ _ _ Fa), map_map. apply (fa_nodup _ _ _ _ _ _ Fa). }
    assert (Dc : forall u, In u dts -> columns_of (expanded M ks) (dt_idx u) = dt_columns u).
    { intros u Hu. apply columns_of_In; auto. rewrite <- (fa_layout _ _ _ _ _ _ Fa). apply in_map_iff. eauto. }
    assert (Self : forall u, In u dts -> nth_error (dt_columns u) 0 = Some (dt_idx u)).
    { intros u Hu. pose proof (fa_good _ _ _ _ _ _ Fa) as G. rewrite Forall_forall in G. specialize (G u Hu). unfold good_dt, dt_columns in *. destruct (dt_kind u); auto. destruct G as (ex & -> & _). auto. }
    assert (Bu : forall u, In u dts -> dt_idx u < m_cols M) by (intros u Hu; apply (fa_vars _ _ _ _ _ _ Fa), in_map; auto).
    assert (Disj : forall u v x, In u dts -> In v dts -> In x (dt_columns u) -> In x (dt_columns v) -> dt_idx u = dt_idx v).
    { intros u v x Hu Hv Ix Iy. eapply (fa_uniq _ _ _ _ _ _ Fa); [apply Bu; eauto|apply Bu; eauto| |]; rewrite Dc; eauto. }
    assert (Uniq : forall u v, In u dts -> In v dts -> dt_idx u = dt_idx v -> u = v).
    { intros u v Hu Hv Q. pose proof (fa_nodup _ _ _ _ _ _ Fa) as Nd. clear - Hu Hv Q Nd. induction dts as [|w ws IH]; [destruct Hu|]. cbn in Nd. apply NoDup_cons_iff in Nd. destruct Nd as [Nw Nd].
      destruct Hu as [->|Hu], Hv as [->|Hv]; auto; exfalso; apply Nw; [rewrite Q|rewrite <- Q]; apply in_map; auto. }
    apply in_map_iff in Kn. destruct Kn as (t & Ti & Tin).
    assert (Tn : nm n = name).
    { assert (Hn : n < nth 0 (l_dims l0) 0) by (rewrite D; pose proof (fa_width _ _ _ _ _ _ Fa); cbn [m_cols M] in *; lia).
      destruct (rn_name _ _ _ _ _ _ Rn n Hn) as (b & k & Hb & Kb & ->).
      assert (b = n). { eapply (fa_uniq _ _ _ _ _ _ Fa b n n); auto; [cbn; lia|eapply nth_error_In; eauto|]. rewrite <- Ti, Dc by auto. eapply nth_error_In. apply Self. auto. } subst b.
      assert (k = 0). { rewrite <- Ti in Kb. rewrite Dc in Kb by auto. pose proof (fa_cols _ _ _ _ _ _ Fa (dt_idx t)) as Nd. rewrite Dc in Nd by auto.
        apply (proj1 (NoDup_nth_error _) Nd); [apply nth_error_Some; congruence|]. rewrite Kb. symmetry. apply Self. auto. }
      subst k. cbn [category_name]. unfold cols. rewrite app_nth2, Nat.sub_diag by (fold n; lia). auto. }
    assert (Bx : forall u x, In u dts -> In x (dt_columns u) -> x < width X').
    { intros u x Hu Hx. apply (fa_cover _ _ _ _ _ _ Fa). exists (dt_idx u). split; [apply Bu; auto|]. rewrite Dc; auto. }
    (* kinds *)
    pose proof Ek as Ek0. unfold schema_index in Es. apply bind_ok in Es. destruct Es as (s & Ms & Es). injection Es as <-. apply mapM_ok in Ms.
    unfold schema_kinds in Ek. destruct (_ && _); [|discriminate]. apply mapM_ok in Ek.
    assert (Kinds : forall u, In u dts -> exists b, In (nth (dt_idx u) cols (LInt 0), b) schema /\ alias_kind b = Some (dt_kind u)).
    { intros u Hu. assert (I : In (dt_idx u, dt_kind u) ks) by (rewrite <- (fa_kinds _ _ _ _ _ _ Fa); apply in_map_iff; eauto).
      destruct (Forall2_In_r' _ _ _ Ek _ I) as ([i b] & Ib & Q). cbn [fst snd] in Q. destruct (alias_kind b) as [k|] eqn:Ab; [|discriminate]. injection Q as -> ->.
      destruct (Forall2_In_r' _ _ _ Ms _ Ib) as ([c b'] & Ic & Q). cbn [fst snd] in Q. apply bind_ok in Q. destruct Q as (j & Hj & Q). injection Q as -> ->.
      apply get_loc_lt in Hj; auto. exists b. split; auto. rewrite (nth_error_nth cols (dt_idx u) (LInt 0) Hj). auto. }
    assert (Ht : alias_kind a = Some (dt_kind t)).
    { destruct (Kinds t Tin) as (b & Ib & Ab). rewrite Ti in Ib. unfold cols in Ib. rewrite app_nth2, Nat.sub_diag in Ib by (fold n; lia). cbn [nth] in Ib.
      assert (Q : dget label_eqb schema name = Some b) by (apply (In_dget _ lspec); auto; apply Sn; auto).
      unfold schema in Q. rewrite (dget_dset_same _ lspec) in Q. congruence. }
    assert (Hd : dget label_eqb (l_dist l) name = Some t).
    { assert (Hn : n < nth 0 (l_dims l0) 0) by (rewrite D; pose proof (fa_width _ _ _ _ _ _ Fa); cbn [m_cols M] in *; lia).
      destruct (rn_dist _ _ _ _ _ _ Rn Inj n Hn) as (u & Iu & Nu & Eu). rewrite Tn in Eu. rewrite P3 in Iu. assert (u = t); [|congruence].
      apply Uniq; auto. rewrite Ti. rewrite <- Ti. eapply Disj; eauto. rewrite <- Ti. eapply nth_error_In. apply Self. auto. }
    pose proof (start_rect M Rm) as Sr.
    destruct (schema_kinds_keys _ _ _ Nz Ek0) as [Nk Kk].
    destruct (prepare_encoders ks _ _ _ _ _ Sr Nk (fun i Hi => proj1 (Kk i) Hi) Ep) as [Enc Wd].
    exists t. constructor; rewrite ?P3, ?P2; auto.
    - apply (fa_nodup _ _ _ _ _ _ Fa).
    - apply (fa_good _ _ _ _ _ _ Fa).
    - intros u x Hu Hx. rewrite D. eauto.
    - intros i. rewrite (fa_vars _ _ _ _ _ _ Fa). cbn [m_cols M]. fold n. rewrite Lc. tauto.
    - intros u Hu Ku. rewrite Forall_forall in Enc. rewrite (Enc u Hu Ku), start_column. auto.
    - rewrite D, Wd. cbn [start_data width m_cols M]. fold n. rewrite Lc. auto.
    - intros s' Es'. fold schema in Es'. rewrite Es' in Ms. apply Forall2_last in Ms. destruct Ms as (m' & [i b] & -> & Q). apply Forall2_last in Ek. destruct Ek as (k' & [j k] & Ek & Q').
      cbn [fst snd] in *. apply bind_ok in Q. destruct Q as (i' & Hi & Q). injection Q as -> ->. destruct (alias_kind b) as [kb|]; [|discriminate]. injection Q' as <- <-.
      apply get_loc_lt in Hi; auto. assert (i = n).
      { apply (proj1 (NoDup_nth_error _) Cn); [apply nth_error_Some; congruence|]. rewrite Hi. unfold cols. rewrite nth_error_app2, Nat.sub_diag by (fold n; lia). auto. } subst i.
      pose proof (fa_kinds _ _ _ _ _ _ Fa) as Fk. rewrite Ek in Fk. destruct (exists_last (l := dts)) as (ts & u & Eu); [intros ->; destruct Tin|].
      exists ts. rewrite Eu in Fk |- *. rewrite map_app in Fk. apply app_inj_tail in Fk. destruct Fk as [_ Fk]. injection Fk as Fi _.
      f_equal. f_equal. apply Uniq; auto; [rewrite Eu; apply in_app_iff; right; left; auto|congruence].
    - pose proof (fa_layout _ _ _ _ _ _ Fa) as La. pose proof (fa_kinds _ _ _ _ _ _ Fa) as Kd.
      assert (Q : forall w vs, NoDup (map fst vs) -> forall i k cs, In (i, k) vs -> In (i, cs) (layout w vs) -> 0 < k -> List.length cs = k).
      { clear. intros w vs. revert w. induction vs as [|[i0 k0] vs IH]; intros w N i k cs I J K; [destruct I|]. cbn in N, J. apply NoDup_cons_iff in N. destruct N as [Ni N].
        destruct I as [[= -> ->]|I], J as [E12|J].
        - injection E12 as <-. cbn. rewrite seq_length. lia.
        - exfalso. apply Ni. apply (in_map fst) in J. rewrite layout_keys in J. auto.
        - injection E12 as E1 _; subst. exfalso. apply Ni. apply (in_map fst) in I. auto.
        - eapply IH; eauto. }
      fold n. apply (Q (m_cols M) (map (fun ik => (fst ik, n_columns (snd ik) (values M (fst ik)))) ks)) with (i := n).
      + rewrite map_map. cbn [fst]. auto.
      + apply in_map_iff. exists (n, dt_kind t). split; auto. rewrite <- Kd. apply in_map_iff. exists t. rewrite Ti. auto.
      + change (In (n, dt_columns t) (expanded M ks)). rewrite <- La. apply in_map_iff. exists t. rewrite Ti. auto.
      + unfold n_columns. destruct (dt_kind t); auto. unfold torch_numpy in E0. destruct (m_size M =? 0) eqn:Ms0; [discriminate|]. apply Nat.eqb_neq in Ms0.
        destruct rows as [|r0 rs]; [cbn in Ms0; lia|]. unfold fl_column. cbn [map]. destruct (nodup Qc_eq_dec _) eqn:Nd; [|cbn; lia].
        exfalso. eapply (in_nil (A := Qc)). rewrite <- Nd. apply nodup_In. left. reflexivity.
    - unfold torch_numpy in E0. destruct (m_size M =? 0); [discriminate|]. destruct (all_finite M) eqn:Af; [|discriminate]. apply all_finite_ok in Af. exact Af.
  Qed.
End Fitted.
