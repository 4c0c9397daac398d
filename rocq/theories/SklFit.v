(** * SklFit: what a successful fit leaves in an estimator. *)
From Coq Require Import List Bool Arith ZArith Lia String QArith Qcanon Permutation.
From Verif Require Import Base Names Digraph SmModel SmProofs QcX NetModel NotearsModel NotearsProofs NotearsThms
  TorchModel TorchSpec TorchProofs TorchThms TorchGraph TorchResult TorchPandas TorchFrame TorchFinal SklModel SklCoef.
Import ListNotations.
Local Open Scope string_scope.
Local Open Scope list_scope.
Local Open Scope nat_scope.

Local Notation lspec := label_eqb_spec.

(** ** Well formed arguments *)

(** Rows as long as there are columns, one label for each row. *)
Definition wf_x (X : xdata) : Prop :=
  Forall (fun r => List.length r = List.length (x_cols X)) (x_rows X) /\ List.length (x_index X) = List.length (x_rows X).
Definition wf_y (y : ydata) : Prop := List.length (y_index y) = List.length (y_vals y).
(** Dictionaries have distinct keys. *)
Definition wf_cfg (c : config) : Prop := forall s, c_schema c = Some s -> NoDup (map fst s).

(** ** Lists *)
Lemma labels_nodup_iff l : labels_nodup l = true <-> NoDup l.
Proof.
  induction l as [|x l IH]; cbn [labels_nodup]; [split; auto; constructor|]. rewrite andb_true_iff, IH, NoDup_cons_iff, negb_true_iff, <- not_true_iff_false, lmem_iff. tauto.
Qed.

Lemma find_label_Some l x k : find_label l x = Some k -> nth_error l k = Some x.
Proof.
  revert k. induction l as [|y l IH]; cbn [find_label]; intros k H; [discriminate|]. destruct (lspec x y) as [->|]; [injection H as <-; auto|].
  destruct (find_label l x) as [j|]; [|discriminate]. injection H as <-. cbn. auto.
Qed.
Lemma find_label_None l x : find_label l x = None -> ~ In x l.
Proof.
  induction l as [|y l IH]; cbn [find_label]; intros H; [tauto|]. destruct (lspec x y) as [|N]; [discriminate|].
  destruct (find_label l x); [discriminate|]. cbn. intros [->|I]; [congruence|]. apply IH; auto.
Qed.
Lemma find_label_nth l k x : NoDup l -> nth_error l k = Some x -> find_label l x = Some k.
Proof.
  revert k. induction l as [|y l IH]; intros k N H; [destruct k; discriminate|]. apply NoDup_cons_iff in N. destruct N as [Ny N]. cbn [find_label]. destruct k as [|k]; cbn in H.
  - injection H as ->. destruct (lspec x x); [auto|congruence].
  - destruct (lspec x y) as [->|]; [exfalso; apply Ny; eapply nth_error_In; eauto|]. rewrite (IH k); auto.
Qed.

Lemma list_eqb_labels l m : list_eqb label_eqb l m = true <-> l = m.
Proof.
  revert m. induction l as [|x l IH]; intros [|y m]; cbn; split; intros H; try congruence; auto.
  - apply andb_true_iff in H. destruct H as [E H]. destruct (lspec x y); [|discriminate]. apply IH in H. congruence.
  - injection H as -> ->. apply andb_true_iff. split; [destruct (lspec y y); congruence|apply IH; auto].
Qed.

Lemma NoDup_app_l {A} (l m : list A) : NoDup (l ++ m) -> NoDup l.
Proof. induction l as [|x l IH]; cbn; intros H; [constructor|]. apply NoDup_cons_iff in H. destruct H as [N H]. constructor; auto. rewrite in_app_iff in N. tauto. Qed.

(** ** Scaling *)
Lemma scale_row_length {A} (f : Qc * Qc -> A -> A) d is mss : forall r, Forall (fun i => i < List.length r) is -> List.length (scale_row f d is mss r) = List.length r.
Proof.
  unfold scale_row. revert mss. induction is as [|i is IH]; intros [|ms mss] r H; cbn [combine fold_left]; auto. inversion H; subst. cbn [fst snd].
  rewrite IH; rewrite set_nth_length; auto.
Qed.

Lemma get_loc_lt cols c i : NoDup cols -> get_loc cols c = Ok i -> nth_error cols i = Some c.
Proof.
  intros N H. unfold get_loc in H. destruct (dget label_eqb (col_idx cols) c) as [j|] eqn:E; [|discriminate]. injection H as ->.
  assert (Q : idx_of (col_idx cols) c = Ok (Z.of_nat i)) by (unfold idx_of; rewrite E; auto).
  pose proof (idx_of_inv cols c i N Q) as C. pose proof (dget_In _ lspec _ _ _ E) as I.
  assert (L : i < List.length cols). { rewrite col_idx_combine in I by auto. apply in_combine_r in I. apply in_seq in I. lia. }
  rewrite (col_name_nth cols i L). congruence.
Qed.

Lemma scale_row_other {A} (f : Qc * Qc -> A -> A) d is mss j : ~ In j is -> forall r, Forall (fun i => i < List.length r) is -> nth j (scale_row f d is mss r) d = nth j r d.
Proof.
  unfold scale_row. revert mss. induction is as [|i is IH]; intros [|ms mss] Hj r H; cbn [combine fold_left]; auto. inversion H; subst. cbn [fst snd].
  rewrite IH; [|intros Q; apply Hj; right; auto|rewrite set_nth_length; auto]. apply set_nth_other; auto. intros ->. apply Hj. left. auto.
Qed.

(** ** The concatenated data *)
Lemma concat_feature X y rows v i : wf_x X -> List.length (x_rows X) = List.length (y_vals y) -> concat_xy X y = Ok rows -> i < List.length (x_cols X) ->
  In v (map (fun r => nth i r NaN) (x_rows X)) -> In v (map (fun r => nth i r NaN) rows).
Proof.
  intros [R Lx] L E Hi Hv. apply in_map_iff in Hv. destruct Hv as (r & <- & Hr). rewrite Forall_forall in R. pose proof (R r Hr) as Lr.
  unfold concat_xy in E. destruct (list_eqb label_eqb (x_index X) (y_index y)).
  - injection E as <-. rewrite map_map. apply In_nth_error in Hr. destruct Hr as (k & Hk).
    assert (Kl : k < List.length (y_vals y)) by (rewrite <- L; apply nth_error_Some; congruence). destruct (nth_error (y_vals y) k) as [w|] eqn:Ew; [|apply nth_error_None in Ew; lia].
    apply in_map_iff. exists (r, w). cbn [fst snd]. split; [apply app_nth1; lia|]. clear - Hk Ew. revert k Hk Ew. generalize (y_vals y). induction (x_rows X) as [|r0 rs IH]; intros [|w0 ws] [|k] Hk Ew; cbn in *; try discriminate; [left; congruence|right; eauto].
  - destruct (labels_nodup (x_index X) && labels_nodup (y_index y)) eqn:Nd; cbn [negb] in E; [|discriminate]. apply andb_true_iff in Nd. destruct Nd as [Nx _]. apply labels_nodup_iff in Nx.
    injection E as <-. rewrite map_map. apply In_nth_error in Hr. destruct Hr as (k & Hk).
    assert (Kl : k < List.length (x_index X)) by (rewrite Lx; apply nth_error_Some; congruence). destruct (nth_error (x_index X) k) as [j|] eqn:Ej; [|apply nth_error_None in Ej; lia].
    apply in_map_iff. exists j. split; [|apply in_app_iff; left; eapply nth_error_In; eauto]. rewrite (find_label_nth _ k j Nx Ej). rewrite (nth_error_nth _ _ [] Hk). apply app_nth1. lia.
Qed.

Lemma concat_rect X y rows : wf_x X -> List.length (x_rows X) = List.length (y_vals y) -> concat_xy X y = Ok rows ->
  Forall (fun r => List.length r = S (List.length (x_cols X))) rows.
Proof.
  intros [R Lx] L E. unfold concat_xy in E. destruct (list_eqb label_eqb (x_index X) (y_index y)).
  - injection E as <-. apply Forall_map. apply Forall_forall. intros [r v] H. cbn [fst snd]. apply in_combine_l in H. rewrite Forall_forall in R. rewrite app_length, (R r H). cbn. lia.
  - destruct (negb _); [discriminate|]. injection E as <-. apply Forall_map. apply Forall_forall. intros i _. rewrite app_length. cbn [List.length].
    destruct (find_label (x_index X) i) as [k|] eqn:Ef; [|rewrite map_length; lia]. apply find_label_Some in Ef. assert (k < List.length (x_rows X)) by (rewrite <- Lx; apply nth_error_Some; congruence).
    rewrite Forall_forall in R. rewrite (R (nth k (x_rows X) [])) by (apply nth_In; auto). lia.
Qed.

Lemma concat_target X y rows v : wf_x X -> wf_y y -> List.length (x_rows X) = List.length (y_vals y) -> concat_xy X y = Ok rows -> v <> NaN ->
  (In v (map (fun r => nth (List.length (x_cols X)) r NaN) rows) <-> In v (y_vals y)).
Proof.
  intros [R Lx] Ly L E Nv. unfold concat_xy in E. destruct (list_eqb label_eqb (x_index X) (y_index y)).
  - injection E as <-. rewrite map_map. assert (Q : map (fun rv => nth (List.length (x_cols X)) (fst rv ++ [snd rv]) NaN) (combine (x_rows X) (y_vals y)) = y_vals y).
    { clear Lx Ly. revert R L. generalize (y_vals y). induction (x_rows X) as [|r rs IH]; intros [|w vs] R L; cbn in L; try lia; cbn [combine map]; auto. inversion R; subst.
      cbn [fst snd]. rewrite app_nth2, H1, Nat.sub_diag by lia. cbn. f_equal. apply IH; auto. }
    rewrite Q. tauto.
  - destruct (labels_nodup (x_index X) && labels_nodup (y_index y)) eqn:Nd; cbn [negb] in E; [|discriminate]. apply andb_true_iff in Nd. destruct Nd as [Nx Ny]. apply labels_nodup_iff in Nx, Ny.
    injection E as <-. rewrite map_map.
    set (lab := fun i => match find_label (y_index y) i with Some k => nth k (y_vals y) NaN | None => NaN end).
    assert (Q : forall i, nth (List.length (x_cols X)) ((match find_label (x_index X) i with Some k => nth k (x_rows X) [] | None => map (fun _ => NaN) (x_cols X) end) ++ [lab i]) NaN = lab i).
    { intros i. assert (Lr : List.length (match find_label (x_index X) i with Some k => nth k (x_rows X) [] | None => map (fun _ => NaN) (x_cols X) end) = List.length (x_cols X)).
      { destruct (find_label (x_index X) i) as [k|] eqn:Ef; [|rewrite map_length; auto]. apply find_label_Some in Ef. assert (k < List.length (x_rows X)) by (rewrite <- Lx; apply nth_error_Some; congruence).
        rewrite Forall_forall in R. apply R. apply nth_In; auto. }
      rewrite app_nth2, Lr, Nat.sub_diag by lia. auto. }
    rewrite (map_ext _ lab) by exact Q. rewrite in_map_iff. split.
    + intros (i & Ei & _). unfold lab in Ei. destruct (find_label (y_index y) i) as [k|] eqn:Ef; [|congruence]. rewrite <- Ei. apply nth_In. rewrite <- Ly. apply nth_error_Some. apply find_label_Some in Ef. congruence.
    + intros I. apply (In_nth _ _ NaN) in I. destruct I as (k & Hk & Ek). assert (Hk' : k < List.length (y_index y)) by (rewrite Ly; auto).
      destruct (nth_error (y_index y) k) as [i|] eqn:Ei; [|apply nth_error_None in Ei; lia]. exists i. split; [unfold lab; rewrite (find_label_nth _ k i Ny Ei); auto|].
      apply in_app_iff. destruct (lmem i (x_index X)) eqn:M; [left; apply lmem_iff; auto|]. right. apply filter_In. split; [eapply nth_error_In; eauto|]. rewrite M. auto.
Qed.

Section Oracles.
  Context (fuel : nat) (opt : optimiser) (eh : tpenalty) (act : activation) (grad : autograd) (rnd : list Qc) (order : list dtype -> list dtype) (sd : list Qc -> Qc).
  Let base_fit := base_fit fuel opt eh act grad rnd order sd.

  (** The schema without the target. *)
  Definition feature_schema (c : config) (X : xdata) : list (label * string) :=
    match c_schema c with Some (x :: r) => x :: r | _ => map (fun u => (u, "cont")) (map fst (x_cols X)) end.

  Definition fit_tabu (c : config) (name : label) : tabu label :=
    mkTabu (t_edges (c_tabu c))
      (if c_dependent c then match t_parents (c_tabu c) with None => Some [name] | Some l => if lmem name l then Some l else Some (l ++ [name]) end else t_parents (c_tabu c))
      (t_children (c_tabu c)).

  Record fit_outcome (e : est) (X : xdata) (y : ydata) (a : string) (e' : est) (X1 : xdata) (y1 : ydata) (rows : list (list fl)) (gr : graphs) : Prop := mkFo {
    fo_check : check_X_y X y = true;
    fo_cols : x_cols X1 = x_cols X;
    fo_xindex : x_index X1 = x_index X;
    fo_yindex : y_index y1 = y_index y;
    fo_xrows : wf_x X -> wf_x X1;
    fo_xlen : List.length (x_rows X1) = List.length (x_rows X);
    fo_ylen : List.length (y_vals y1) = List.length (y_vals y);
    fo_yvals : a <> "cont" \/ c_standardize (e_cfg e) = false -> y1 = y;
    fo_plain : c_standardize (e_cfg e) = false -> X1 = X /\ y1 = y;
    fo_rows : concat_xy X1 y1 = Ok rows;
    fo_nodup : NoDup (map fst (x_cols X) ++ [target_name y]);
    fo_learned : torch_pandas fuel opt eh act grad rnd order (mkFrame (x_cols X ++ [(target_name y, y_numeric y1)]) rows)
       (Some (dset label_eqb (feature_schema (e_cfg e) X) (target_name y) a))
       (mkTp (c_hidden (e_cfg e)) (c_bias (e_cfg e)) (Some (c_threshold (e_cfg e))) (c_iter (e_cfg e))) (fit_tabu (e_cfg e) (target_name y)) = Ok (g_learned gr);
    fo_edges : if c_enforce (e_cfg e) then threshold_till_dag (l_graph (g_learned gr)) = (g_edges gr, Ok tt) else g_edges gr = l_graph (g_learned gr);
    fo_values : g_values gr = (fun i => fl_column i rows);
    fo_cfg : e_cfg e' = e_cfg e; fo_type : e_type e' = Some a; fo_classes : e_classes e' = e_classes e;
    fo_names : e_names e' = Some (map fst (x_cols X), target_name y); fo_graph : e_graph e' = Some gr;
    fo_scale : c_standardize (e_cfg e) = true -> exists is mss, e_scale_X e' = Some (is, mss) /\
       Forall (fun i => exists f, nth_error (map fst (x_cols X)) i = Some f /\ In (f, "cont") (feature_schema (e_cfg e) X)) is;
    fo_other : wf_x X -> forall i f, nth_error (map fst (x_cols X)) i = Some f -> ~ In (f, "cont") (feature_schema (e_cfg e) X) ->
       map (fun r => nth i r NaN) (x_rows X1) = map (fun r => nth i r NaN) (x_rows X);
    fo_scale_y : c_standardize (e_cfg e) = true -> a = "cont" -> exists ms, e_scale_y e' = Some ms
  }.

  Lemma base_fit_inv e X y a e' : e_type e = Some a -> base_fit e X y = (e', Ok tt) ->
    exists X1 y1 rows gr, fit_outcome e X y a e' X1 y1 rows gr.
  Proof.
    intros Ta E. unfold base_fit, SklModel.base_fit in E. rewrite Ta in E. destruct (check_X_y X y) eqn:Ec; cbn [negb] in E; [|congruence].
    cbv zeta in E. fold (feature_schema (e_cfg e) X) in E.
    match type of E with match ?s with _ => _ end = _ => destruct s as [[[e1 X1] y1]|x] eqn:Es end; [|congruence].
    assert (S : e_cfg e1 = e_cfg e /\ e_type e1 = Some a /\ e_classes e1 = e_classes e /\ e_names e1 = e_names e /\ e_graph e1 = e_graph e /\
      x_cols X1 = x_cols X /\ x_index X1 = x_index X /\ y_index y1 = y_index y /\ List.length (x_rows X1) = List.length (x_rows X) /\
      List.length (y_vals y1) = List.length (y_vals y) /\ (a <> "cont" \/ c_standardize (e_cfg e) = false -> y1 = y) /\
      (c_standardize (e_cfg e) = false -> X1 = X /\ y1 = y) /\ (NoDup (map fst (x_cols X)) -> wf_x X -> wf_x X1) /\
      (c_standardize (e_cfg e) = true -> NoDup (map fst (x_cols X)) -> exists is mss, e_scale_X e1 = Some (is, mss) /\
       Forall (fun i => exists f, nth_error (map fst (x_cols X)) i = Some f /\ In (f, "cont") (feature_schema (e_cfg e) X)) is) /\
      (c_standardize (e_cfg e) = true -> a = "cont" -> exists ms, e_scale_y e1 = Some ms) /\
      (NoDup (map fst (x_cols X)) -> wf_x X -> forall i f, nth_error (map fst (x_cols X)) i = Some f -> ~ In (f, "cont") (feature_schema (e_cfg e) X) ->
       map (fun r => nth i r NaN) (x_rows X1) = map (fun r => nth i r NaN) (x_rows X))).
    { destruct (c_standardize (e_cfg e)) eqn:St.
      - apply bind_ok in Es. destruct Es as (is & Ei & Es). destruct is as [|i0 is0] eqn:Eis; [discriminate|]. rewrite <- Eis in *. clear Eis.
        set (mss := map (fun i => (mean (fl_column i (x_rows X)), sd (fl_column i (x_rows X)))) is) in *.
        assert (Wx : NoDup (map fst (x_cols X)) -> wf_x X -> wf_x (mkX (x_cols X) (x_index X) (map (scale_row scale_fl NaN is mss) (x_rows X)))).
        { intros Nc [R I]. split; cbn [x_cols x_rows x_index]; [|rewrite map_length; auto]. apply Forall_map. eapply Forall_impl; [|exact R]. intros r Hr. cbn beta in *.
          rewrite scale_row_length; auto. apply Forall_forall. intros i Hi. apply mapM_ok in Ei. clear - Ei Hi Hr Nc. rewrite Hr.
          induction Ei as [|ca j l m Q Ei IH]; [destruct Hi|]. destruct Hi as [->|Hi]; [|auto]. apply get_loc_lt in Q; auto.
          assert (i < List.length (map fst (x_cols X))) by (apply nth_error_Some; congruence). rewrite map_length in H. auto. }
        assert (Wi : NoDup (map fst (x_cols X)) -> Forall (fun i => exists f, nth_error (map fst (x_cols X)) i = Some f /\ In (f, "cont") (feature_schema (e_cfg e) X)) is).
        { intros Nc. apply Forall_forall. intros i Hi. apply mapM_ok in Ei.
          assert (Sub : forall ca, In ca (filter (fun ca => String.eqb (snd ca) "cont") (feature_schema (e_cfg e) X)) -> In (fst ca, "cont") (feature_schema (e_cfg e) X)).
          { intros [c b] H. apply filter_In in H. destruct H as [H Eb]. cbn [fst snd] in *. apply String.eqb_eq in Eb. subst. auto. }
          revert Sub. clear - Ei Hi Nc. induction Ei as [|ca j l m Q Ei IH]; intros Sub; [destruct Hi|]. destruct Hi as [->|Hi]; [|apply IH; auto; intros; apply Sub; right; auto].
          exists (fst ca). split; [apply get_loc_lt; auto|]. apply Sub. left. auto. }
        assert (Wo : NoDup (map fst (x_cols X)) -> wf_x X -> forall i f, nth_error (map fst (x_cols X)) i = Some f -> ~ In (f, "cont") (feature_schema (e_cfg e) X) ->
           map (fun r => nth i r NaN) (map (scale_row scale_fl NaN is mss) (x_rows X)) = map (fun r => nth i r NaN) (x_rows X)).
        { intros Nc [R I] i f Hf Nf. rewrite map_map. apply map_ext_in. intros r Hr. specialize (Wi Nc). rewrite Forall_forall in Wi, R. apply scale_row_other.
          - intros Hi. destruct (Wi i Hi) as (f' & Ef & If). congruence.
          - apply Forall_forall. intros j Hj. destruct (Wi j Hj) as (f' & Ef & _). rewrite (R r Hr). rewrite <- (map_length fst). apply nth_error_Some. congruence. }
        destruct (String.eqb_spec a "cont") as [->|Na].
        + injection Es as <- <- <-. cbn [e_cfg e_type e_classes e_names e_graph x_cols x_index x_rows y_index y_vals]. rewrite !map_length. repeat split; auto; try tauto; try (intros; discriminate); try (apply Wx; auto; fail); try (intros _ Nc; exists is, mss; auto; fail); try (intros; eauto; fail). all: try (intros [H|H]; [congruence|discriminate]). all: try exact Wo. all: intros _ _; eexists; reflexivity.
        + assert (Q : Ok (mkEst (e_cfg e) (Some a) (e_classes e) (Some (is, mss)) (e_scale_y e) (e_names e) (e_graph e),
                       mkX (x_cols X) (x_index X) (map (scale_row scale_fl NaN is mss) (x_rows X)), y) = Ok (e1, X1, y1)).
          { rewrite <- Es. clear - Na. repeat match goal with |- context [match ?b with _ => _ end] => destruct b; try reflexivity end. congruence. }
          injection Q as <- <- <-. cbn [e_cfg e_type e_classes e_names e_graph x_cols x_index x_rows]. rewrite !map_length. repeat split; auto; try (intros; discriminate); try (apply Wx; auto; fail); try (intros _ Nc; exists is, mss; auto; fail). all: try exact Wo. all: try (intros _ Q; congruence).
      - injection Es as <- <- <-. repeat split; auto; try (intros; discriminate); apply H0. }
    destruct S as (S1 & S2 & S3 & S4 & S5 & S6 & S7 & S8 & S9 & S10 & S11 & S12 & S13 & S14 & S15 & S16).
    match type of E with match ?s with _ => _ end = _ => destruct s as [gr|x] eqn:Eo end; [|congruence].
    injection E as <-. apply bind_ok in Eo. destruct Eo as (rows & Er & Eo).
    destruct (labels_nodup (map fst (x_cols X) ++ [target_name y])) eqn:Nd; cbn [negb] in Eo; [|discriminate]. apply labels_nodup_iff in Nd.
    apply bind_ok in Eo. destruct Eo as (l & El & Eo). apply bind_ok in Eo. destruct Eo as (g & Egr & Eo). injection Eo as <-.
    exists X1, y1, rows. eexists. constructor; cbn [g_learned g_edges g_values e_cfg e_type e_classes e_names e_graph e_scale_X e_scale_y]; try reflexivity; auto.
    - intros W. apply S13; auto. apply NoDup_app_l in Nd. auto.
    - rewrite <- S6. exact El.
    - clear Es. cbn [g_learned g_edges]. destruct (c_enforce (e_cfg e)); [|injection Egr as ->; reflexivity]. destruct (threshold_till_dag (l_graph l)) as [g' [[]|x]] eqn:Et; cbn [bind] in Egr; [|discriminate]. injection Egr as ->. reflexivity.
    - intros Q. apply S14; auto. apply NoDup_app_l in Nd. auto.
    - apply S16. apply NoDup_app_l in Nd. auto.
  Qed.
End Oracles.
