(** * SklUnits2: predictions of estimators that standardise, in other units. *)
From Coq Require Import List Bool Arith ZArith Lia String QArith Qcanon Permutation Reals Lra.
From Verif Require Import Base Names Digraph SmModel SmProofs QcX NetModel NotearsModel NotearsProofs NotearsThms AcycLink
  TorchModel TorchSpec TorchProofs TorchThms SklModel SklCoef SklFit OrdProofs SklClf SklMain SklPairs SklUnits.
Import ListNotations.
Local Open Scope string_scope.
Local Open Scope list_scope.
Local Open Scope nat_scope.

(** A predicted number in another unit. *)
Definition real_in (u : unit_of) (v : R) : R := (realq (fst u) * v + realq (snd u))%R.

Section Oracles.
  Context (fuel : nat) (opt : optimiser) (eh : tpenalty) (act : activation) (grad : autograd) (rnd : list Qc) (order : list dtype -> list dtype) (sd : list Qc -> Qc).

  Lemma inputs_units c u X X' is P P' : remeasured u X X' -> wf_x X -> fair_units c X u -> x_rows X <> [] -> Forall (Forall (fun x => is_finite x = true)) (x_rows X) ->
    NoDup is -> Forall (fun i => i < List.length (x_cols X)) is -> (forall i f, nth_error (map fst (x_cols X)) i = Some f -> (In i is <-> taken_continuous c f)) ->
    (forall i, In i is -> scales sd (u i) (column_of X i)) -> p_cols P = List.length (x_cols X) -> remeasured_input u P P' ->
    map (scale_row (scale_q (p_ints P')) 0%Qc is (map (fun i => moments sd (column_of X' i)) is)) (p_rows P') =
    map (scale_row (scale_q (p_ints P)) 0%Qc is (map (fun i => moments sd (column_of X i)) is)) (p_rows P).
  Proof.
    intros Rm [Wr Wi] [Up Us] Nr Fi Nd Il Ic Sc Lc (_ & Ei & Cr). rewrite Ei. symmetry. eapply Forall2_map_eq; [exact Cr|]. intros r r' Hr (Hl & Hl' & Hn). cbn beta. rewrite Lc in *.
    assert (B : Forall (fun i => i < List.length r) is) by (rewrite Hl; auto). assert (B' : Forall (fun i => i < List.length r') is) by (rewrite Hl'; auto).
    apply (nth_all_eq 0%Qc); [rewrite !scale_row_length; congruence|]. intros j Hj. rewrite scale_row_length in Hj by auto. rewrite Hl in Hj.
    destruct (in_dec Nat.eq_dec j is) as [I|I].
    - rewrite !scale_row_in by auto. rewrite Hn by auto.
      unfold moments. rewrite (column_units u X X' j); auto; [|intros r0 H0; rewrite Forall_forall in Wr; rewrite (Wr r0 H0); auto].
      unfold scale_q. cbn [fst snd]. rewrite (scaled_cell sd (u j) (column_of X j)); auto. unfold column_of. destruct (x_rows X); [congruence|discriminate].
    - rewrite !scale_row_other by auto. rewrite Hn by auto. assert (Q : exists f, nth_error (map fst (x_cols X)) j = Some f).
      { destruct (nth_error (map fst (x_cols X)) j) as [f|] eqn:E; eauto. apply nth_error_None in E. rewrite map_length in E. lia. }
      destruct Q as (f & Hf). assert (Nt : ~ taken_continuous c f) by (intros Q; apply I, (Ic j f Hf); auto). rewrite (Us j f Hf Nt). unfold in_unit, same_unit. cbn [fst snd]. ring.
  Qed.

  Lemma real_in_same v : real_in same_unit v = v.
  Proof. unfold real_in, same_unit. cbn [fst snd]. rewrite realq_1, realq_0. lra. Qed.

  (** What standardising estimators predict, in other units. *)
  Theorem predict_units e X X' y y' u uy P P' : c_standardize (e_cfg e) = true -> wf_x X -> wf_cfg (e_cfg e) -> NoDup (map fst (x_cols X)) ->
    fair_units (e_cfg e) X u -> remeasured u X X' -> remeasured_target uy y y' -> (0 < fst uy)%Qc -> (e_type e = Some "cont" \/ uy = same_unit) ->
    (forall i f, nth_error (map fst (x_cols X)) i = Some f -> taken_continuous (e_cfg e) f -> scales sd (u i) (column_of X i)) ->
    (e_type e = Some "cont" -> scales sd uy (targets_of y)) ->
    let f := base_fit fuel opt eh act grad rnd order sd e X y in let f' := base_fit fuel opt eh act grad rnd order sd e X' y' in
    snd f = Ok tt -> p_cols P = List.length (x_cols X) -> remeasured_input u P P' ->
    base_predict act (fst f') P' = do r <- base_predict act (fst f) P; Ok (fst r, map (map (real_in uy)) (snd r)).
  Proof.
    intros St Wx Wc Nd Fu Rm Rt Hu Ty Sx Sy. cbv zeta. intros Ok1 Lp Ri.
    destruct (base_units fuel opt eh act grad rnd order sd e X X' y y' u uy St Wx Wc Nd Fu Rm Rt Hu Ty) as (E1 & (Sc & Sty & Scl & Sn & Sg) & H); [intros; left; eauto|intros; left; auto|].
    cbv zeta in H. destruct (H Ok1) as (is & Ni & Il & Ic & Cf & Tf & Ck & Ex & Ex' & Ey). clear H. destruct (checked _ _ Ck) as (Nx & Ny & Fx & Fy).
    set (e1 := fst (base_fit fuel opt eh act grad rnd order sd e X y)) in *. set (e1' := fst (base_fit fuel opt eh act grad rnd order sd e X' y')) in *.
    unfold base_predict. rewrite Sc, Cf, St, Ex, Ex', Sty, Tf, Scl, Sn, Sg.
    assert (Sx' : forall j, In j is -> scales sd (u j) (column_of X j)).
    { intros j Hj. destruct (nth_error (map fst (x_cols X)) j) as [g|] eqn:E; [apply (Sx j g E), (Ic j g E); auto|]. exfalso. apply nth_error_None in E. rewrite map_length in E. rewrite Forall_forall in Il. specialize (Il j Hj). lia. }
    rewrite (inputs_units (e_cfg e) u X X' is P P' Rm Wx Fu Nx Fx Ni Il Ic Sx' Lp Ri).
    destruct Ri as (Rc & _ & _). rewrite Rc. destruct (forallb (fun i => i <? p_cols P) is); cbn [bind]; [|reflexivity].
    destruct (e_graph e1) as [gr|]; [|destruct (e_classes e1); reflexivity]. destruct (e_names e1) as [[fs name]|]; [|reflexivity].
    destruct (reconstruct_data _ _ _ _) as [M|x]; cbn [bind]; [|reflexivity]. destruct (dget _ _ _) as [t|]; [|reflexivity].
    match goal with |- bind ?m _ = _ => destruct m as [ys|x] end; cbn [bind]; [|reflexivity].
    assert (T : e_type e = Some "cont" \/ (e_type e <> Some "cont" /\ uy = same_unit)).
    { destruct (e_type e) as [a|]; [|right; split; [discriminate|]; destruct Ty; auto; discriminate]. destruct (String.eqb_spec a "cont") as [->|Na]; auto. right. split; [congruence|]. destruct Ty; congruence. }
    destruct T as [T|[T ->]].
    - rewrite T. destruct (Ey T) as [-> ->]. cbn [bind fst snd]. do 2 f_equal. rewrite map_map. apply map_ext. intros l. rewrite map_map. apply map_ext. intros v.
      unfold moments. cbn [fst snd]. rewrite (targets_units uy y y') by auto. rewrite (Sy T). change (mean (map (in_unit uy) (targets_of y))) with (average (map (in_unit uy) (targets_of y))).
      rewrite average_unit by (unfold targets_of; destruct (y_vals y); [congruence|discriminate]). change (mean (targets_of y)) with (average (targets_of y)).
      unfold real_in, in_unit. rewrite realq_plus, !realq_mult. ring.
    - assert (Q : forall l : list (list R), map (map (real_in same_unit)) l = l).
      { intros l. rewrite (map_ext _ (fun m => m)), map_id; auto. intros m. rewrite (map_ext _ (fun v => v)), map_id; auto. apply real_in_same. }
      destruct (e_type e) as [a|]; [|cbn [bind fst snd]; rewrite Q; reflexivity].
      repeat (match goal with |- context [match ?b with _ => _ end] => is_var b; destruct b end; try (cbn [bind fst snd]; rewrite Q; reflexivity); try congruence).
  Qed.

  Lemma coef_same e e' name data : same_but_scales e e' -> get_edges_to_node e' name data = get_edges_to_node e name data.
  Proof. intros (_ & _ & C & N & G). unfold get_edges_to_node. rewrite C, N, G. reflexivity. Qed.
  Lemma reg_coef_same e e' data : same_but_scales e e' -> reg_coef e' data = reg_coef e data /\ reg_intercept e' = reg_intercept e.
  Proof. intros S. pose proof S as (_ & _ & C & N & G). unfold reg_coef, reg_intercept, bias_of. rewrite N, G. split; [|reflexivity]. destruct (e_names e) as [[fs t]|]; [|reflexivity]. rewrite (coef_same e e'); auto. Qed.
  Lemma clf_coef_same e e' data : same_but_scales e e' -> clf_coef e' data = clf_coef e data /\ clf_intercept e' = clf_intercept e.
  Proof.
    intros S. pose proof S as (_ & _ & C & N & G). unfold clf_coef, clf_intercept, bias_of. rewrite N, C, G. split; [|reflexivity]. destruct (e_classes e); [|reflexivity]. destruct (e_names e) as [[fs t]|]; [|reflexivity].
    rewrite (coef_same e e') by auto. destruct (_ =? 2); [reflexivity|]. f_equal. clear - S. induction (seq 0 (List.length l)) as [|k ks IH]; [reflexivity|]. cbn [mapM]. rewrite IH, (coef_same e e' (make_node_name t k)) by auto. reflexivity.
  Qed.

  Theorem reg_units e X X' y y' u uy : c_standardize (e_cfg e) = true -> wf_x X -> wf_cfg (e_cfg e) -> NoDup (map fst (x_cols X)) ->
    fair_units (e_cfg e) X u -> remeasured u X X' -> remeasured_target uy y y' -> (0 < fst uy)%Qc -> (e_type e = None \/ e_type e = Some "cont" \/ uy = same_unit) ->
    (forall i f, nth_error (map fst (x_cols X)) i = Some f -> taken_continuous (e_cfg e) f -> scales sd (u i) (column_of X i) \/ constant (column_of X i)) ->
    scales sd uy (targets_of y) \/ constant (targets_of y) ->
    let f := reg_fit fuel opt eh act grad rnd order sd e X y in let f' := reg_fit fuel opt eh act grad rnd order sd e X' y' in
    snd f' = snd f /\ e_graph (fst f') = e_graph (fst f) /\ (forall data, reg_coef (fst f') data = reg_coef (fst f) data) /\ reg_intercept (fst f') = reg_intercept (fst f) /\
    forall P P', snd f = Ok tt -> p_cols P = List.length (x_cols X) -> remeasured_input u P P' ->
      (forall i f, nth_error (map fst (x_cols X)) i = Some f -> taken_continuous (e_cfg e) f -> scales sd (u i) (column_of X i)) -> scales sd uy (targets_of y) ->
      base_predict act (fst f') P' = do r <- base_predict act (fst f) P; Ok (fst r, map (map (real_in uy)) (snd r)).
  Proof.
    intros St Wx Wc Nd Fu Rm Rt Hu Ty Sx Sy. cbv zeta. unfold reg_fit. rewrite <- (with_type_cfg e "cont") in *.
    assert (T : e_type (with_type e "cont") = Some "cont" \/ uy = same_unit) by (unfold with_type; destruct Ty as [H | [H | H]]; [rewrite H; auto|rewrite H; auto|auto]).
    destruct (base_units fuel opt eh act grad rnd order sd (with_type e "cont") X X' y y' u uy St Wx Wc Nd Fu Rm Rt Hu T Sx (fun _ => Sy)) as (E & S & _). cbv zeta in *.
    split; [exact E|]. split; [apply S|]. split; [intros data; apply (reg_coef_same _ _ data S)|]. split; [apply (reg_coef_same _ _ "" S)|]. intros P P' O Lp Ri Sx' Sy'.
    apply (predict_units (with_type e "cont") X X' y y' u uy P P' St Wx Wc Nd Fu Rm Rt Hu T Sx' (fun _ => Sy') O Lp Ri).
  Qed.

  Theorem clf_units e X X' y u : c_standardize (e_cfg e) = true -> wf_x X -> wf_cfg (e_cfg e) -> NoDup (map fst (x_cols X)) ->
    fair_units (e_cfg e) X u -> remeasured u X X' ->
    (forall i f, nth_error (map fst (x_cols X)) i = Some f -> taken_continuous (e_cfg e) f -> scales sd (u i) (column_of X i) \/ constant (column_of X i)) ->
    let f := clf_fit fuel opt eh act grad rnd order sd e X y in let f' := clf_fit fuel opt eh act grad rnd order sd e X' y in
    snd f' = snd f /\ e_graph (fst f') = e_graph (fst f) /\ e_classes (fst f') = e_classes (fst f) /\ (forall data, clf_coef (fst f') data = clf_coef (fst f) data) /\ clf_intercept (fst f') = clf_intercept (fst f) /\
    forall P P', snd f = Ok tt -> p_cols P = List.length (x_cols X) -> remeasured_input u P P' ->
      (forall i f, nth_error (map fst (x_cols X)) i = Some f -> taken_continuous (e_cfg e) f -> scales sd (u i) (column_of X i)) ->
      predict_proba act (fst f') P' = predict_proba act (fst f) P /\ clf_predict act (fst f') P' = clf_predict act (fst f) P.
  Proof.
    intros St Wx Wc Nd Fu Rm Sx. cbv zeta. unfold clf_fit. destruct (_ && _); [cbn; intuition; discriminate|].
    set (e1 := mkEst (e_cfg e) (e_type e) (Some (classes_of (k_labels y))) (e_scale_X e) (e_scale_y e) (e_names e) (e_graph e)).
    cbv zeta. destruct (_ <? 2); [cbn; intuition; discriminate|].
    match goal with |- context [with_type e1 ?t] => set (a := t) end. match goal with |- context [base_fit fuel opt eh act grad rnd order sd (with_type e1 a) X ?y1] => set (yy := y1) end.
    assert (Cf : e_cfg (with_type e1 a) = e_cfg e) by (rewrite with_type_cfg; reflexivity). rewrite <- Cf in *.
    assert (Rt : remeasured_target same_unit yy yy) by (split; [|split; [|split]]; auto; rewrite (map_ext _ _ same_unit_id), map_id; auto).
    assert (Sy : scales sd same_unit (targets_of yy)).
    { unfold scales. rewrite (map_ext _ (fun q => q)), map_id; [cbn; ring|]. intros q. unfold in_unit, same_unit. cbn. ring. }
    destruct (base_units fuel opt eh act grad rnd order sd (with_type e1 a) X X' yy yy u same_unit St Wx Wc Nd Fu Rm Rt eq_refl (or_intror eq_refl) Sx (fun _ => or_introl Sy)) as (E & S & _). cbv zeta in *.
    split; [exact E|]. split; [apply S|]. split; [apply S|]. split; [intros data; apply (clf_coef_same _ _ data S)|]. split; [apply (clf_coef_same _ _ "" S)|]. intros P P' O Lp Ri Sx'.
    pose proof (predict_units (with_type e1 a) X X' yy yy u same_unit P P' St Wx Wc Nd Fu Rm Rt eq_refl (or_intror eq_refl) Sx' (fun _ => Sy) O Lp Ri) as B.
    assert (B' : base_predict act (fst (base_fit fuel opt eh act grad rnd order sd (with_type e1 a) X' yy)) P' = base_predict act (fst (base_fit fuel opt eh act grad rnd order sd (with_type e1 a) X yy)) P).
    { rewrite B. destruct (base_predict act _ P) as [[k l]|x]; cbn [bind fst snd]; auto. do 2 f_equal. rewrite (map_ext _ (fun m => m)), map_id; auto. intros m. rewrite (map_ext _ (fun v => v)), map_id; auto. apply real_in_same. }
    destruct S as (_ & _ & Sc & _). unfold clf_predict, predict_proba. rewrite B', Sc. auto.
  Qed.

  (** What structure is learned from. *)
  Lemma finish_learned e sX sY X1 y1 schema e' obs : finish fuel opt eh act grad rnd order e sX sY X1 y1 schema = (e', Ok tt) -> x_index X1 = y_index y1 -> observed X1 (y_vals y1) obs ->
    learned_from fuel opt eh act grad rnd order e e' (x_cols X1 ++ [(target_name y1, y_numeric y1)]) (map (fun o => fst o ++ [snd o]) obs).
  Proof.
    intros E Hi Ho. unfold finish in E. cbv zeta in E. match type of E with match ?o with _ => _ end = _ => destruct o as [gr|x] eqn:Eo end; [|discriminate]. injection E as <-.
    apply bind_ok in Eo. destruct Eo as (rows & Er & Eo). destruct (labels_nodup _); cbn [negb] in Eo; [|discriminate].
    apply bind_ok in Eo. destruct Eo as (l & El & Eo). apply bind_ok in Eo. destruct Eo as (g & Eg & Eo). injection Eo as <-.
    rewrite (concat_same X1 y1 obs rows Hi Ho Er) in *. do 3 eexists. split; [reflexivity|]. split; [reflexivity|exact El].
  Qed.

  Theorem reg_standardised e X y e' : reg_fit fuel opt eh act grad rnd order sd e X y = (e', Ok tt) -> c_standardize (e_cfg e) = true -> wf_x X -> wf_cfg (e_cfg e) -> NoDup (map fst (x_cols X)) ->
    x_index X = y_index y -> exists rows vals,
      learned_from fuel opt eh act grad rnd order e e' (x_cols X ++ [(target_name y, y_numeric y)]) (map (fun o => fst o ++ [snd o]) (combine rows vals)) /\
      Forall2 (fun r r' => List.length r' = List.length r /\ forall i f, nth_error (map fst (x_cols X)) i = Some f ->
        (taken_continuous (e_cfg e) f -> exists q, nth i r NaN = Fin q /\ nth i r' NaN = Fin ((q - average (column_of X i)) / sd (column_of X i))%Qc) /\
        (~ taken_continuous (e_cfg e) f -> nth i r' NaN = nth i r NaN)) (x_rows X) rows /\
      Forall2 (fun v v' => (e_type e = None \/ e_type e = Some "cont" -> exists q, v = Fin q /\ v' = Fin ((q - average (targets_of y)) / sd (targets_of y))%Qc) /\
        (e_type e <> None -> e_type e <> Some "cont" -> v' = v)) (y_vals y) vals.
  Proof.
    intros E St Wx Wc Nd Hi. unfold reg_fit in E. set (e0 := with_type e "cont") in *. assert (C0 : e_cfg e0 = e_cfg e) by (apply with_type_cfg). rewrite <- C0 in *.
    assert (Ty : is_cont e0 = match e_type e with None => true | Some a => String.eqb a "cont" end) by (unfold is_cont, e0, with_type; destruct (e_type e) as [a|] eqn:T; cbn; rewrite ?T; auto).
    destruct (check_X_y X y) eqn:Ck; [|unfold base_fit in E; rewrite Ck in E; discriminate].
    destruct (mapM (fun ca => get_loc (map fst (x_cols X)) (fst ca)) (filter (fun ca => String.eqb (snd ca) "cont") (feature_schema (e_cfg e0) X))) as [[|i is]|x] eqn:Em.
    1,3: rewrite (base_fit_refused fuel opt eh act grad rnd order sd e0 X y _ St Ck Em) in E by exact I; discriminate.
    rewrite (base_fit_finish fuel opt eh act grad rnd order sd e0 X y i is St Ck Em) in E. fold (is_cont e0) in E. destruct (checked _ _ Ck) as (Nx & Ny & Fx & Fy).
    destruct (standardised_columns _ _ _ Wc Nd Em) as (Ni & Il & Ic). destruct Wx as [Wr Wi].
    set (fx := scale_row scale_fl NaN (i :: is) (map (fun i => moments sd (column_of X i)) (i :: is))) in *.
    assert (Le : List.length (x_rows X) = List.length (y_vals y)) by (unfold check_X_y in Ck; rewrite !andb_true_iff in Ck; destruct Ck as [_ Ck]; apply Nat.eqb_eq; auto).
    assert (Lf : forall yy e'', e'' = e' -> y_vals yy = (if is_cont e0 then map (scale_fl (moments sd (targets_of y))) (y_vals y) else y_vals y) -> y_index yy = y_index y -> target_name yy = target_name y -> y_numeric yy = y_numeric y ->
      (exists sX sY sch, finish fuel opt eh act grad rnd order e0 sX sY (std_X sd X (i :: is)) yy sch = (e', Ok tt)) ->
      learned_from fuel opt eh act grad rnd order e e' (x_cols X ++ [(target_name y, y_numeric y)]) (map (fun o => fst o ++ [snd o]) (combine (map fx (x_rows X)) (if is_cont e0 then map (scale_fl (moments sd (targets_of y))) (y_vals y) else y_vals y)))).
    { intros yy e'' _ Ev Ei Et En (sX & sY & sch & Ef). rewrite <- Et, <- En, <- Ev. unfold learned_from. rewrite <- C0. fold (learned_from fuel opt eh act grad rnd order e0 e' (x_cols X ++ [(target_name yy, y_numeric yy)]) (map (fun o => fst o ++ [snd o]) (combine (map fx (x_rows X)) (y_vals yy)))).
      change (x_cols X) with (x_cols (std_X sd X (i :: is))). eapply finish_learned; [exact Ef|cbn; congruence|].
      assert (L : List.length (map fx (x_rows X)) = List.length (y_vals yy)) by (rewrite Ev, map_length; destruct (is_cont e0); rewrite ?map_length; auto).
      split; [change (x_rows (std_X sd X (i :: is))) with (map fx (x_rows X))|]; revert L; generalize (map fx (x_rows X)) (y_vals yy); clear; intros l m; revert m; induction l as [|a l IH]; intros [|b m] L; cbn in *; try discriminate; auto; f_equal; apply IH; lia. }
    exists (map fx (x_rows X)), (if is_cont e0 then map (scale_fl (moments sd (targets_of y))) (y_vals y) else y_vals y). split; [|split].
    - destruct (is_cont e0) eqn:T.
      + apply (Lf (std_y sd y) e'); eauto.
      + apply (Lf y e'); eauto.
    - assert (R : forall r, In r (x_rows X) -> List.length (fx r) = List.length r /\ forall i f, nth_error (map fst (x_cols X)) i = Some f ->
        (taken_continuous (e_cfg e0) f -> exists q, nth i r NaN = Fin q /\ nth i (fx r) NaN = Fin ((q - average (column_of X i)) / sd (column_of X i))%Qc) /\
        (~ taken_continuous (e_cfg e0) f -> nth i (fx r) NaN = nth i r NaN)).
      { intros r Hr. rewrite Forall_forall in Wr. pose proof (Wr r Hr) as Lr. assert (B : Forall (fun i => i < List.length r) (i :: is)) by (rewrite Lr; auto).
        split; [apply scale_row_length; auto|]. intros j f Hf. assert (Hj : j < List.length r) by (rewrite Lr, <- (map_length fst); apply nth_error_Some; congruence). split.
        - intros Ct. assert (Ij : In j (i :: is)) by (apply (Ic j f Hf); auto). rewrite Forall_forall in Fx. specialize (Fx r Hr). rewrite Forall_forall in Fx. specialize (Fx (nth j r NaN) (nth_In _ _ Hj)).
          destruct (nth j r NaN) as [q| | |] eqn:Eq; try discriminate. exists q. split; auto. unfold fx. rewrite scale_row_in by auto. rewrite Eq. reflexivity.
        - intros Ct. unfold fx. apply scale_row_other; auto. intros Ij. apply Ct, (Ic j f Hf). auto. }
      clear - R. induction (x_rows X) as [|r l IH]; cbn [map]; constructor; auto. { apply R. left. auto. } apply IH. intros r0 H0. apply R. right. auto.
    - rewrite Ty. clear - Fy. generalize (targets_of y). intros ts. destruct (e_type e) as [a|] eqn:Ta; [destruct (String.eqb_spec a "cont") as [->|Na]|].
      + induction Fy as [|v l Hv Fy IH]; cbn [map]; constructor; auto. split; [|intros _ Q; congruence]. intros _. destruct v as [q| | |]; try discriminate. exists q. auto.
      + induction Fy as [|v l Hv Fy IH]; cbn [map]; constructor; auto. split; [intros [Q|Q]; congruence|auto].
      + induction Fy as [|v l Hv Fy IH]; cbn [map]; constructor; auto. split; [|congruence]. intros _. destruct v as [q| | |]; try discriminate. exists q. auto.
  Qed.

End Oracles.

  (** Standardised values have mean 0 and standard deviation 1. *)
  Lemma standardised_moments s l : l <> [] -> is_std s l -> let z := map (fun q => (q - average l) / s)%Qc l in average z = 0%Qc /\ is_std 1%Qc z.
  Proof.
    intros N [P E]. cbv zeta. assert (Ns : s <> 0%Qc) by (intros ->; apply (Qclt_not_eq _ _ P); auto). pose proof (count_pos l N) as Nc.
    assert (T : Qsum (fun x => x) l = (average l * Q2Qc (inject_Z (Z.of_nat (List.length l))))%Qc) by (unfold average; field; auto).
    assert (A : average (map (fun q => (q - average l) / s)%Qc l) = 0%Qc).
    { revert T. generalize (average l). intros m T. unfold average. rewrite map_length, Qsum_map. rewrite (Qsum_ext _ (fun q => (/ s) * q + - (m / s))%Qc) by (intros q _; field; auto). rewrite Qsum_add, Qsum_mul_l, Qsum_const, T. field. auto. }
    split; auto. split; [reflexivity|]. rewrite A, map_map. clear A T. revert E. generalize (average l). intros m E. unfold average in E |- *. rewrite map_length, Qsum_map. rewrite (Qsum_ext _ (fun x => / (s * s) * ((x - m) * (x - m)))%Qc) by (intros q _; field; auto).
    rewrite Qsum_mul_l. rewrite map_length, Qsum_map in E. rewrite E. set (S := Qsum _ l) in *. assert (NS : S <> 0%Qc). { intros Q. rewrite Q in E. unfold Qcdiv in E. replace (0 * / Q2Qc (inject_Z (Z.of_nat (List.length l))))%Qc with 0%Qc in E by ring. apply Qcmult_integral in E. tauto. }
    field. auto.
  Qed.
