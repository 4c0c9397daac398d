(** * SklValues: predictions as computable numbers, the index of the data, and binary targets with many classes. *)
From Coq Require Import List Bool Arith ZArith Lia String QArith Qcanon Permutation Reals Lra.
From Verif Require Import Base Names Digraph SmModel SmProofs QcX NetModel NotearsModel NotearsProofs NotearsThms AcycLink
  TorchModel TorchSpec TorchProofs TorchThms TorchGraph TorchResult TorchPandas TorchFrame TorchTotal TorchFinal SklModel SklCoef SklFit SklThms OrdProofs SklPredict SklNet SklProba SklClf SklLin SklMain.
Import ListNotations.
Local Open Scope string_scope.
Local Open Scope list_scope.
Local Open Scope nat_scope.

(** ** Outputs of the network for the target *)
Definition outs_q (act : activation) (l : learned) (t : dtype) (r : list Qc) : list Qc :=
  map (fun j => nth j (forward act (l_use_bias l) (l_dims l) (l_params l) r) 0%Qc) (dt_columns t).
Lemma outs_realq act gr t r : outs act gr t r = map realq (outs_q act (g_learned gr) t r).
Proof. unfold outs, outs_q, pick. rewrite map_map. apply map_ext. intros j. rewrite <- realq_0 at 1. apply map_nth. Qed.

(** ** The index *)
Definition reindex_x (ix : list label) (X : xdata) : xdata := mkX (x_cols X) ix (x_rows X).
Definition reindex_y (ix : list label) (y : ydata) : ydata := mkY (y_name y) ix (y_vals y) (y_numeric y).
Definition reindex_k (ix : list label) (y : kdata) : kdata := mkK (k_name y) ix (k_labels y) (k_array y).

Lemma list_eqb_refl (l : list label) : list_eqb label_eqb l l = true.
Proof. induction l as [|x l IH]; cbn; auto. destruct (label_eqb_spec x x); auto. Qed.

Section Oracles.
  Context (fuel : nat) (opt : optimiser) (eh : tpenalty) (act : activation) (grad : autograd) (rnd : list Qc) (order : list dtype -> list dtype) (sd : list Qc -> Qc).

  Lemma concat_reindex ix X y : x_index X = y_index y -> concat_xy (reindex_x ix X) (reindex_y ix y) = concat_xy X y.
  Proof. intros E. unfold concat_xy, reindex_x, reindex_y. cbn [x_index y_index x_rows y_vals x_cols]. rewrite E, !list_eqb_refl. reflexivity. Qed.

  Lemma base_fit_reindex ix e X y : x_index X = y_index y ->
    base_fit fuel opt eh act grad rnd order sd e (reindex_x ix X) (reindex_y ix y) = base_fit fuel opt eh act grad rnd order sd e X y.
  Proof.
    intros E. unfold base_fit. change (check_X_y (reindex_x ix X) (reindex_y ix y)) with (check_X_y X y). change (target_name (reindex_y ix y)) with (target_name y).
    destruct (check_X_y X y); [|reflexivity]. cbn [negb]. change (x_cols (reindex_x ix X)) with (x_cols X).
    match goal with |- match ?s1 with _ => _ end = match ?s2 with _ => _ end =>
      assert (H : (exists x, s1 = Err x /\ s2 = Err x) \/ exists e1 X1 y1, s2 = Ok (e1, X1, y1) /\ s1 = Ok (e1, reindex_x ix X1, reindex_y ix y1) /\ x_index X1 = y_index y1) end.
    { destruct (c_standardize (e_cfg e)); [|right; exists e, X, y; auto].
      destruct (mapM _ _) as [is|x]; cbn [bind]; [|left; eauto]. destruct is as [|i is]; [left; eauto|]. right.
      repeat match goal with |- context [match ?b with _ => _ end] =>
        match type of b with option string => destruct b | Ascii.ascii => destruct b | bool => destruct b | string => destruct b end end;
      do 3 eexists; (split; [reflexivity|split; [reflexivity|exact E]]). }
    destruct H as [(x & -> & ->)|(e1 & X1 & y1 & -> & -> & E1)]; [reflexivity|]. rewrite (concat_reindex ix X1 y1 E1). reflexivity.
  Qed.

  Theorem reg_fit_reindex ix e X y : x_index X = y_index y ->
    reg_fit fuel opt eh act grad rnd order sd e (reindex_x ix X) (reindex_y ix y) = reg_fit fuel opt eh act grad rnd order sd e X y.
  Proof. intros E. apply base_fit_reindex. auto. Qed.
  Theorem clf_fit_reindex ix e X y : x_index X = k_index y ->
    clf_fit fuel opt eh act grad rnd order sd e (reindex_x ix X) (reindex_k ix y) = clf_fit fuel opt eh act grad rnd order sd e X y.
  Proof.
    intros E. unfold clf_fit. change (k_labels (reindex_k ix y)) with (k_labels y). change (k_array (reindex_k ix y)) with (k_array y).
    destruct (_ && _); auto. cbv zeta. destruct (_ <? 2); auto.
    match goal with |- base_fit _ _ _ _ _ _ _ _ ?e1 _ _ = base_fit _ _ _ _ _ _ _ _ _ _ ?y1 => exact (base_fit_reindex ix e1 X y1 E) end.
  Qed.

  (** ** Regressors *)
  Theorem regressor_values e X y e' P : reg_fit fuel opt eh act grad rnd order sd e X y = (e', Ok tt) -> wf_x X -> wf_cfg (e_cfg e) -> (forall ds, Permutation (order ds) ds) ->
    no_suffixes (map fst (x_cols X) ++ [target_name y]) -> match e_type e with None => True | Some a => In a ["cont"; "poiss"] end -> no_ordinal (e_cfg e) X -> new_data_ok (e_cfg e) X P ->
    exists gr t X', e_graph e' = Some gr /\ dget label_eqb (l_dist (g_learned gr)) (target_name y) = Some t /\ dt_columns t = [List.length (x_cols X)] /\
      foldM transform (l_dtypes (g_learned gr)) (mkData (S (List.length (x_cols X))) (map (fun r => r ++ [0%Qc]) (scaled_rows e' P))) = Ok X' /\
      List.length (TorchModel.rows X') = List.length (p_rows P) /\
      base_predict act e' P = Ok (dt_kind t, map (fun r => map (unscale e') (link (dt_kind t) (map realq (outs_q act (g_learned gr) t r)))) (TorchModel.rows X')).
  Proof.
    intros E Wx Wc Po NS T No ND. destruct (reg_fit_inv _ _ _ _ _ _ _ _ _ _ _ _ E) as (X1 & y1 & rows & gr & FO). cbv zeta in FO.
    set (a := match e_type e with Some a => a | None => "cont" end) in *. rewrite <- (with_type_cfg e "cont") in *.
    assert (Ka : alias_kind a = Some Cont \/ alias_kind a = Some Poiss).
    { unfold a. destruct (e_type e) as [b|]; [|left; reflexivity]. cbn in T. destruct T as [<-|[<-|[]]]; [left|right]; reflexivity. }
    destruct (predict_total _ _ _ _ _ _ _ _ _ _ _ _ _ _ _ _ FO Wx Wc Po NS P ND No) as (t & X' & N & ET & R & Lr & ys & EP & Sh).
    { intros [Q|Q]; rewrite Q in Ka; destruct Ka; discriminate. }
    { intros Q; rewrite Q in Ka; destruct Ka; discriminate. }
    rewrite map_length in *. exists gr, t, X'. split; [apply (fo_graph _ _ _ _ _ _ _ _ _ _ _ _ _ _ _ _ FO)|]. split; [apply (nt_dist _ _ _ _ _ _ _ N)|].
    pose proof (nt_kind _ _ _ _ _ _ _ N) as Kt. rewrite Kt in Ka.
    split; [unfold dt_columns; rewrite (nt_idx _ _ _ _ _ _ _ N), map_length; destruct Ka as [[= ->]|[= ->]]; auto|].
    split; auto. split; auto. rewrite EP. do 2 f_equal. transitivity (map (map (unscale e')) (map (fun r => link (dt_kind t) (outs act gr t r)) (TorchModel.rows X'))).
    - f_equal. destruct Ka as [[= Ka]|[= Ka]]; rewrite Ka in *; exact Sh.
    - rewrite map_map. apply map_ext. intros r. rewrite outs_realq. reflexivity.
  Qed.

  (** ** Binary targets *)
  Theorem binary_rows e X y e' P : clf_fit fuel opt eh act grad rnd order sd e X y = (e', Ok tt) -> wf_x X -> wf_cfg (e_cfg e) -> (forall ds, Permutation (order ds) ds) ->
    no_suffixes (map fst (x_cols X) ++ [k_target y]) -> e_type e = Some "bin" -> no_ordinal (e_cfg e) X -> new_data_ok (e_cfg e) X P ->
    exists ps, predict_proba act e' P = Ok ps /\ List.length ps = List.length (p_rows P) /\ Forall (fun p => List.length p = 2) ps.
  Proof.
    intros E Wx Wc Po NS T No ND. destruct (clf_fit_inv _ _ _ _ _ _ _ _ _ _ _ _ E) as (_ & e1 & X1 & y2 & rows & gr & C1 & T1 & K1 & _ & FO). cbv zeta in *. rewrite T in *.
    set (y1 := mkY (k_name y) (k_index y) (map (code (classes_of (k_labels y))) (k_labels y)) (negb (k_array y && existsb is_str (k_labels y)))) in *.
    rewrite <- C1 in *. change (k_target y) with (target_name y1) in *.
    destruct (predict_total _ _ _ _ _ _ _ _ _ _ _ _ _ _ _ _ FO Wx Wc Po NS P ND No) as (t & X' & N & ET & R & Lr & ys & EP & Sh); [intros [Q|Q]; discriminate|discriminate|].
    pose proof (nt_kind _ _ _ _ _ _ _ N) as Kt. injection Kt as Kt. rewrite <- Kt in *. unfold predict_proba. rewrite EP. cbn [bind fst snd].
    eexists. split; [reflexivity|]. rewrite !map_length. split; [rewrite Sh, map_length; auto|]. apply Forall_forall. intros p Hp. apply in_map_iff in Hp. destruct Hp as (v & <- & _). reflexivity.
  Qed.
End Oracles.

(** ** Types *)
From Verif Require Import SklRefit.

Lemma regressor_types c a1 a2 a3 a4 tt0 e0 e : c_est c = Regressor -> dag_init c a1 a2 a3 a4 tt0 = Ok e0 -> regressor_after e0 e -> e_type e = None \/ e_type e = Some "cont" \/ e_type e = Some "poiss".
Proof.
  intros Ec E H. destruct (regressor_state _ _ H) as (_ & _ & T). cbv zeta in T. unfold dag_init in E. destruct a1, a2, a3, a4; try discriminate. cbn [negb] in E. rewrite Ec in E.
  destruct tt0 as [a|]; [|injection E as <-; cbn in T; tauto]. destruct (smem a (supported Regressor)) eqn:S0; [|discriminate]. injection E as <-. cbn [e_type] in T.
  cbn in S0. destruct (String.eqb_spec a "cont") as [->|N1]; [tauto|]. destruct (String.eqb_spec a "poiss") as [->|N2]; [tauto|discriminate].
Qed.
