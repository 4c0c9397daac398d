(** * SklProba: predictions of a fitted estimator. *)
From Coq Require Import List Bool Arith ZArith Lia String QArith Qcanon Permutation Reals Lra.
From Verif Require Import Base Names Digraph SmModel SmProofs QcX NetModel NotearsModel NotearsProofs NotearsThms AcycLink
  TorchModel TorchSpec TorchProofs TorchThms TorchGraph TorchResult TorchPandas TorchFrame TorchTotal TorchFinal SklModel SklCoef SklFit SklThms OrdProofs SklPredict SklNet.
Import ListNotations.
Local Open Scope string_scope.
Local Open Scope list_scope.
Local Open Scope nat_scope.

Local Notation lspec := label_eqb_spec.

(** ** New data *)

(** As many columns as features; values of categorical and ordinal features occur in the training data, counts
    are not negative. *)
Definition new_data_ok (c : config) (X : xdata) (P : pdata) : Prop :=
  p_cols P = List.length (x_cols X) /\ Forall (fun r => List.length r = p_cols P) (p_rows P) /\
  forall i f s, nth_error (map fst (x_cols X)) i = Some f -> In (f, s) (feature_schema c X) ->
    (s = "cat" \/ s = "ord" -> forall r, In r (p_rows P) -> In (Fin (nth i r 0%Qc)) (map (fun r => nth i r NaN) (x_rows X))) /\
    (s = "poiss" -> forall r, In r (p_rows P) -> (0 <= nth i r 0)%Qc).

(** No feature is ordinal. *)
Definition no_ordinal (c : config) (X : xdata) : Prop := forall f, In f (map fst (x_cols X)) -> ~ In (f, "ord") (feature_schema c X).

(** ** Folding *)
Lemma foldM_snoc {A S} (f : S -> A -> res S) l x : forall s, foldM f (l ++ [x]) s = (do r <- foldM f l s; f r x).
Proof. induction l as [|z l IH]; intros s; cbn [foldM app bind]; [destruct (f s x); auto|]. destruct (f s z); cbn [bind]; auto. Qed.

Lemma links_ok odds ts : forall M, (forall t, In t ts -> dt_kind t <> Ord) -> Forall good_dt ts -> wf_m M ->
  (forall t x, In t ts -> In x (dt_columns t) -> x < r_width M) -> exists M', foldM (fun M t => inverse_link odds t M) ts M = Ok M'.
Proof.
  induction ts as [|t ts IH]; intros M K G W B; cbn [foldM]; [eauto|]. inversion G as [|? ? Gt G']; subst.
  assert (E : exists M1, inverse_link odds t M = Ok M1).
  { assert (Bt : forall x, In x (dt_columns t) -> x < r_width M) by (intros x Hx; apply (B t x); auto; left; auto). pose proof (K t (or_introl eq_refl)) as Kt.
    unfold inverse_link, dt_columns in *. destruct (dt_kind t); try congruence.
    - assert (H : (dt_idx t <? r_width M) = true) by (apply Nat.ltb_lt, Bt; left; auto). rewrite H. eauto.
    - assert (H : forallb (fun j => j <? r_width M) (dt_group t) = true) by (apply forallb_forall; intros x Hx; apply Nat.ltb_lt; auto). rewrite H. eauto.
    - eauto.
    - assert (H : (dt_idx t <? r_width M) = true) by (apply Nat.ltb_lt, Bt; left; auto). rewrite H. eauto. }
  destruct E as (M1 & E). rewrite E. cbn [bind]. destruct (link_step odds t M M1) as (W1 & Wi & _); auto; [apply K; left; auto|].
  apply IH; auto; [intros; apply K; right; auto|]. intros u x Hu Hx. rewrite Wi. apply (B u x); auto. right. auto.
Qed.

Lemma mapM_total {A B} (f : A -> res B) l : (forall x, In x l -> exists y, f x = Ok y) -> exists ys, mapM f l = Ok ys.
Proof.
  induction l as [|x l IH]; intros H; cbn; [eauto|]. destruct (H x (or_introl eq_refl)) as (b & ->). destruct IH as (ys & ->); [intros; apply H; right; auto|]. cbn. eauto.
Qed.

Lemma Forall2_map_eq {A B} (P : A -> A -> Prop) (g h : A -> B) l m : (forall x z, P x z -> g z = h x) -> Forall2 P l m -> map g m = map h l.
Proof. intros H. induction 1; cbn; f_equal; auto. Qed.

Lemma forward_length act ub dims v x : List.length (forward act ub dims v x) = nth 0 dims 0.
Proof. unfold forward. rewrite map_length, seq_length. auto. Qed.

Lemma categories_In x col : In x (categories col) <-> In x col.
Proof.
  unfold categories. split; intros H.
  - apply (Permutation_in _ (Permutation_sym (isort_perm qle _))) in H. apply nodup_In in H. auto.
  - apply (Permutation_in _ (isort_perm qle _)). apply nodup_In. auto.
Qed.

(** Undoing the scaling of a continuous target. *)
Definition unscale (e : est) (v : R) : R :=
  match e_type e, c_standardize (e_cfg e), e_scale_y e with
  | Some "cont", true, Some ms => (v * realq (snd ms) + realq (fst ms))%R
  | _, _, _ => v
  end.

Section Fitted.
  Context (fuel : nat) (opt : optimiser) (eh : tpenalty) (act : activation) (grad : autograd) (rnd : list Qc) (order : list dtype -> list dtype).
  Context (e : est) (X : xdata) (y : ydata) (a : string) (e' : est) (X1 : xdata) (y1 : ydata) (rows : list (list fl)) (gr : graphs).
  Context (FO : fit_outcome fuel opt eh act grad rnd order e X y a e' X1 y1 rows gr).
  Context (Wx : wf_x X) (Wc : wf_cfg (e_cfg e)) (Po : forall ds, Permutation (order ds) ds).
  Let name := target_name y.
  Let features := map fst (x_cols X).
  Context (NS : no_suffixes (features ++ [name])).
  Let schema := dset label_eqb (feature_schema (e_cfg e) X) name a.
  Let l := g_learned gr.
  Let n := List.length features.

  (** The rows given to the network. *)
  Definition scaled_rows (P : pdata) : list (list Qc) :=
    match c_standardize (e_cfg e'), e_scale_X e' with
    | true, Some (is, mss) => map (scale_row (scale_q (p_ints P)) 0%Qc is mss) (p_rows P)
    | _, _ => p_rows P
    end.

  Definition outs (t : dtype) (r : list Qc) : list R := pick (dt_columns t) (map realq (forward act (l_use_bias l) (l_dims l) (l_params l) r)).

  Theorem predict_total P : new_data_ok (e_cfg e) X P -> no_ordinal (e_cfg e) X ->
    (alias_kind a = Some Cat \/ alias_kind a = Some Ord -> In (Fin 0%Qc) (y_vals y) /\ wf_y y) ->
    (alias_kind a = Some Ord -> 2 <= List.length (nodup Qc_eq_dec (fl_column n rows)) /\ ~ In name (map fst (feature_schema (e_cfg e) X))) ->
    exists t X', net l features name schema rows a t /\
      foldM transform (l_dtypes l) (mkData (S n) (map (fun r => r ++ [0%Qc]) (scaled_rows P))) = Ok X' /\ rect X' /\ List.length (TorchModel.rows X') = List.length (p_rows P) /\
      exists ys, base_predict act e' P = Ok (dt_kind t, map (map (unscale e')) ys) /\
        match dt_kind t with
        | Ord => Forall2 (fun r v => exists z, get_probs (log_cum_odds (fl_column n rows)) z = Ok v) (TorchModel.rows X') ys
        | k => ys = map (fun r => link k (outs t r)) (TorchModel.rows X')
        end.
  Proof.
    intros (Pc & Pr & Pv) No H0 Ho. destruct (fitted_net _ _ _ _ _ _ _ _ _ _ _ _ _ _ _ _ FO Wx Wc Po NS) as (t & N). exists t.
    fold name features schema l in N. pose proof N as [N1 N2 N3 N4 N5 N6 N7 N8 N9 N10 N11 N12 N13 N14 N15]. fold n in N3, N12, N14.
    assert (En : p_cols P = n) by (unfold n, features; rewrite map_length; auto).
    pose proof (fo_nodup _ _ _ _ _ _ _ _ _ _ _ _ _ _ _ _ FO) as Nd. fold features name in Nd.
    assert (Fn : NoDup features) by (apply NoDup_app_l in Nd; auto).
    assert (Nn : ~ In name features) by (apply NoDup_remove_2 in Nd; rewrite app_nil_r in Nd; auto).
    (* scaling *)
    assert (Sc : (do X1 <- (if c_standardize (e_cfg e') then
                match e_scale_X e' with
                | None => Err AttributeError
                | Some (is, mss) => if forallb (fun i => i <? p_cols P) is then Ok (map (scale_row (scale_q (p_ints P)) 0%Qc is mss) (p_rows P)) else Err IndexError
                end
              else Ok (p_rows P)); Ok X1) = Ok (scaled_rows P) /\ Forall (fun r => List.length r = n) (scaled_rows P) /\ List.length (scaled_rows P) = List.length (p_rows P) /\
            forall i f, nth_error features i = Some f -> ~ In (f, "cont") (feature_schema (e_cfg e) X) -> map (fun r => nth i r 0%Qc) (scaled_rows P) = map (fun r => nth i r 0%Qc) (p_rows P)).
    { unfold scaled_rows. rewrite (fo_cfg _ _ _ _ _ _ _ _ _ _ _ _ _ _ _ _ FO). destruct (c_standardize (e_cfg e)) eqn:St; [|cbn; rewrite <- En; auto].
      destruct (fo_scale _ _ _ _ _ _ _ _ _ _ _ _ _ _ _ _ FO St) as (is & mss & -> & Fi). rewrite Forall_forall in Fi.
      assert (Li : forall i, In i is -> i < n). { intros i Hi. destruct (Fi i Hi) as (f & Ef & _). apply nth_error_Some. fold features in Ef. congruence. }
      assert (B : forallb (fun i => i <? p_cols P) is = true) by (apply forallb_forall; intros i Hi; apply Nat.ltb_lt; rewrite En; auto). rewrite B. split; [auto|].
      assert (Fl : forall r, In r (p_rows P) -> Forall (fun i => i < List.length r) is).
      { intros r Hr. rewrite Forall_forall in Pr. apply Forall_forall. intros i Hi. rewrite (Pr r Hr), En. auto. }
      split; [|split; [apply map_length|]].
      - apply Forall_map, Forall_forall. intros r Hr. rewrite scale_row_length by auto. rewrite Forall_forall in Pr. rewrite (Pr r Hr). auto.
      - intros i f Hf Nf. rewrite map_map. apply map_ext_in. intros r Hr. apply scale_row_other; auto. intros Hi. destruct (Fi i Hi) as (f' & Ef & If). fold features in Ef. congruence. }
    destruct Sc as (Sc & Sr & Sl & So).
    set (X2 := mkData (S n) (map (fun r => r ++ [0%Qc]) (scaled_rows P))).
    assert (R2 : rect X2). { unfold rect, X2. cbn. apply Forall_map. eapply Forall_impl; [|exact Sr]. intros r Hr. cbn beta in *. rewrite app_length. cbn. lia. }
    assert (C2 : forall i, i < n -> column i X2 = map (fun r => nth i r 0%Qc) (scaled_rows P)).
    { intros i Hi. unfold column, X2. cbn. rewrite map_map. apply map_ext_in. intros r Hr. rewrite Forall_forall in Sr. apply app_nth1. rewrite (Sr r Hr). auto. }
    assert (Cn : forall x, In x (column n X2) -> x = 0%Qc).
    { intros x Hx. unfold column, X2 in Hx. cbn in Hx. rewrite map_map in Hx. apply in_map_iff in Hx. destruct Hx as (r & <- & Hr). rewrite Forall_forall in Sr.
      rewrite app_nth2, (Sr r Hr), Nat.sub_diag; auto. rewrite (Sr r Hr). auto. }
    assert (Lx : List.length (x_rows X1) = List.length (y_vals y1)) by apply (lengths _ _ _ _ _ _ _ _ _ _ _ _ _ _ _ _ FO).
    pose proof (fo_rows _ _ _ _ _ _ _ _ _ _ _ _ _ _ _ _ FO) as Ec. pose proof (fo_xrows _ _ _ _ _ _ _ _ _ _ _ _ _ _ _ _ FO Wx) as W1.
    assert (Fs : forall u, In u (l_dtypes l) -> dt_idx u < n -> exists f s, nth_error features (dt_idx u) = Some f /\ In (f, s) (feature_schema (e_cfg e) X) /\ alias_kind s = Some (dt_kind u)).
    { intros u Hu Hi. destruct (N10 u Hu) as (s & Is & As). rewrite app_nth1 in Is by auto. exists (nth (dt_idx u) features (LInt 0)), s.
      split; [apply nth_error_nth'; auto|]. split; auto. unfold schema in Is.
      assert (Q : dget label_eqb schema (nth (dt_idx u) features (LInt 0)) = Some s).
      { apply (In_dget _ lspec); auto. apply (schema_nodup _ _ _ _ _ _ _ _ _ _ _ _ _ _ _ _ FO Wc). auto. }
      unfold schema in Q. rewrite (dget_dset_other _ lspec) in Q; [apply (dget_In _ lspec) in Q; auto|]. intros E. apply Nn. rewrite <- E || rewrite E. apply nth_In. auto. }
    assert (Sfun : forall f s s', In (f, s) (feature_schema (e_cfg e) X) -> In (f, s') (feature_schema (e_cfg e) X) -> s = s').
    { intros f s s' I I'. assert (Nf : NoDup (map fst (feature_schema (e_cfg e) X))).
      { unfold feature_schema. destruct (c_schema (e_cfg e)) as [[|x r]|] eqn:E; [|apply (Wc _ E)|]; rewrite map_map; cbn [fst]; rewrite map_id; auto. }
      apply (In_dget _ lspec) in I, I'; auto. congruence. }
    assert (Knd : forall s k, alias_kind s = Some k -> s = match k with Bin => "bin" | Cat => "cat" | Cont => "cont" | Ord => "ord" | Poiss => "poiss" end) by (intros s k; apply alias_name).
    assert (Acc : forall u, In u (l_dtypes l) -> accepts u (column (dt_idx u) X2)).
    { intros u Hu. assert (Bu : dt_idx u < S n) by (apply N9; apply in_map; auto). destruct (Nat.eq_dec (dt_idx u) n) as [Eu|Nu].
      - assert (u = t). { clear - Hu N2 N5 Eu N3. rewrite <- N3 in Eu. induction (l_dtypes l) as [|w ws IH]; [destruct Hu|]. cbn in N5. apply NoDup_cons_iff in N5. destruct N5 as [Nw N5].
          destruct Hu as [->|Hu], N2 as [->|N2]; auto; exfalso; apply Nw; [rewrite Eu|rewrite <- Eu]; apply in_map; auto. }
        subst u. rewrite Eu. unfold accepts. destruct (dt_kind t) eqn:Ek; auto.
        + intros x Hx. apply Cn in Hx. subst x. rewrite N11 by auto. apply categories_In. rewrite N3. unfold fl_column. fold n.
          destruct (H0 (or_introl N4)) as [I0 Wy]. assert (y1 = y) by (apply (fo_yvals _ _ _ _ _ _ _ _ _ _ _ _ _ _ _ _ FO); left; intros ->; discriminate). subst y1.
          apply (concat_target X1 y rows (Fin 0%Qc) W1 Wy Lx Ec) in I0; [|congruence]. rewrite (fo_cols _ _ _ _ _ _ _ _ _ _ _ _ _ _ _ _ FO) in I0.
          apply (in_map finite_part) in I0. rewrite map_map in I0. cbn [finite_part] in I0. unfold n, features. rewrite map_length. auto.
        + intros x Hx. apply Cn in Hx. subst x. rewrite N11 by auto. apply categories_In. rewrite N3. unfold fl_column. fold n.
          destruct (H0 (or_intror N4)) as [I0 Wy]. assert (y1 = y) by (apply (fo_yvals _ _ _ _ _ _ _ _ _ _ _ _ _ _ _ _ FO); left; intros ->; discriminate). subst y1.
          apply (concat_target X1 y rows (Fin 0%Qc) W1 Wy Lx Ec) in I0; [|congruence]. rewrite (fo_cols _ _ _ _ _ _ _ _ _ _ _ _ _ _ _ _ FO) in I0.
          apply (in_map finite_part) in I0. rewrite map_map in I0. cbn [finite_part] in I0. unfold n, features. rewrite map_length. auto.
        + intros x Hx. apply Cn in Hx. subst x. apply Qcle_refl.
      - assert (Hi : dt_idx u < n) by lia. destruct (Fs u Hu Hi) as (f & s & Hf & Is & As). rewrite C2 by auto. apply Knd in As.
        destruct (Pv _ _ _ Hf Is) as [P1 P2].
        assert (Col : dt_kind u = Cat \/ dt_kind u = Ord \/ dt_kind u = Poiss -> map (fun r => nth (dt_idx u) r 0%Qc) (scaled_rows P) = map (fun r => nth (dt_idx u) r 0%Qc) (p_rows P) /\
           map (fun r => nth (dt_idx u) r NaN) (x_rows X1) = map (fun r => nth (dt_idx u) r NaN) (x_rows X)).
        { intros K. assert (Nc : ~ In (f, "cont") (feature_schema (e_cfg e) X)) by (intros Q; pose proof (Sfun _ _ _ Is Q); subst s; destruct K as [K|[K|K]]; rewrite K in *; discriminate).
          split; [eapply So; eauto|]. eapply (fo_other _ _ _ _ _ _ _ _ _ _ _ _ _ _ _ _ FO); eauto. }
        unfold accepts. destruct (dt_kind u) eqn:Ek; auto.
        + destruct Col as [Co Cx]; auto. rewrite Co. intros x Hx. rewrite N11 by auto. apply categories_In. apply in_map_iff in Hx. destruct Hx as (r & <- & Hr).
          specialize (P1 (or_introl As) r Hr). rewrite <- Cx in P1. apply (concat_feature X1 y1 rows _ _ W1 Lx Ec) in P1; [|rewrite (fo_cols _ _ _ _ _ _ _ _ _ _ _ _ _ _ _ _ FO); unfold n, features in Hi; rewrite map_length in Hi; auto].
          unfold fl_column. rewrite <- (map_map (fun r => nth (dt_idx u) r NaN) finite_part). apply (in_map finite_part) in P1. exact P1.
        + exfalso. eapply (No f); [eapply nth_error_In; eauto|]. rewrite As in Is. exact Is.
        + destruct Col as [Co Cx]; auto. rewrite Co. intros x Hx. apply in_map_iff in Hx. destruct Hx as (r & <- & Hr). apply P2; auto. }
    destruct (transforms_ok (l_dtypes l) X2 R2 N5) as (X' & ET & R' & W' & L'); [intros u Hu; cbn; apply N9; apply in_map; auto|exact Acc|].
    exists X'. split; [exact N|]. split; [exact ET|]. split; [exact R'|]. split; [rewrite L'; unfold X2; cbn; rewrite map_length; auto|].
    set (M0 := mkRm (nth 0 (l_dims l) 0) (map (fun r => map realq (forward act (l_use_bias l) (l_dims l) (l_params l) r)) (TorchModel.rows X'))).
    assert (Wm : wf_m M0). { unfold wf_m, M0. cbn [r_rows r_width]. apply Forall_map, Forall_forall. intros r _. rewrite map_length. apply forward_length. }
    set (odds := fun i => log_cum_odds (g_values gr i)).
    assert (RD : forall r, reconstruct_data act l odds X2 = r <-> foldM (fun M t => inverse_link odds t M) (l_dtypes l) M0 = r).
    { intros r. unfold reconstruct_data. change (foldM _ (l_dtypes l) X2) with (foldM transform (l_dtypes l) X2). rewrite ET. cbn [bind].
      rewrite W'. cbn [width X2]. rewrite N12, Nat.eqb_refl. cbn [negb]. rewrite <- N12. tauto. }
    assert (BP : forall ys M, foldM (fun M t => inverse_link odds t M) (l_dtypes l) M0 = Ok M ->
       match dt_kind t with
                     | Ord => Ok (r_rows M)
                     | _ => if forallb (fun j => j <? r_width M) (dt_columns t) then Ok (map (fun r => map (fun j => nth j r 0%R) (dt_columns t)) (r_rows M)) else Err IndexError
                     end = Ok ys -> base_predict act e' P = Ok (dt_kind t, map (map (unscale e')) ys)).
    { intros ys M EM EY. unfold base_predict. cbv zeta. rewrite (fo_graph _ _ _ _ _ _ _ _ _ _ _ _ _ _ _ _ FO), (fo_names _ _ _ _ _ _ _ _ _ _ _ _ _ _ _ _ FO). fold name.
      match type of Sc with (do X1 <- ?s; _) = _ => destruct s as [S0|]; cbn [bind] in Sc; [|discriminate] end. injection Sc as ->. cbn [bind]. rewrite En. fold X2. fold l. fold odds.
      apply RD in EM. rewrite EM. cbn [bind]. rewrite N1, EY. cbn [bind].
      unfold unscale. rewrite (fo_type _ _ _ _ _ _ _ _ _ _ _ _ _ _ _ _ FO). destruct (String.eqb_spec a "cont") as [Ea|Na].
      - rewrite Ea. destruct (c_standardize (e_cfg e')) eqn:St.
        + rewrite (fo_cfg _ _ _ _ _ _ _ _ _ _ _ _ _ _ _ _ FO) in St. destruct (fo_scale_y _ _ _ _ _ _ _ _ _ _ _ _ _ _ _ _ FO St Ea) as (ms & ->). auto.
        + do 2 f_equal. rewrite <- (map_id ys) at 1. apply map_ext. intros v. symmetry. apply map_id.
      - transitivity (Ok (dt_kind t, map (map (fun v : R => v)) ys)).
        + transitivity (Ok (dt_kind t, ys)).
          * clear - Na. repeat match goal with |- context [match ?b with _ => _ end] => destruct b; try reflexivity; try congruence end.
          * do 2 f_equal. rewrite <- (map_id ys) at 1. apply map_ext. intros v. symmetry. apply map_id.
        + do 2 f_equal. apply map_ext. intros v. apply map_ext. intros z. clear - Na. repeat match goal with |- context [match ?b with _ => _ end] => destruct b; try reflexivity; try congruence end. }
    assert (Feat : forall u, In u (l_dtypes l) -> u <> t -> dt_kind u <> Ord).
    { intros u Hu Nu K. assert (Bu : dt_idx u < S n) by (apply N9; apply in_map; auto).
      assert (Hi : dt_idx u <> n). { intros Q. apply Nu. clear - Hu N2 N5 Q N3. rewrite <- N3 in Q. induction (l_dtypes l) as [|w ws IH]; [destruct Hu|]. cbn in N5. apply NoDup_cons_iff in N5. destruct N5 as [Nw N5].
          destruct Hu as [->|Hu], N2 as [->|N2]; auto; exfalso; apply Nw; [rewrite Q|rewrite <- Q]; apply in_map; auto. }
      destruct (Fs u Hu) as (f & s & Hf & Is & As); [lia|]. apply Knd in As. rewrite K in As. subst s. eapply No; [eapply nth_error_In; eauto|eauto]. }
    destruct (dt_kind t) eqn:Ek.
    4:{ (* ordinal target *)
      destruct (Ho N4) as [Two Nl]. destruct (N13 (feature_schema (e_cfg e) X)) as (ts & Ets).
      { unfold schema. clear - Nl. induction (feature_schema (e_cfg e) X) as [|[k v] s IH]; auto. cbn in *. destruct (lspec name k) as [->|]; [tauto|]. rewrite IH by tauto. auto. }
      rewrite Ets in *. rewrite map_app in N5. cbn [map] in N5. assert (Nts : ~ In (dt_idx t) (map dt_idx ts)) by (apply NoDup_remove_2 in N5; rewrite app_nil_r in N5; auto).
      assert (Kts : forall u, In u ts -> dt_kind u <> Ord). { intros u Hu. apply Feat; [apply in_app_iff; auto|]. intros ->. apply Nts. apply in_map. auto. }
      assert (Gts : Forall good_dt ts) by (apply Forall_app in N6; apply N6).
      destruct (links_ok odds ts M0 Kts Gts Wm) as (M1 & E1). { intros u x Hu Hx. cbn. apply (N8 u x); auto. apply in_app_iff. auto. }
      destruct (links odds ts M0 M1 Kts Gts) as (Wm1 & Wi1 & F1); auto.
      { apply NoDup_app_l in N5. auto. }
      { intros u v x Hu Hv Ix Iy. eapply N7; [apply in_app_iff; left; exact Hu|apply in_app_iff; left; exact Hv|exact Ix|exact Iy]. }
      assert (Two' : 2 <= List.length (nodup Qc_eq_dec (g_values gr n))) by (rewrite (fo_values _ _ _ _ _ _ _ _ _ _ _ _ _ _ _ _ FO); auto).
      destruct (mapM_total (fun r => get_probs (odds n) (nth n r 0%R)) (r_rows M1)) as (ys & Ey).
      { intros r _. destruct (ordinal_probs (g_values gr n) (nth n r 0%R) Two') as (ps & Eps & _). eauto. }
      exists ys. split.
      - apply BP with (M := mkRm (S (List.length (odds n))) ys); auto. rewrite foldM_snoc, E1. cbn [bind]. unfold inverse_link. rewrite Ek, N3, Wi1.
        assert (Q : (n <? r_width M0) = true). { apply Nat.ltb_lt. cbn. rewrite <- N3. eapply (N8 t); [apply in_app_iff; right; left; auto|]. unfold dt_columns. rewrite Ek. left. auto. }
        rewrite Q, Ey. cbn [bind]. auto.
      - apply mapM_ok in Ey. assert (Le : Forall2 (fun r r' => True) (TorchModel.rows X') (r_rows M1)).
        { clear - F1. unfold M0 in F1. cbn [r_rows] in F1. revert F1. generalize (r_rows M1). induction (TorchModel.rows X'); intros m F; inversion F; subst; constructor; auto. }
        clear - Ey Le FO. revert ys Ey. induction Le as [|r r' rs rs' _ _ IH]; intros ys Ey; inversion Ey; subst; constructor; auto.
        unfold odds in H1. rewrite (fo_values _ _ _ _ _ _ _ _ _ _ _ _ _ _ _ _ FO) in H1. eauto. }
    all: (assert (Kall : forall u, In u (l_dtypes l) -> dt_kind u <> Ord) by
       (intros u Hu; destruct (Nat.eq_dec (dt_idx u) n) as [Q|Q];
        [assert (u = t) by (clear - Hu N2 N5 Q N3; rewrite <- N3 in Q; induction (l_dtypes l) as [|w ws IH]; [destruct Hu|]; cbn in N5; apply NoDup_cons_iff in N5; destruct N5 as [Nw N5];
          destruct Hu as [->|Hu], N2 as [->|N2]; auto; exfalso; apply Nw; [rewrite Q|rewrite <- Q]; apply in_map; auto); subst u; rewrite Ek; discriminate
        |apply Feat; auto; intros ->; congruence]);
      destruct (links_ok odds (l_dtypes l) M0 Kall N6 Wm) as (M1 & E1); [intros u x Hu Hx; cbn; eapply N8; eauto|];
      destruct (links odds (l_dtypes l) M0 M1 Kall N6 N5 N7 Wm E1) as (Wm1 & Wi1 & F1);
      exists (map (pick (dt_columns t)) (r_rows M1)); split;
      [apply BP with (M := M1); auto; assert (Q : forallb (fun j => j <? r_width M1) (dt_columns t) = true) by (apply forallb_forall; intros j Hj; apply Nat.ltb_lt; rewrite Wi1; cbn; eapply N8; eauto); rewrite Q; reflexivity
      |rewrite (Forall2_map_eq _ _ (fun r => link (dt_kind t) (pick (dt_columns t) r)) _ _ (fun r r' Hr => proj2 Hr t N2) F1); unfold M0; cbn [r_rows]; rewrite map_map, Ek; reflexivity]).
  Qed.
End Fitted.
