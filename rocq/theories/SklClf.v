(** * SklClf: the probabilities and labels a fitted classifier predicts. *)
From Coq Require Import List Bool Arith ZArith Lia String QArith Qcanon Permutation Reals Lra.
From Verif Require Import Base Names Digraph SmModel SmProofs QcX NetModel NotearsModel NotearsProofs NotearsThms AcycLink
  TorchModel TorchSpec TorchProofs TorchThms TorchGraph TorchResult TorchPandas TorchFrame TorchTotal TorchFinal SklModel SklCoef SklFit SklThms OrdProofs SklPredict SklNet SklProba.
Import ListNotations.
Local Open Scope string_scope.
Local Open Scope list_scope.
Local Open Scope nat_scope.

Local Notation lspec := label_eqb_spec.

(** ** Classes *)
Lemma distinct_In x l : In x (distinct l) <-> In x l.
Proof.
  induction l as [|z l IH]; cbn [distinct]; [tauto|]. destruct (lmem z l) eqn:E; cbn [In]; rewrite IH; [|tauto]. apply lmem_iff in E. split; [tauto|]. intros [<-|H]; auto.
Qed.
Lemma distinct_NoDup l : NoDup (distinct l).
Proof.
  induction l as [|z l IH]; cbn [distinct]; [constructor|]. destruct (lmem z l) eqn:E; auto. constructor; auto. rewrite distinct_In, <- lmem_iff. congruence.
Qed.
Lemma classes_In x l : In x (classes_of l) <-> In x l.
Proof.
  unfold classes_of. rewrite <- (distinct_In x l). split; intros H.
  - apply (Permutation_in _ (Permutation_sym (isort_perm label_leb _))). auto.
  - apply (Permutation_in _ (isort_perm label_leb _)). auto.
Qed.
Lemma classes_NoDup l : NoDup (classes_of l).
Proof. unfold classes_of. eapply Permutation_NoDup; [apply isort_perm|apply distinct_NoDup]. Qed.

Definition nat_q (k : nat) : Qc := Q2Qc (inject_Z (Z.of_nat k)).
Lemma nat_q_inj i j : nat_q i = nat_q j -> i = j.
Proof.
  unfold nat_q. intros E. apply (f_equal this) in E. unfold Q2Qc in E. cbn [this] in E. assert (Q : (inject_Z (Z.of_nat i) == inject_Z (Z.of_nat j))%Q).
  { rewrite <- (Qred_correct (inject_Z (Z.of_nat i))), <- (Qred_correct (inject_Z (Z.of_nat j))). rewrite E. reflexivity. }
  unfold inject_Z, Qeq in Q. cbn in Q. lia.
Qed.

(** The number given to a label. *)
Definition code (cs : list label) (l : label) : fl := match find_label cs l with Some k => Fin (nat_q k) | None => NaN end.

Lemma code_values cs ls v : NoDup cs -> (forall l, In l ls <-> In l cs) -> (In v (map (code cs) ls) <-> exists k, k < List.length cs /\ v = Fin (nat_q k)).
Proof.
  intros N S. rewrite in_map_iff. split.
  - intros (l & <- & Hl). unfold code. destruct (find_label cs l) as [k|] eqn:E; [|apply find_label_None in E; apply S in Hl; tauto].
    apply find_label_Some in E. exists k. split; auto. apply nth_error_Some. congruence.
  - intros (k & Hk & ->). destruct (nth_error cs k) as [l|] eqn:E; [|apply nth_error_None in E; lia]. exists l. unfold code. rewrite (find_label_nth _ k l N E). split; auto.
    apply S. eapply nth_error_In; eauto.
Qed.

Lemma nodup_count (col : list Qc) m : (forall q, In q col <-> exists k, k < m /\ q = nat_q k) -> List.length (nodup Qc_eq_dec col) = m.
Proof.
  intros H. assert (P : Permutation (nodup Qc_eq_dec col) (map nat_q (seq 0 m))).
  { apply NoDup_Permutation; [apply NoDup_nodup| |].
    - apply NoDup_nth with (d := 0%Qc). rewrite map_length, seq_length. intros i j Hi Hj E. change 0%Qc with (nat_q 0) in E. rewrite !map_nth, !seq_nth in E by auto. apply nat_q_inj in E. lia.
    - intros q. rewrite nodup_In, H, in_map_iff. split; intros (k & A & B); exists k; rewrite in_seq in *; split; auto; lia. }
  apply Permutation_length in P. rewrite map_length, seq_length in P. auto.
Qed.

(** ** The largest entry *)
Lemma argmax_from_spec l : forall best bv i all, (forall j, j < i -> (nth j all 0 <= bv)%R) -> best < i -> nth best all 0%R = bv -> (forall j, nth (i + j) all 0%R = nth j l 0%R) -> List.length all = i + List.length l ->
  let k := argmax_from best bv i l in k < List.length all /\ forall j, j < List.length all -> (nth j all 0 <= nth k all 0)%R.
Proof.
  induction l as [|x l IH]; intros best bv i all B Hb Eb Sh L; cbn [argmax_from].
  - cbn in L. split; [lia|]. intros j Hj. rewrite Eb. apply B. lia.
  - pose proof (Sh 0) as S0. cbn [nth] in S0. rewrite Nat.add_0_r in S0. cbn [List.length] in L. destruct (Rlt_dec bv x).
    + apply IH; try lia.
      * intros j Hj. destruct (Nat.eq_dec j i) as [->|]; [rewrite S0; lra|]. apply Rle_trans with bv; [apply B; lia|lra].
      * exact S0.
      * intros j. pose proof (Sh (S j)) as Q. cbn [nth] in Q. rewrite <- Q. f_equal. lia.
    + apply IH; try lia.
      * intros j Hj. destruct (Nat.eq_dec j i) as [->|]; [rewrite S0; lra|]. apply B; lia.
      * exact Eb.
      * intros j. pose proof (Sh (S j)) as Q. cbn [nth] in Q. rewrite <- Q. f_equal. lia.
Qed.

Lemma argmax_spec l : l <> [] -> argmax l < List.length l /\ forall j, j < List.length l -> (nth j l 0 <= nth (argmax l) l 0)%R.
Proof.
  intros N. destruct l as [|x l]; [congruence|]. unfold argmax. apply (argmax_from_spec l 0 x 1 (x :: l)); auto.
  intros j Hj. assert (j = 0) by lia. subst. cbn. lra.
Qed.

(** [label] is one of the classes [cs] that are most probable according to [p]. *)
Definition most_probable (cs : list label) (p : list R) (label : label) : Prop :=
  exists i, nth_error cs i = Some label /\ forall j, j < List.length cs -> (nth j p 0 <= nth i p 0)%R.

Lemma choose_class cs p : 2 <= List.length cs -> List.length p = List.length cs -> distribution p ->
  exists l, (let k := if List.length cs =? 2 then (if Rlt_dec (/2)%R (nth 1 p 0%R) then 1 else 0) else argmax p in
             match nth_error cs k with Some l => Ok l | None => Err IndexError end) = Ok l /\ most_probable cs p l.
Proof.
  intros L Lp [Pos Sum]. cbv zeta. destruct (Nat.eqb_spec (List.length cs) 2) as [E2|N2].
  - destruct p as [|p0 [|p1 [|p2 p]]]; cbn in Lp; try lia. unfold rsum in Sum. cbn in Sum. cbn [nth].
    destruct cs as [|c0 [|c1 [|c2 cs]]]; cbn in E2; try lia. destruct (Rlt_dec (/ 2) p1).
    + exists c1. split; auto. exists 1. split; auto. intros [|[|j]] Hj; cbn in *; try lia; lra.
    + exists c0. split; auto. exists 0. split; auto. intros [|[|j]] Hj; cbn in *; try lia; lra.
  - destruct (argmax_spec p) as [Ha Hm]; [intros ->; cbn in Lp; lia|]. destruct (nth_error cs (argmax p)) as [l|] eqn:E; [|apply nth_error_None in E; lia].
    exists l. split; auto. exists (argmax p). split; auto. intros j Hj. apply Hm. lia.
Qed.

Lemma unscale_id e v : e_type e <> Some "cont" -> unscale e v = v.
Proof.
  intros N. unfold unscale. destruct (e_type e) as [s|]; auto. destruct (String.eqb_spec s "cont") as [->|Ns]; [congruence|]. clear N.
  repeat match goal with |- context [match ?b with _ => _ end] => destruct b; try reflexivity; try congruence end.
Qed.

Lemma Forall2_In_l' {A B} (P : A -> B -> Prop) l m : Forall2 P l m -> forall x, In x l -> exists b, In b m /\ P x b.
Proof. induction 1; intros b I; [destruct I|]. destruct I as [<-|I]; [exists y; split; auto; left; auto|]. destruct (IHForall2 b I) as (z & Hz & Q). exists z. split; auto. right. auto. Qed.

Section Classifier.
  Context (fuel : nat) (opt : optimiser) (eh : tpenalty) (act : activation) (grad : autograd) (rnd : list Qc) (order : list dtype -> list dtype) (sd : list Qc -> Qc).
  Let clf_fit := clf_fit fuel opt eh act grad rnd order sd.

  Definition k_target (y : kdata) : label := target_name (mkY (k_name y) (k_index y) [] true).
  Definition labels_ok (y : kdata) : Prop := List.length (k_index y) = List.length (k_labels y).

  (** The type of the target fits its labels. *)
  Definition type_fits (e : est) (X : xdata) (y : kdata) : Prop :=
    e_type e = None \/ e_type e = Some "cat" \/ (e_type e = Some "bin" /\ List.length (classes_of (k_labels y)) = 2) \/
    (e_type e = Some "ord" /\ ~ In (k_target y) (map fst (feature_schema (e_cfg e) X))).

  Lemma clf_fit_inv e X y e' : clf_fit e X y = (e', Ok tt) ->
    let cs := classes_of (k_labels y) in
    let a := match e_type e with Some a => a | None => if 2 <? List.length cs then "cat" else "bin" end in
    let y1 := mkY (k_name y) (k_index y) (map (code cs) (k_labels y)) (negb (k_array y && existsb is_str (k_labels y))) in
    2 <= List.length cs /\ exists e1 X1 y2 rows gr, e_cfg e1 = e_cfg e /\ e_type e1 = Some a /\ e_classes e1 = Some cs /\
      SklModel.base_fit fuel opt eh act grad rnd order sd e1 X y1 = (e', Ok tt) /\ fit_outcome fuel opt eh act grad rnd order e1 X y1 a e' X1 y2 rows gr.
  Proof.
    intros E cs a y1. unfold clf_fit, SklModel.clf_fit in E. destruct (_ && _); [congruence|]. cbv zeta in E. fold cs in E.
    destruct (Nat.ltb_spec (List.length cs) 2) as [|L]; [congruence|]. split; auto.
    match type of E with SklModel.base_fit _ _ _ _ _ _ _ _ ?e1 _ _ = _ => set (e1' := e1) in E; pose (e2 := e1) end.
    change (SklModel.base_fit fuel opt eh act grad rnd order sd e2 X y1 = (e', Ok tt)) in E.
    assert (T : e_type e2 = Some a) by (unfold e2, with_type, a; cbn [e_type]; destruct (e_type e) eqn:Et; cbn [e_type]; auto).
    assert (C : e_cfg e2 = e_cfg e) by (unfold e2, with_type; cbn [e_type]; destruct (e_type e); auto).
    assert (K : e_classes e2 = Some cs) by (unfold e2, with_type; cbn [e_type]; destruct (e_type e); auto).
    destruct (base_fit_inv _ _ _ _ _ _ _ _ _ _ _ _ _ T E) as (X1 & y2 & rows & gr & FO). exists e2, X1, y2, rows, gr. auto.
  Qed.

  Theorem clf_predictions e X y e' P : clf_fit e X y = (e', Ok tt) -> wf_x X -> labels_ok y -> wf_cfg (e_cfg e) -> (forall ds, Permutation (order ds) ds) ->
    no_suffixes (map fst (x_cols X) ++ [k_target y]) -> type_fits e X y -> no_ordinal (e_cfg e) X -> new_data_ok (e_cfg e) X P ->
    exists cs ps ls, e_classes e' = Some cs /\ predict_proba act e' P = Ok ps /\ clf_predict act e' P = Ok ls /\
      NoDup cs /\ (forall l, In l cs <-> In l (k_labels y)) /\ List.length ps = List.length (p_rows P) /\
      Forall (fun p => List.length p = List.length cs /\ distribution p) ps /\ Forall2 (most_probable cs) ps ls.
  Proof.
    intros E Wx Wl Wc Po NS TF No ND. destruct (clf_fit_inv _ _ _ _ E) as (L2 & e1 & X1 & y2 & rows & gr & C1 & T1 & K1 & _ & FO). cbv zeta in *.
    set (cs := classes_of (k_labels y)) in *. set (a := match e_type e with Some a => a | None => if 2 <? List.length cs then "cat" else "bin" end) in *.
    set (y1 := mkY (k_name y) (k_index y) (map (code cs) (k_labels y)) (negb (k_array y && existsb is_str (k_labels y)))) in *.
    assert (Wy : wf_y y1) by (unfold wf_y, y1; cbn; rewrite map_length; auto).
    assert (Tn : target_name y1 = k_target y) by reflexivity.
    assert (Cc : forall q, In (Fin q) (y_vals y1) <-> exists k, k < List.length cs /\ q = nat_q k).
    { intros q. unfold y1. cbn [y_vals]. rewrite code_values; [|apply classes_NoDup|intros; symmetry; apply classes_In]. split; intros (k & A & B); exists k; split; auto; congruence. }
    assert (Ak : a = "cat" \/ (a = "bin" /\ List.length cs = 2) \/ (a = "ord" /\ ~ In (k_target y) (map fst (feature_schema (e_cfg e) X)))).
    { unfold a. destruct TF as [->|[->|[[-> Q]|[-> Q]]]]; auto. destruct (Nat.ltb_spec 2 (List.length cs)); auto. right. left. split; auto. lia. }
    assert (Na : a <> "cont") by (intros Q; destruct Ak as [->|[[-> _]|[-> _]]]; discriminate).
    assert (y2 = y1) by (apply (fo_yvals _ _ _ _ _ _ _ _ _ _ _ _ _ _ _ _ FO); auto). subst y2.
    rewrite <- Tn in NS. rewrite <- C1 in Wc, No, ND.
    destruct (fitted_net _ _ _ _ _ _ _ _ _ _ _ _ _ _ _ _ FO Wx Wc Po NS) as (t0 & N0).
    assert (Cnt : List.length (nodup Qc_eq_dec (fl_column (List.length (map fst (x_cols X))) rows)) = List.length cs).
    { apply nodup_count. intros q. rewrite <- Cc. rewrite <- (concat_target X1 y1 rows (Fin q) (fo_xrows _ _ _ _ _ _ _ _ _ _ _ _ _ _ _ _ FO Wx) Wy (lengths _ _ _ _ _ _ _ _ _ _ _ _ _ _ _ _ FO) (fo_rows _ _ _ _ _ _ _ _ _ _ _ _ _ _ _ _ FO)) by congruence.
      rewrite (fo_cols _ _ _ _ _ _ _ _ _ _ _ _ _ _ _ _ FO), map_length. unfold fl_column. rewrite !in_map_iff. pose proof (rows_rect _ _ _ _ _ _ _ _ _ _ _ _ _ _ _ _ FO Wx) as Rr. cbn [f_cols f_rows] in Rr. rewrite Forall_forall in Rr.
      split; intros (r & Q & Hr); exists r; split; auto; [|rewrite Q; auto].
      destruct (nt_finite _ _ _ _ _ _ _ N0 r (nth (List.length (x_cols X)) r NaN) Hr) as (q' & Eq). { apply nth_In. rewrite (Rr r Hr), app_length. cbn. lia. }
      rewrite Eq in Q |- *. cbn in Q. congruence. }
    destruct (predict_total _ _ _ _ _ _ _ _ _ _ _ _ _ _ _ _ FO Wx Wc Po NS P ND No) as (t & X' & N & _ & _ & Lr & ys & EP & Sh).
    { intros _. split; auto. apply Cc. exists 0. split; [lia|reflexivity]. }
    { intros Q. rewrite Cnt. split; auto. rewrite Tn, C1. destruct Ak as [->|[[-> _]|[-> Q']]]; try discriminate. auto. }
    assert (U : map (map (unscale e')) ys = ys).
    { rewrite <- (map_id ys) at 2. apply map_ext. intros v. rewrite <- (map_id v) at 2. apply map_ext. intros z. apply unscale_id. rewrite (fo_type _ _ _ _ _ _ _ _ _ _ _ _ _ _ _ _ FO). congruence. }
    rewrite U in EP.
    assert (PP : exists ps, predict_proba act e' P = Ok ps /\ List.length ps = List.length (p_rows P) /\ Forall (fun p => List.length p = List.length cs /\ distribution p) ps).
    { unfold predict_proba. rewrite EP. cbn [bind fst snd]. pose proof (nt_kind _ _ _ _ _ _ _ N) as Nk. pose proof (nt_size _ _ _ _ _ _ _ N) as Nz.
      destruct Ak as [Ea|[[Ea E2]|[Ea _]]]; rewrite Ea in Nk; cbn in Nk; injection Nk as Nk; rewrite <- Nk in *.
      - exists ys. split; auto. rewrite Sh, map_length. split; auto. apply Forall_map, Forall_forall. intros r Hr. cbn [link]. rewrite softmax_length.
        assert (Lo : List.length (outs act gr t r) = List.length cs). { unfold outs, pick. rewrite map_length, Nz. cbn [n_columns]. exact Cnt. }
        split; auto. apply softmax_distribution. intros Q. rewrite Q in Lo. cbn in Lo. lia.
      - eexists. split; [reflexivity|]. rewrite map_length, Sh, map_length. split; auto. apply Forall_map, Forall_map, Forall_forall. intros r Hr. cbn [link].
        split; [cbn; lia|]. assert (Lo : List.length (outs act gr t r) = 1) by (unfold outs, pick; rewrite map_length, Nz; auto).
        destruct (outs act gr t r) as [|z [|z' zs]]; cbn in Lo; try lia. cbn [map hd]. apply sigmoid_distribution.
      - exists ys. split; auto. split; [rewrite <- Lr; clear - Sh; induction Sh; cbn; congruence|]. apply Forall_forall. intros p Hp.
        destruct (Forall2_In_r' _ _ _ Sh p Hp) as (r & _ & z & Ez).
        destruct (ordinal_probs (fl_column (List.length (map fst (x_cols X))) rows) z) as (ps & Eps & Lp & D & _); [rewrite Cnt; auto|].
        rewrite Ez in Eps. injection Eps as <-. rewrite Lp, Cnt. auto. }
    destruct PP as (ps & Eps & Lps & Fps).
    assert (Kc : e_classes e' = Some cs) by (rewrite (fo_classes _ _ _ _ _ _ _ _ _ _ _ _ _ _ _ _ FO); auto).
    destruct (mapM_total (fun p => let k := if List.length cs =? 2 then (if Rlt_dec (/2)%R (nth 1 p 0%R) then 1 else 0) else argmax p in
                       match nth_error cs k with Some l => Ok l | None => Err IndexError end) ps) as (ls & Els).
    { intros p Hp. rewrite Forall_forall in Fps. destruct (Fps p Hp) as [A B]. destruct (choose_class cs p L2 A B) as (l & H & _). eauto. }
    exists cs, ps, ls. split; auto. split; auto. split; [unfold clf_predict; rewrite Eps; cbn [bind]; rewrite Kc; exact Els|]. split; [apply classes_NoDup|]. split; [intros; apply classes_In|].
    split; auto. split; auto. apply mapM_ok in Els. rewrite Forall_forall in Fps. clear - Els Fps L2. induction Els as [|p l ps ls H Els IH]; constructor.
    - destruct (Fps p (or_introl eq_refl)) as [A B]. destruct (choose_class cs p L2 A B) as (l' & H' & M). rewrite H in H'. injection H' as ->. auto.
    - apply IH. intros; apply Fps; right; auto.
  Qed.
End Classifier.
