(** * SklRefit: what a fit keeps of the fits before it. *)
From Coq Require Import List Bool Arith ZArith Lia String QArith Qcanon Reals.
From Verif Require Import Base Names Digraph SmModel QcX NetModel NotearsModel AcycLink TorchModel SklModel.
Import ListNotations.
Local Open Scope string_scope.
Local Open Scope list_scope.
Local Open Scope nat_scope.

(** ** Specification *)

(** The states an estimator can be in after any calls of fit, successful or not, each with its own data, random
    numbers and results of the optimiser. *)
Inductive regressor_after (e0 : est) : est -> Prop :=
| rfits_none : regressor_after e0 e0
| rfits_more : forall e fuel opt eh act grad rnd order sd X y, regressor_after e0 e -> regressor_after e0 (fst (reg_fit fuel opt eh act grad rnd order sd e X y)).

(** The same for a classifier; [ok] says which targets were given. *)
Inductive classifier_after (ok : kdata -> Prop) (e0 : est) : est -> Prop :=
| cfits_none : classifier_after ok e0 e0
| cfits_more : forall e fuel opt eh act grad rnd order sd X y, classifier_after ok e0 e -> ok y ->
    classifier_after ok e0 (fst (clf_fit fuel opt eh act grad rnd order sd e X y)).

(** More than two different labels. *)
Definition multiclass (y : kdata) : bool := 2 <? List.length (classes_of (k_labels y)).

(** ** Proof *)
Section Oracles.
  Context (fuel : nat) (opt : optimiser) (eh : tpenalty) (act : activation) (grad : autograd) (rnd : list Qc) (order : list dtype -> list dtype) (sd : list Qc -> Qc).
  Notation base_fit := (base_fit fuel opt eh act grad rnd order sd).

  (** [e_scale_y] is only touched with standardize and a continuous target, [e_scale_X] only with standardize. *)
  Lemma base_fit_keeps e X y : let e' := fst (base_fit e X y) in e_cfg e' = e_cfg e /\ e_type e' = e_type e /\ e_classes e' = e_classes e /\
    (c_standardize (e_cfg e) = false -> e_scale_X e' = e_scale_X e) /\ (c_standardize (e_cfg e) = false \/ e_type e <> Some "cont" -> e_scale_y e' = e_scale_y e).
  Proof.
    cbv zeta. unfold SklModel.base_fit. destruct (check_X_y X y); [|cbn; auto 10]. cbn [negb].
    match goal with |- context [match (if ?b then ?s else ?n) with _ => _ end] => set (sc := if b then s else n) end.
    assert (K : forall e1 X1 y1, sc = Ok (e1, X1, y1) -> e_type e1 = e_type e /\ e_classes e1 = e_classes e /\
      (c_standardize (e_cfg e) = false -> e_scale_X e1 = e_scale_X e) /\ (c_standardize (e_cfg e) = false \/ e_type e <> Some "cont" -> e_scale_y e1 = e_scale_y e)).
    { intros e1 X1 y1. unfold sc. destruct (c_standardize (e_cfg e)); [|intros [= <- <- <-]; auto].
      intros E. apply bind_ok in E. destruct E as (is & _ & E). destruct is as [|i is]; [discriminate|].
      destruct (e_type e) as [a|] eqn:Et; [|injection E as <- _ _; cbn; repeat split; congruence].
      destruct (String.eqb_spec a "cont") as [->|Na]; [injection E as <- _ _; cbn; repeat split; intros; try congruence; intuition congruence|].
      assert (E' : e1 = mkEst (e_cfg e) (Some a) (e_classes e) (Some (i :: is, map (fun i : nat => (mean (fl_column i (x_rows X)), sd (fl_column i (x_rows X)))) (i :: is))) (e_scale_y e) (e_names e) (e_graph e)).
      { revert E. repeat match goal with |- context [match ?b with _ => _ end] => destruct b; try (intros [= <- _ _]; reflexivity); try congruence end. }
      subst e1. cbn. repeat split; congruence. }
    destruct sc as [[[e1 X1] y1]|x]; [|cbn; auto 10]. destruct (K _ _ _ eq_refl) as (K1 & K2 & K3 & K4).
    match goal with |- context [match ?o with Ok _ => _ | Err _ => _ end] => destruct o end; cbn; auto 10.
  Qed.

  (** The outcome depends on the parameters and on the type of the target only, the new state also on the classes
      and, where they are not set anew, on the scalers. *)
  Lemma base_fit_same e1 e2 X y : e_cfg e1 = e_cfg e2 -> e_type e1 = e_type e2 -> e_classes e1 = e_classes e2 ->
    (c_standardize (e_cfg e2) = false -> e_scale_X e1 = e_scale_X e2) -> (c_standardize (e_cfg e2) = false \/ e_type e2 <> Some "cont" -> e_scale_y e1 = e_scale_y e2) ->
    snd (base_fit e1 X y) = snd (base_fit e2 X y) /\ (snd (base_fit e1 X y) = Ok tt -> fst (base_fit e1 X y) = fst (base_fit e2 X y)).
  Proof.
    destruct e1 as [c t k sx sy nm gr], e2 as [c2 t2 k2 sx2 sy2 nm2 gr2]. cbn [e_cfg e_type e_classes e_scale_X e_scale_y]. intros -> -> -> Hx Hy.
    unfold SklModel.base_fit. cbn [e_cfg e_type e_classes e_scale_X e_scale_y e_names e_graph].
    destruct (check_X_y X y); [|cbn; split; auto; discriminate]. cbn [negb]. destruct (c_standardize c2) eqn:St.
    - destruct (mapM _ _) as [is|x]; cbn [bind]; [|cbn; split; auto; discriminate]. destruct is as [|i is]; [cbn; split; auto; discriminate|].
      destruct t2 as [a|].
      + destruct (String.eqb_spec a "cont") as [->|Na].
        * cbn [e_type e_classes e_scale_X e_scale_y e_names e_graph]. match goal with |- context [match ?o with Ok _ => _ | Err _ => _ end] => destruct o end; cbn; split; auto; discriminate.
        * rewrite Hy by (right; congruence).
          repeat match goal with |- context [match ?b with _ => _ end] =>
            match type of b with Ascii.ascii => destruct b | bool => destruct b | string => destruct b end; try congruence end.
          all: cbn [e_type e_classes e_scale_X e_scale_y e_names e_graph]; match goal with |- context [match ?o with Ok _ => _ | Err _ => _ end] => destruct o end; cbn; split; auto; discriminate.
      + rewrite Hy by (right; congruence). cbn [e_type e_classes e_scale_X e_scale_y e_names e_graph]. match goal with |- context [match ?o with Ok _ => _ | Err _ => _ end] => destruct o end; cbn; split; auto; discriminate.
    - rewrite Hx, Hy by auto. cbn [e_type e_classes e_scale_X e_scale_y e_names e_graph]. match goal with |- context [match ?o with Ok _ => _ | Err _ => _ end] => destruct o end; cbn; split; auto; discriminate.
  Qed.
End Oracles.

(** The parts of the state of [e], which went through fits, that can matter for the next fit with a target of
    type [a]. *)
Definition like_new (e0 e : est) (a : string) : Prop := e_cfg e = e_cfg e0 /\
  (c_standardize (e_cfg e0) = false -> e_scale_X e = e_scale_X e0) /\ (c_standardize (e_cfg e0) = false \/ a <> "cont" -> e_scale_y e = e_scale_y e0).

Lemma regressor_state e0 e : regressor_after e0 e -> let a := match e_type e0 with Some a => a | None => "cont" end in
  like_new e0 e a /\ e_classes e = e_classes e0 /\ (e_type e = e_type e0 \/ e_type e = Some a).
Proof.
  intros H a. induction H as [|e fuel opt eh act grad rnd order sd X y H IH]; [unfold like_new; auto 10|].
  destruct IH as ((C & Sx & Sy) & K & T). unfold reg_fit.
  pose proof (base_fit_keeps fuel opt eh act grad rnd order sd (with_type e "cont") X y) as B. cbv zeta in B. destruct B as (B1 & B2 & B3 & B4 & B5).
  assert (W : e_type (with_type e "cont") = Some a). { unfold with_type, a. destruct T as [T|T]; rewrite T; destruct (e_type e0); auto. }
  assert (Wc : e_cfg (with_type e "cont") = e_cfg e) by (unfold with_type; destruct (e_type e); auto).
  assert (Wk : e_classes (with_type e "cont") = e_classes e) by (unfold with_type; destruct (e_type e); auto).
  assert (Wx : e_scale_X (with_type e "cont") = e_scale_X e) by (unfold with_type; destruct (e_type e); auto).
  assert (Wy : e_scale_y (with_type e "cont") = e_scale_y e) by (unfold with_type; destruct (e_type e); auto).
  rewrite Wc, ?Wk, ?Wx, ?Wy, W, C in *. split; [|split; [congruence|right; congruence]]. split; auto. split.
  - intros E. rewrite B4; auto.
  - intros E. rewrite B5; auto. destruct E as [E|E]; [auto|right; congruence].
Qed.

Theorem refit_regressor fuel opt eh act grad rnd order sd e0 e X y : regressor_after e0 e ->
  snd (reg_fit fuel opt eh act grad rnd order sd e X y) = snd (reg_fit fuel opt eh act grad rnd order sd e0 X y) /\
  (snd (reg_fit fuel opt eh act grad rnd order sd e X y) = Ok tt -> fst (reg_fit fuel opt eh act grad rnd order sd e X y) = fst (reg_fit fuel opt eh act grad rnd order sd e0 X y)).
Proof.
  intros H. destruct (regressor_state _ _ H) as ((C & Sx & Sy) & K & T). cbv zeta in *. unfold reg_fit. apply base_fit_same.
  - unfold with_type. destruct (e_type e), (e_type e0); auto.
  - unfold with_type. destruct T as [T|T]; rewrite T; destruct (e_type e0) eqn:Et; cbn [e_type]; rewrite ?T, ?Et; auto.
  - unfold with_type. destruct (e_type e), (e_type e0); auto.
  - unfold with_type. destruct (e_type e), (e_type e0); auto.
  - intros E. assert (G : c_standardize (e_cfg e0) = false \/ match e_type e0 with Some a => a | None => "cont" end <> "cont").
    { revert E. unfold with_type. destruct (e_type e0) as [b|] eqn:Et; cbn [e_cfg e_type]; rewrite ?Et; intros [E|E]; auto; right; congruence. }
    specialize (Sy G). revert Sy. unfold with_type. destruct (e_type e), (e_type e0); auto.
Qed.

Definition clf_kind (m : bool) : string := if m then "cat" else "bin".

Lemma classifier_state ok e0 e m : classifier_after ok e0 e -> e_type e0 <> Some "cont" -> (e_type e0 = None -> forall y, ok y -> multiclass y = m) ->
  let a := match e_type e0 with Some a => a | None => clf_kind m end in like_new e0 e a /\ (e_type e = e_type e0 \/ e_type e = Some a).
Proof.
  intros H N0 M a. assert (Na : a <> "cont") by (unfold a, clf_kind; destruct (e_type e0); [congruence|destruct m; discriminate]).
  induction H as [|e fuel opt eh act grad rnd order sd X y H IH Y]; [unfold like_new; auto 10|].
  destruct IH as ((C & Sx & Sy) & T). unfold clf_fit. destruct (_ && _); [unfold like_new; auto|].
  destruct (List.length (classes_of (k_labels y)) <? 2); [unfold like_new; cbn; auto|].
  set (e1 := mkEst (e_cfg e) (e_type e) (Some (classes_of (k_labels y))) (e_scale_X e) (e_scale_y e) (e_names e) (e_graph e)).
  set (y1 := mkY _ _ _ _). set (b := if 2 <? List.length (classes_of (k_labels y)) then "cat" else "bin").
  pose proof (base_fit_keeps fuel opt eh act grad rnd order sd (with_type e1 b) X y1) as B. cbv zeta in B. destruct B as (B1 & B2 & B3 & B4 & B5).
  assert (W : e_type (with_type e1 b) = Some a).
  { unfold with_type, e1, a. cbn [e_type]. destruct T as [T|T]; rewrite T; [destruct (e_type e0) eqn:Et; cbn [e_type]; rewrite ?T; auto|].
    - f_equal. unfold b, clf_kind. specialize (M eq_refl y Y). unfold multiclass in M. rewrite M. auto.
    - cbn [e_type]. auto. }
  assert (Wc : e_cfg (with_type e1 b) = e_cfg e) by (unfold with_type, e1; cbn [e_type]; destruct (e_type e); auto).
  assert (Wx : e_scale_X (with_type e1 b) = e_scale_X e) by (unfold with_type, e1; cbn [e_type]; destruct (e_type e); auto).
  assert (Wy : e_scale_y (with_type e1 b) = e_scale_y e) by (unfold with_type, e1; cbn [e_type]; destruct (e_type e); auto).
  rewrite Wc, Wx, Wy, W, C in *. split; [|right; congruence]. split; auto. split.
  - intros E. rewrite B4; auto.
  - intros E. rewrite B5; auto. right. congruence.
Qed.

Theorem refit_classifier fuel opt eh act grad rnd order sd ok e0 e X y : classifier_after ok e0 e -> e_type e0 <> Some "cont" ->
  (e_type e0 <> None \/ forall y', ok y' -> multiclass y' = multiclass y) ->
  snd (clf_fit fuel opt eh act grad rnd order sd e X y) = snd (clf_fit fuel opt eh act grad rnd order sd e0 X y) /\
  (snd (clf_fit fuel opt eh act grad rnd order sd e X y) = Ok tt -> fst (clf_fit fuel opt eh act grad rnd order sd e X y) = fst (clf_fit fuel opt eh act grad rnd order sd e0 X y)).
Proof.
  intros H N0 M. assert (M' : e_type e0 = None -> forall y', ok y' -> multiclass y' = multiclass y) by tauto.
  destruct (classifier_state _ _ _ _ H N0 M') as ((C & Sx & Sy) & T). cbv zeta in *.
  assert (Na : match e_type e0 with Some a => a | None => clf_kind (multiclass y) end <> "cont") by (unfold clf_kind; destruct (e_type e0); [congruence|destruct (multiclass y); discriminate]).
  unfold clf_fit. destruct (_ && _); [cbn; split; auto; discriminate|].
  destruct (List.length (classes_of (k_labels y)) <? 2); [cbn; split; auto; discriminate|].
  apply base_fit_same; unfold with_type; cbn [e_type].
  - destruct (e_type e), (e_type e0); auto.
  - destruct T as [T|T]; rewrite T; destruct (e_type e0) eqn:Et; cbn [e_type]; rewrite ?T, ?Et; auto.
  - destruct (e_type e), (e_type e0); auto.
  - destruct (e_type e), (e_type e0); auto.
  - intros _. specialize (Sy (or_intror Na)). destruct (e_type e), (e_type e0); auto.
Qed.
