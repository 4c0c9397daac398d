(** * SklPairs: the table that the estimators learn from pairs features and targets by position. *)
From Coq Require Import List Bool Arith ZArith Lia String QArith Qcanon Permutation.
From Verif Require Import Base Names Digraph SmModel QcX NetModel NotearsModel TorchModel TorchSpec SklModel SklFit SklClf SklMain.
Import ListNotations.
Local Open Scope string_scope.
Local Open Scope list_scope.
Local Open Scope nat_scope.

(** The observations as one would write them down: each with its features and its target. *)
Definition observed {A} (X : xdata) (ts : list A) (obs : list (list fl * A)) : Prop := x_rows X = map fst obs /\ ts = map snd obs.

Lemma combine_map_map {A B C} (f : A -> B) (g : A -> C) l : combine (map f l) (map g l) = map (fun a => (f a, g a)) l.
Proof. induction l; cbn; congruence. Qed.

Lemma concat_same X y obs rows : x_index X = y_index y -> observed X (y_vals y) obs -> concat_xy X y = Ok rows -> rows = map (fun o => fst o ++ [snd o]) obs.
Proof.
  intros Hi [Hx Hy] E. unfold concat_xy in E. replace (list_eqb label_eqb (x_index X) (y_index y)) with true in E.
  - injection E as <-. rewrite Hx, Hy, combine_map_map, map_map. auto.
  - rewrite Hi. symmetry. clear. induction (y_index y) as [|a l IH]; cbn; auto. rewrite IH, andb_true_r. destruct (label_eqb_spec a a); congruence.
Qed.

Section Oracles.
  Context (fuel : nat) (opt : optimiser) (eh : tpenalty) (act : activation) (grad : autograd) (rnd : list Qc) (order : list dtype -> list dtype) (sd : list Qc -> Qc).

  (** The graph of [e'] was learned from the columns [cols] with the given rows. *)
  Definition learned_from (e e' : est) (cols : list (label * bool)) (rows : list (list fl)) : Prop :=
    exists gr schema tabu, e_graph e' = Some gr /\ g_values gr = (fun i => fl_column i rows) /\
      torch_pandas fuel opt eh act grad rnd order (mkFrame cols rows) schema
        (mkTp (c_hidden (e_cfg e)) (c_bias (e_cfg e)) (Some (c_threshold (e_cfg e))) (c_iter (e_cfg e))) tabu = Ok (g_learned gr).

  Lemma base_pairs e X y a e' obs : e_type e = Some a -> base_fit fuel opt eh act grad rnd order sd e X y = (e', Ok tt) -> x_index X = y_index y -> observed X (y_vals y) obs ->
    exists fx fy, learned_from e e' (x_cols X ++ [(target_name y, y_numeric y)]) (map (fun o => fx (fst o) ++ [fy (snd o)]) obs) /\
      (c_standardize (e_cfg e) = false -> (forall r, fx r = r)) /\ (c_standardize (e_cfg e) = false \/ a <> "cont" -> forall v, fy v = v).
  Proof.
    intros Ta E Hi [Hx Hy]. unfold base_fit in E. rewrite Ta in E. destruct (check_X_y X y); cbn [negb] in E; [|congruence]. cbv zeta in E.
    match type of E with match ?s with _ => _ end = _ => destruct s as [[[e1 X1] y1]|x] eqn:Es end; [|congruence].
    assert (Q : exists fx fy, x_cols X1 = x_cols X /\ x_index X1 = y_index y1 /\ y_numeric y1 = y_numeric y /\ x_rows X1 = map fx (x_rows X) /\ y_vals y1 = map fy (y_vals y) /\
      (c_standardize (e_cfg e) = false -> (forall r, fx r = r)) /\ (c_standardize (e_cfg e) = false \/ a <> "cont" -> forall v, fy v = v)).
    { destruct (c_standardize (e_cfg e)).
      - apply bind_ok in Es. destruct Es as (is & _ & Es). destruct is as [|i is]; [discriminate|].
        destruct (String.eqb_spec a "cont") as [->|Na].
        + injection Es as <- <- <-. cbn. eexists _, _. repeat split; auto; [discriminate|]. intuition congruence.
        + assert (Q : X1 = mkX (x_cols X) (x_index X) (map (scale_row scale_fl NaN (i :: is) (map (fun i => (mean (fl_column i (x_rows X)), sd (fl_column i (x_rows X)))) (i :: is))) (x_rows X)) /\ y1 = y).
          { revert Es. repeat match goal with |- context [match ?b with _ => _ end] => destruct b; try (intros [= _ <- <-]; split; reflexivity); try congruence end. }
          destruct Q as [-> ->]. cbn [x_cols x_index x_rows]. eexists _, (fun v => v). repeat split; auto; [rewrite map_id; auto|discriminate].
      - injection Es as <- <- <-. exists (fun r => r), (fun v => v). rewrite !map_id. auto 10. }
    destruct Q as (fx & fy & Qc & Qi & Qn & Qx & Qy & P). exists fx, fy. split; [|exact P].
    match type of E with match ?s with _ => _ end = _ => destruct s as [gr|x] eqn:Eo end; [|congruence]. injection E as <-.
    apply bind_ok in Eo. destruct Eo as (rows & Er & Eo). destruct (labels_nodup _); cbn [negb] in Eo; [|discriminate].
    apply bind_ok in Eo. destruct Eo as (l & El & Eo). apply bind_ok in Eo. destruct Eo as (g & Eg & Eo). injection Eo as <-.
    assert (R' : rows = map (fun o => fx (fst o) ++ [fy (snd o)]) obs).
    { rewrite (concat_same X1 y1 (map (fun o => (fx (fst o), fy (snd o))) obs) rows); auto; [rewrite map_map; auto|].
      split; rewrite map_map; cbn [fst snd]; [rewrite Qx, Hx, map_map|rewrite Qy, Hy, map_map]; auto. }
    subst rows. rewrite Qc, Qn in El. do 3 eexists. split; [reflexivity|]. split; [reflexivity|exact El].
  Qed.

  Theorem reg_pairs e X y e' obs : reg_fit fuel opt eh act grad rnd order sd e X y = (e', Ok tt) -> x_index X = y_index y -> observed X (y_vals y) obs ->
    exists fx fy, learned_from e e' (x_cols X ++ [(target_name y, y_numeric y)]) (map (fun o => fx (fst o) ++ [fy (snd o)]) obs) /\
      (c_standardize (e_cfg e) = false -> (forall r, fx r = r) /\ (forall v, fy v = v)).
  Proof.
    intros E Hi Ho. unfold reg_fit in E. assert (exists a, e_type (with_type e "cont") = Some a) as (a & Ta) by (unfold with_type; destruct (e_type e) eqn:T; cbn; eauto).
    destruct (base_pairs _ _ _ _ _ _ Ta E Hi Ho) as (fx & fy & L & Px & Py). exists fx, fy. unfold learned_from in *. rewrite with_type_cfg in *. auto.
  Qed.

  Theorem clf_pairs e X y e' obs : clf_fit fuel opt eh act grad rnd order sd e X y = (e', Ok tt) -> x_index X = k_index y -> observed X (k_labels y) obs ->
    exists cs fx fy numeric, e_classes e' = Some cs /\
      learned_from e e' (x_cols X ++ [(k_target y, numeric)]) (map (fun o => fx (fst o) ++ [fy (snd o)]) obs) /\
      (c_standardize (e_cfg e) = false -> (forall r, fx r = r)) /\
      (c_standardize (e_cfg e) = false \/ e_type e <> Some "cont" -> forall k l, nth_error cs k = Some l -> fy l = Fin (Q2Qc (inject_Z (Z.of_nat k)))).
  Proof.
    intros E Hi [Hx Hy]. pose proof (clf_fit_inv _ _ _ _ _ _ _ _ _ _ _ _ E) as H. cbv zeta in H. destruct H as (L2 & e1 & X1 & y2 & rows & gr & C1 & T1 & K1 & EB & FO).
    apply (base_pairs _ _ _ _ _ (map (fun o => (fst o, code (classes_of (k_labels y)) (snd o))) obs) T1) in EB; auto.
    2:{ split; cbn [y_vals]; rewrite map_map; cbn [fst snd]; auto. rewrite Hy at 2. rewrite map_map. auto. }
    destruct EB as (fx & fy & L & Px & Py). exists (classes_of (k_labels y)), fx, (fun l => fy (code (classes_of (k_labels y)) l)). eexists.
    split; [rewrite (fo_classes _ _ _ _ _ _ _ _ _ _ _ _ _ _ _ _ FO); auto|]. rewrite map_map in L. cbn [fst snd] in L.
    unfold learned_from in *. rewrite C1 in *. split; [exact L|]. split; [exact Px|].
    intros Hs k l Hk. rewrite Py. 2:{ destruct Hs as [Hs|Hs]; auto. right. destruct (e_type e); [congruence|]. destruct (2 <? _); discriminate. }
    unfold code. rewrite (find_label_nth _ k l (classes_NoDup _) Hk). auto.
  Qed.
End Oracles.
