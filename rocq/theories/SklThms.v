(** * SklThms: consequences for the graph of a fitted estimator. *)
From Coq Require Import List Bool Arith ZArith Lia String QArith Qcanon Permutation.
From Verif Require Import Base Names Digraph SmModel SmProofs QcX NetModel NotearsModel NotearsProofs NotearsThms
  TorchModel TorchSpec TorchProofs TorchThms TorchGraph TorchResult TorchPandas TorchFrame TorchFinal SklModel SklCoef SklFit.
Import ListNotations.
Local Open Scope string_scope.
Local Open Scope list_scope.
Local Open Scope nat_scope.

Local Notation lspec := label_eqb_spec.

Lemma till_ok g g' : wf g -> threshold_till_dag g = (g', Ok tt) -> till_dag g g'.
Proof.
  intros W E. destruct (numeric_dec g) as [N|(u & v & a & I & H)].
  - destruct (threshold_till_dag_spec g W N) as (g2 & E2 & T). congruence.
  - destruct (is_dag label_eqb (edges g)) eqn:D.
    + apply (is_dag_acyclic _ lspec) in D. rewrite threshold_acyclic_id in E by auto. injection E as <-. apply till_dag_refl; auto.
    + assert (A : ~ acyclic (edges g)) by (intros A; apply (is_dag_acyclic _ lspec) in A; congruence). rewrite threshold_no_weight in E; [discriminate|auto|].
      intros N. specialize (N u v a I). destruct N as (w & Hw). apply (H w). auto.
Qed.

Section Fitted.
  Context (fuel : nat) (opt : optimiser) (eh : tpenalty) (act : activation) (grad : autograd) (rnd : list Qc) (order : list dtype -> list dtype).
  Context (e : est) (X : xdata) (y : ydata) (a : string) (e' : est) (X1 : xdata) (y1 : ydata) (rows : list (list fl)) (gr : graphs).
  Context (FO : fit_outcome fuel opt eh act grad rnd order e X y a e' X1 y1 rows gr).
  Context (Wx : wf_x X) (Wy : wf_y y) (Wc : wf_cfg (e_cfg e)) (Po : forall ds, Permutation (order ds) ds).

  Let name := target_name y.
  Let features := map fst (x_cols X).
  Let cols := features ++ [name].
  Let n := List.length (x_cols X).
  Let F := mkFrame (x_cols X ++ [(name, y_numeric y1)]) rows.
  Let schema := dset label_eqb (feature_schema (e_cfg e) X) name a.
  Let p := mkTp (c_hidden (e_cfg e)) (c_bias (e_cfg e)) (Some (c_threshold (e_cfg e))) (c_iter (e_cfg e)).
  Let M := mkMat (List.length cols) rows.

  Lemma frame_cols : map fst (f_cols F) = cols.
  Proof. unfold F, cols, features. cbn. rewrite map_app. auto. Qed.
  Lemma cols_length : List.length cols = S n.
  Proof. unfold cols, features. rewrite app_length, map_length. cbn. fold n. lia. Qed.
  Lemma cols_target : nth n cols (LInt 0) = name.
  Proof. unfold cols. rewrite app_nth2; unfold features; rewrite map_length; fold n; [|lia]. rewrite Nat.sub_diag. auto. Qed.
  Lemma lengths : List.length (x_rows X1) = List.length (y_vals y1).
  Proof.
    rewrite (fo_xlen _ _ _ _ _ _ _ _ _ _ _ _ _ _ _ _ FO), (fo_ylen _ _ _ _ _ _ _ _ _ _ _ _ _ _ _ _ FO).
    pose proof (fo_check _ _ _ _ _ _ _ _ _ _ _ _ _ _ _ _ FO) as C. unfold check_X_y in C. apply andb_true_iff in C. destruct C as [_ C]. apply Nat.eqb_eq in C. auto.
  Qed.
  Lemma rows_rect : Forall (fun r => List.length r = List.length (f_cols F)) (f_rows F).
  Proof.
    pose proof (concat_rect X1 y1 rows (fo_xrows _ _ _ _ _ _ _ _ _ _ _ _ _ _ _ _ FO Wx) lengths (fo_rows _ _ _ _ _ _ _ _ _ _ _ _ _ _ _ _ FO)) as R.
    rewrite (fo_cols _ _ _ _ _ _ _ _ _ _ _ _ _ _ _ _ FO) in R. unfold F. cbn. rewrite app_length. cbn. rewrite Nat.add_1_r. auto.
  Qed.
  Lemma cols_nodup : NoDup (map fst (f_cols F)).
  Proof. rewrite frame_cols. apply (fo_nodup _ _ _ _ _ _ _ _ _ _ _ _ _ _ _ _ FO). Qed.
  Lemma schema_nodup : forall s, Some schema = Some s -> NoDup (map fst s).
  Proof.
    intros s [= <-]. apply (dset_NoDup _ lspec). unfold feature_schema. destruct (c_schema (e_cfg e)) as [[|x r]|] eqn:E.
    - unfold dkeys. rewrite map_map. cbn [fst]. rewrite map_id. apply (NoDup_app_l _ [name]). apply (fo_nodup _ _ _ _ _ _ _ _ _ _ _ _ _ _ _ _ FO).
    - apply (Wc _ E).
    - unfold dkeys. rewrite map_map. cbn [fst]. rewrite map_id. apply (NoDup_app_l _ [name]). apply (fo_nodup _ _ _ _ _ _ _ _ _ _ _ _ _ _ _ _ FO).
  Qed.

  (** ** The learned graph *)
  Lemma learned_wf : wf (l_graph (g_learned gr)).
  Proof.
    destruct (torch_pandas_renamed _ _ _ _ _ _ _ _ _ _ _ _ cols_nodup rows_rect schema_nodup Po (fo_learned _ _ _ _ _ _ _ _ _ _ _ _ _ _ _ _ FO)) as (sz & tz & ks & l0 & nm & _ & _ & _ & _ & _ & _ & R).
    apply (rn_wf _ _ _ _ _ _ R).
  Qed.
  Lemma fitted_wf : wf (g_edges gr).
  Proof.
    pose proof (fo_edges _ _ _ _ _ _ _ _ _ _ _ _ _ _ _ _ FO) as E. destruct (c_enforce (e_cfg e)); [|rewrite E; apply learned_wf].
    apply (till_ok _ _ learned_wf) in E. apply E.
  Qed.
  Lemma fitted_edges uva : In uva (edges_data (g_edges gr)) -> In uva (edges_data (l_graph (g_learned gr))).
  Proof.
    pose proof (fo_edges _ _ _ _ _ _ _ _ _ _ _ _ _ _ _ _ FO) as E. destruct (c_enforce (e_cfg e)); [|rewrite E; auto].
    apply (till_ok _ _ learned_wf) in E. destruct (td_kept _ _ E) as (keep & ->). rewrite filter_In. tauto.
  Qed.
  Lemma fitted_edge u v : In (u, v) (edges (g_edges gr)) -> In (u, v) (edges (l_graph (g_learned gr))).
  Proof. intros H. apply in_map_iff in H. destruct H as (x & E & H). apply in_map_iff. exists x. split; auto. apply fitted_edges. auto. Qed.

  (** ** Edges of the target *)
  Context (RB : respects_bounds opt) (GL : gradient_local grad \/ linear p).

  Theorem fitted_no_ban : forall u v, In (u, v) (edges (g_edges gr)) -> exists c c' k k', In c cols /\ In c' cols /\
    u = category_name c k /\ v = category_name c' k' /\ c <> c' /\ ~ banned (fit_tabu (e_cfg e) name) c c'.
  Proof.
    intros u v H. apply fitted_edge in H. pose proof (torch_pandas_no_ban _ _ _ _ _ _ _ _ _ _ _ _ RB GL cols_nodup rows_rect schema_nodup Po (fo_learned _ _ _ _ _ _ _ _ _ _ _ _ _ _ _ _ FO)) as [B _].
    apply B in H. rewrite frame_cols in H. exact H.
  Qed.

  Lemma dependent_ban c' : c_dependent (e_cfg e) = true -> banned (fit_tabu (e_cfg e) name) name c'.
  Proof.
    intros D. right. left. unfold fit_tabu. cbn. rewrite D. destruct (t_parents (c_tabu (e_cfg e))) as [l|]; [|exists [name]; split; auto; left; auto].
    destruct (lmem name l) eqn:Ml; [apply lmem_iff in Ml; eauto|]. exists (l ++ [name]). split; auto. apply in_app_iff. right. left. auto.
  Qed.

  Theorem dependent_no_children : c_dependent (e_cfg e) = true -> forall u v, In (u, v) (edges (g_edges gr)) -> exists c k, In c features /\ u = category_name c k.
  Proof.
    intros D u v H. destruct (fitted_no_ban u v H) as (c & c' & k & k' & Hc & Hc' & -> & -> & N & B). exists c, k. split; auto.
    unfold cols in Hc. apply in_app_iff in Hc. destruct Hc as [Hc|[<-|[]]]; auto. exfalso. apply B. apply dependent_ban. auto.
  Qed.

  Theorem dependent_no_children_names : c_dependent (e_cfg e) = true -> no_suffixes cols -> forall k v, ~ In (category_name name k, v) (edges (g_edges gr)).
  Proof.
    intros D S k v H. destruct (dependent_no_children D _ _ H) as (c & m & Hc & E). assert (Ic : In c cols) by (apply in_app_iff; auto).
    assert (In0 : In name cols) by (apply in_app_iff; right; left; auto).
    destruct (category_name_inj _ _ _ _ _ S In0 Ic E) as [En _]. rewrite <- En in Hc.
    pose proof (fo_nodup _ _ _ _ _ _ _ _ _ _ _ _ _ _ _ _ FO) as Nd. fold features name in Nd. apply NoDup_remove_2 in Nd. rewrite app_nil_r in Nd. auto.
  Qed.

  Theorem dependent_collapsed : c_dependent (e_cfg e) = true -> forall v, ~ In (name, v) (edges (l_collapsed (g_learned gr))).
  Proof.
    intros D v H. pose proof (torch_pandas_no_ban _ _ _ _ _ _ _ _ _ _ _ _ RB GL cols_nodup rows_rect schema_nodup Po (fo_learned _ _ _ _ _ _ _ _ _ _ _ _ _ _ _ _ FO)) as [_ B].
    apply B in H. destruct H as (_ & _ & _ & H). apply H. apply dependent_ban; auto.
  Qed.

  Theorem enforced_acyclic : c_enforce (e_cfg e) = true -> acyclic (edges (g_edges gr)).
  Proof.
    intros D. pose proof (fo_edges _ _ _ _ _ _ _ _ _ _ _ _ _ _ _ _ FO) as E. rewrite D in E. apply (till_ok _ _ learned_wf) in E. apply E.
  Qed.

  (** ** Coefficients *)

  (** Into a node of the target: the features in order, then the expanded categories of features. *)
  Theorem fitted_coefficients k data : no_suffixes cols ->
    exists more, get_edges_to_node e' (category_name name k) data =
      Ok (map (fun f => (f, edge_number (g_edges gr) data f (category_name name k))) features ++ more) /\
      NoDup (map fst more) /\
      (forall u, In u (map fst more) <-> ~ In u features /\ In (u, category_name name k) (edges (g_edges gr))) /\
      (forall u q, In (u, q) more -> q = edge_number (g_edges gr) data u (category_name name k) /\ exists c i, In c features /\ 0 < i /\ u = category_name c i).
  Proof.
    intros Ns. assert (Src : forall u, In (u, category_name name k) (edges (g_edges gr)) -> exists c i, In c features /\ u = category_name c i).
    { intros u H. destruct (fitted_no_ban _ _ H) as (c & c' & i & j & Hc & Hc' & -> & E & N & _). exists c, i. split; auto.
      assert (In0 : In name cols) by (apply in_app_iff; right; left; auto).
      destruct (category_name_inj _ _ _ _ _ Ns In0 Hc' E) as [En _]. unfold cols in Hc. apply in_app_iff in Hc. destruct Hc as [Hc|[Hc|[]]]; auto. congruence. }
    destruct (edges_to_node e' gr features name (category_name name k) data (fo_graph _ _ _ _ _ _ _ _ _ _ _ _ _ _ _ _ FO) (fo_names _ _ _ _ _ _ _ _ _ _ _ _ _ _ _ _ FO) fitted_wf) as (more & E & N & K & Q).
    { intros u H. destruct (Src u H) as (c & [|i] & Hc & ->); [left; auto|right; cbn; eauto]. }
    exists more. split; [exact E|]. split; [exact N|]. split; [exact K|]. intros u q I. split; [apply Q; auto|].
    assert (Ku : In u (map fst more)) by (apply in_map_iff; exists (u, q); auto). apply K in Ku. destruct Ku as [Nf H]. destruct (Src u H) as (c & [|i] & Hc & ->); [cbn in Nf; tauto|].
    exists c, (S i). repeat split; auto. lia.
  Qed.
End Fitted.
