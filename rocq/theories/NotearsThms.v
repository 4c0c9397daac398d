(** * NotearsThms: learned structures respect the bans and match the learned weights. *)
From Coq Require Import List Bool Arith ZArith Lia String QArith Qcanon Permutation.
From Verif Require Import Base QcX Digraph SmModel SmProofs SmBuild NotearsModel NotearsProofs.
Import ListNotations.
Local Open Scope string_scope.
Local Open Scope list_scope.
Local Open Scope nat_scope.

(** ** Specification *)

(** The user banned the edge, its start as a parent or its end as a child. *)
Definition banned {A} (t : tabu A) (u v : A) : Prop :=
  (exists l, t_edges t = Some l /\ In (u, v) l) \/
  (exists l, t_parents t = Some l /\ In u l) \/
  (exists l, t_children t = Some l /\ In v l).

(** Everything the user can see of a learned graph on the nodes [name 0], ..., [name (d - 1)]: the edges are
    the pairs with [keep], each with its weight and the origin. *)
Definition graph_of (g : graph) (d : nat) (name : nat -> label) (origin : string) (w : nat -> nat -> Qc) (keep : Qc -> Prop) : Prop :=
  nodes g = map name (seq 0 d) /\ NoDup (edges g) /\
  (forall u v, In (u, v) (edges g) <-> exists i j, i < d /\ j < d /\ u = name i /\ v = name j /\ keep (w i j)) /\
  (forall i j, i < d -> j < d -> keep (w i j) ->
     edge_attrs g (name i) (name j) = Some [("origin", AStr origin); ("weight", ANum (w i j))]).

(** [w] was returned by the optimiser in its last call, or there was no call. *)
Definition learned_vector (opt : optimiser) (len : nat) (p : params) (w : list Qc) : Prop :=
  (max_iter p = 0 /\ w = repeat 0%Qc len) \/ (0 < max_iter p /\ exists bnds r a x k, w = opt bnds r a x k).

(** ** From numpy *)
Lemma zzmem_In x y l : zzmem x y l = true <-> In (x, y) l.
Proof.
  unfold zzmem. rewrite existsb_exists. split.
  - intros ([a b] & H & E). cbn in E. apply andb_true_iff in E. destruct E as [E1 E2]. apply Z.eqb_eq in E1, E2. congruence.
  - intros H. exists (x, y). split; auto. cbn. rewrite !Z.eqb_refl. auto.
Qed.
Lemma zmem_In x l : zmem x l = true <-> In x l.
Proof.
  unfold zmem. rewrite existsb_exists. split.
  - intros (a & H & E). apply Z.eqb_eq in E. congruence.
  - intros H. exists x. rewrite Z.eqb_refl. auto.
Qed.

Lemma bnd_banned t o i j : i = j \/ banned t (Z.of_nat i) (Z.of_nat j) -> bnd t o i j = fixed0.
Proof.
  intros H. unfold bnd. destruct (Nat.eqb_spec i j) as [->|N]; auto. destruct H as [H|H]; [congruence|].
  destruct (on_list (t_edges t) _) eqn:E1; auto. destruct (on_list (t_parents t) _) eqn:E2; auto.
  destruct (on_list (t_children t) _) eqn:E3; auto. exfalso.
  destruct H as [(l & El & I)|[(l & El & I)|(l & El & I)]]; rewrite El in *; cbn [on_list] in *.
  - apply zzmem_In in I. congruence.
  - apply zmem_In in I. congruence.
  - apply zmem_In in I. congruence.
Qed.

Lemma Qcabs_0 : Qcabs 0 = 0%Qc.
Proof. unfold Qcabs. destruct (Qclt_le_dec 0 0); auto. Qed.

Lemma cut_le_entry t d w i j : entry d (cut_le t w) i j = (if qle (Qcabs (entry d w i j)) t then 0%Qc else entry d w i j).
Proof.
  unfold entry, cut_le. set (f := fun x => if qle (Qcabs x) t then 0%Qc else x).
  replace 0%Qc with (f 0%Qc) at 1 by (unfold f; destruct (qle _ _); auto). rewrite map_nth. reflexivity.
Qed.
Lemma cut_lt_entry t d w i j : entry d (cut_lt t w) i j = (if qlt (Qcabs (entry d w i j)) t then 0%Qc else entry d w i j).
Proof.
  unfold entry, cut_lt. set (f := fun x => if qlt (Qcabs x) t then 0%Qc else x).
  replace 0%Qc with (f 0%Qc) at 1 by (unfold f; destruct (qlt _ _); auto). rewrite map_nth. reflexivity.
Qed.

Definition keep_gt (t w : Qc) : Prop := w <> 0%Qc /\ (t < Qcabs w)%Qc.
Definition keep_ge (t w : Qc) : Prop := w <> 0%Qc /\ (t <= Qcabs w)%Qc.

Lemma node_names d : NoDup (map node (seq 0 d)).
Proof. apply FinFun.Injective_map_NoDup; [intros a b; apply node_inj | apply seq_NoDup]. Qed.

Lemma matrix_graph_of d w g (keep : Qc -> Prop) v : sm_of_matrix d w = Ok g ->
  (forall i j, i < d -> j < d -> (entry d w i j <> 0%Qc <-> keep (v i j)) /\ (keep (v i j) -> entry d w i j = v i j)) ->
  graph_of g d node "unknown" v keep.
Proof.
  intros E H. destruct (Nat.eq_dec (List.length w) (d * d)) as [L|L].
  2:{ unfold sm_of_matrix in E. apply Nat.eqb_neq in L. rewrite L in E. discriminate. }
  destruct (matrix_graph d w L) as (g' & E' & W & N & A). rewrite E in E'. injection E' as <-.
  split; auto. split; [apply edges_NoDup; auto|]. split.
  - intros x y. rewrite edges_In by auto. split.
    + intros (a & Ha). apply A in Ha. destruct Ha as (i & j & Hi & Hj & -> & -> & Q & _). exists i, j. repeat split; auto. apply H; auto.
    + intros (i & j & Hi & Hj & -> & -> & Q). exists (weight_attrs "unknown" (entry d w i j)). apply A. exists i, j.
      repeat split; auto. apply H; auto.
  - intros i j Hi Hj K. apply A. exists i, j. destruct (H i j Hi Hj) as [H1 H2]. repeat split; auto; [apply H1; auto|].
    rewrite (H2 K). reflexivity.
Qed.

Lemma from_numpy_graph fuel opt eh X p t g : from_numpy fuel opt eh X p t = Ok g ->
  exists w, learned_vector opt (m_cols X * m_cols X) p w /\
    graph_of g (m_cols X) node "unknown" (entry (m_cols X) w) (keep_gt (w_threshold p)) /\
    (respects_bounds opt -> Forall2 in_bound (bnds_matrix t free (m_cols X)) w).
Proof.
  unfold from_numpy. destruct (all_finite X); cbn [negb]; [|discriminate]. destruct (m_size X =? 0); [discriminate|].
  intros H. apply bind_ok in H. destruct H as ([s b] & E & H). cbn [fst] in H. exists (w_est s).
  pose proof (ascent_result _ _ _ _ _ _ _ _ _ E) as R. split; [|split].
  - destruct R as [(A & _ & B & _)|(A & _ & (r & a & x & B) & _)]; [left; auto|right; split; auto].
    eexists _, r, a, x, _. exact B.
  - eapply matrix_graph_of; [exact H|]. intros i j Hi Hj. rewrite cut_le_entry. unfold keep_gt.
    destruct (qle _ _) eqn:Q.
    + apply qle_iff in Q. split; [|intros [_ X1]; exfalso; apply (Qclt_not_le _ _ X1); auto].
      split; [congruence|]. intros [_ X1]. exfalso. apply (Qclt_not_le _ _ X1); auto.
    + apply qle_false in Q. tauto.
  - intros RB. destruct R as [(A & _ & B & _)|(A & _ & (r & a & x & B) & _)]; rewrite B.
    + assert (F : Forall (fun b => in_bound b 0%Qc) (bnds_matrix t free (m_cols X))).
      { apply Forall_forall. intros c Hc. unfold bnds_matrix in Hc. apply in_flat_map in Hc. destruct Hc as (i & _ & Hc).
        apply in_map_iff in Hc. destruct Hc as (j & <- & _). unfold bnd.
        assert (Z : in_bound fixed0 0%Qc) by (apply in_fixed0; auto). repeat match goal with |- in_bound (if ?b then _ else _) _ => destruct b; auto end. apply in_free. }
      rewrite <- (bnds_length t free (m_cols X)). clear - F. induction F; cbn; constructor; auto.
    + apply RB. apply feasible_matrix. auto.
Qed.

Lemma graph_no_ban g d w keep t o : graph_of g d node "unknown" (entry d w) keep -> (forall x, keep x -> x <> 0%Qc) ->
  Forall2 in_bound (bnds_matrix t o d) w -> (forall u v, In (u, v) (edges g) ->
    exists i j, i < d /\ j < d /\ u = LInt (Z.of_nat i) /\ v = LInt (Z.of_nat j) /\ i <> j /\ ~ banned t (Z.of_nat i) (Z.of_nat j)).
Proof.
  intros (_ & _ & G & _) K F u v H. apply G in H. destruct H as (i & j & Hi & Hj & -> & -> & Kw). exists i, j.
  assert (N : forall P : Prop, (P -> bnd t o i j = fixed0) -> ~ P).
  { intros P HP Hp. apply (K _ Kw). unfold entry.
    pose proof (Forall2_nth _ _ _ (i * d + j) fixed0 0%Qc F) as B. rewrite bnds_entry, (HP Hp) in B by auto.
    apply in_fixed0. apply B. rewrite bnds_length. apply index_lt; auto. }
  repeat split; auto; apply N; intros; apply bnd_banned; auto.
Qed.

Theorem numpy_no_ban fuel opt eh X p t g : respects_bounds opt -> from_numpy fuel opt eh X p t = Ok g ->
  forall u v, In (u, v) (edges g) ->
    exists i j, i < m_cols X /\ j < m_cols X /\ u = LInt (Z.of_nat i) /\ v = LInt (Z.of_nat j) /\ i <> j /\ ~ banned t (Z.of_nat i) (Z.of_nat j).
Proof.
  intros RB E. destruct (from_numpy_graph _ _ _ _ _ _ _ E) as (w & _ & G & F).
  eapply graph_no_ban; eauto. intros x [H _]. auto.
Qed.

(** ** Lasso *)
Definition diff_entry (d : nat) (w : list Qc) (i j : nat) : Qc :=
  (nth (i * d + j) w 0 - nth (d * d + (i * d + j)) w 0)%Qc.

Lemma nth_combine' {A B} (l : list A) (l' : list B) n x y : n < List.length l -> n < List.length l' ->
  nth n (combine l l') (x, y) = (nth n l x, nth n l' y).
Proof.
  revert l' n. induction l as [|a l IH]; intros l' n H1 H2; cbn in *; [lia|]. destruct l' as [|b l']; cbn in *; [lia|].
  destruct n; auto. apply IH; lia.
Qed.

Lemma nth_firstn' {A} n m (l : list A) x : n < m -> nth n (firstn m l) x = nth n l x.
Proof. revert m l. induction n; intros m l H; destruct m; try lia; destruct l; cbn; auto. apply IHn. lia. Qed.
Lemma nth_skipn' {A} n m (l : list A) x : nth n (skipn m l) x = nth (m + n) l x.
Proof. revert l. induction m; intros l; cbn; auto. destruct l; [destruct n; reflexivity|apply IHm]. Qed.

Lemma lasso_entry d w i j : List.length (lasso_matrix d w) = d * d -> i < d -> j < d -> entry d (lasso_matrix d w) i j = diff_entry d w i j.
Proof.
  intros L Hi Hj. pose proof (index_lt d i j Hi Hj) as Hx. unfold entry, diff_entry, lasso_matrix, subv in *.
  rewrite map_length, combine_length, firstn_length, skipn_length in L.
  set (f := fun xy : Qc * Qc => (fst xy - snd xy)%Qc).
  replace 0%Qc with (f (0, 0)%Qc) at 1 by (unfold f; cbn; ring).
  rewrite map_nth. rewrite nth_combine'; unfold f.
  - cbn [fst snd]. rewrite nth_firstn' by auto. rewrite nth_skipn'. auto.
  - rewrite firstn_length. lia.
  - rewrite skipn_length. lia.
Qed.

Lemma cut_lt_length t w : List.length (cut_lt t w) = List.length w.
Proof. unfold cut_lt. apply map_length. Qed.

Lemma from_numpy_lasso_graph fuel opt eh X p t g : from_numpy_lasso fuel opt eh X p t = Ok g ->
  exists w, learned_vector opt (2 * m_cols X * m_cols X) p w /\
    graph_of g (m_cols X) node "unknown" (diff_entry (m_cols X) w) (keep_ge (w_threshold p)) /\
    (respects_bounds opt -> Forall2 in_bound (bnds_matrix t nonneg (m_cols X) ++ bnds_matrix t nonneg (m_cols X)) w).
Proof.
  unfold from_numpy_lasso. set (d := m_cols X). destruct (all_finite X); cbn [negb]; [|discriminate]. destruct (m_size X =? 0); [discriminate|].
  intros H. apply bind_ok in H. destruct H as ([s b] & E & H). cbn [fst] in H. exists (w_est s).
  pose proof (ascent_result _ _ _ _ _ _ _ _ _ E) as R. split; [|split].
  - destruct R as [(A & _ & B & _)|(A & _ & (r & a & x & B) & _)]; [left; auto|right; split; auto].
    eexists _, r, a, x, _. exact B.
  - assert (L : List.length (lasso_matrix d (w_est s)) = d * d).
    { unfold sm_of_matrix in H. rewrite cut_lt_length in H. destruct (_ =? _) eqn:L; [|discriminate]. apply Nat.eqb_eq; auto. }
    eapply matrix_graph_of; [exact H|]. intros i j Hi Hj. rewrite cut_lt_entry, lasso_entry by auto. unfold keep_ge.
    destruct (qlt _ _) eqn:Q.
    + apply qlt_iff in Q. split; [|intros [_ X1]; exfalso; apply (Qclt_not_le _ _ Q); auto].
      split; [congruence|]. intros [_ X1]. exfalso. apply (Qclt_not_le _ _ Q); auto.
    + apply qlt_false in Q. tauto.
  - intros RB. destruct R as [(A & _ & B & _)|(A & _ & (r & a & x & B) & _)]; rewrite B.
    + assert (F : Forall (fun b => in_bound b 0%Qc) (bnds_matrix t nonneg d ++ bnds_matrix t nonneg d)).
      { apply Forall_forall. intros c Hc. rewrite in_app_iff in Hc.
        assert (Hc' : In c (bnds_matrix t nonneg d)) by tauto. unfold bnds_matrix in Hc'. apply in_flat_map in Hc'. destruct Hc' as (i & _ & Hc').
        apply in_map_iff in Hc'. destruct Hc' as (j & <- & _). unfold bnd.
        assert (Z : in_bound fixed0 0%Qc) by (apply in_fixed0; auto). repeat match goal with |- in_bound (if ?b then _ else _) _ => destruct b; auto end. apply in_nonneg. apply Qcle_refl. }
      replace (2 * d * d) with (List.length (bnds_matrix t nonneg d ++ bnds_matrix t nonneg d)) by (rewrite app_length, !bnds_length; lia).
      clear - F. induction F; cbn; constructor; auto.
    + apply RB. apply Forall_app. split; apply feasible_matrix; auto.
Qed.

Theorem numpy_lasso_no_ban fuel opt eh X p t g : respects_bounds opt -> from_numpy_lasso fuel opt eh X p t = Ok g ->
  forall u v, In (u, v) (edges g) ->
    exists i j, i < m_cols X /\ j < m_cols X /\ u = LInt (Z.of_nat i) /\ v = LInt (Z.of_nat j) /\ i <> j /\ ~ banned t (Z.of_nat i) (Z.of_nat j).
Proof.
  intros RB E u v H. destruct (from_numpy_lasso_graph _ _ _ _ _ _ _ E) as (w & _ & G & F). specialize (F RB).
  set (d := m_cols X) in *. destruct G as (_ & _ & G & _). apply G in H. destruct H as (i & j & Hi & Hj & -> & -> & Kw & _). exists i, j.
  assert (N : forall P : Prop, (P -> bnd t nonneg i j = fixed0) -> ~ P).
  { intros P HP Hp. apply Kw. unfold diff_entry. pose proof (index_lt d i j Hi Hj) as Hx.
    pose proof (Forall2_nth _ _ _ (i * d + j) fixed0 0%Qc F) as B1. rewrite app_length, !bnds_length in B1.
    rewrite app_nth1, bnds_entry, (HP Hp) in B1 by (rewrite ?bnds_length; auto).
    pose proof (Forall2_nth _ _ _ (d * d + (i * d + j)) fixed0 0%Qc F) as B2. rewrite app_length, !bnds_length in B2.
    rewrite app_nth2, bnds_length in B2 by (rewrite bnds_length; lia). replace (d * d + (i * d + j) - d * d) with (i * d + j) in B2 by lia.
    rewrite bnds_entry, (HP Hp) in B2 by auto.
    assert (Z1 := proj1 (in_fixed0 _) (B1 ltac:(lia))). assert (Z2 := proj1 (in_fixed0 _) (B2 ltac:(lia))). rewrite Z1, Z2. ring. }
  repeat split; auto; apply N; intros; apply bnd_banned; auto.
Qed.

(** ** From pandas *)
Lemma col_index_app cols : forall i d, NoDup (map fst d ++ cols) -> col_index i cols d = d ++ combine cols (seq i (List.length cols)).
Proof.
  induction cols as [|c cols IH]; intros i d H; cbn; [rewrite app_nil_r; auto|].
  assert (E : dset label_eqb d c i = d ++ [(c, i)]).
  { apply NoDup_remove_2 in H. clear - H. induction d as [|[k v] d IH]; cbn in *; auto.
    destruct (label_eqb_spec c k) as [->|N]; [tauto|]. rewrite IH; auto. }
  rewrite E, IH; rewrite ?map_app, <- app_assoc; cbn; auto.
Qed.

Lemma col_idx_combine cols : NoDup cols -> col_idx cols = combine cols (seq 0 (List.length cols)).
Proof. intros H. unfold col_idx. rewrite col_index_app; auto. Qed.

Lemma combine_nth_In (cols : list label) : forall s i c, nth_error cols i = Some c -> In (c, s + i) (combine cols (seq s (List.length cols))).
Proof.
  induction cols as [|x cols IH]; intros s [|i] c H; cbn in *; try discriminate.
  - injection H as ->. left. f_equal. lia.
  - right. replace (s + S i) with (S s + i) by lia. apply IH. auto.
Qed.
Lemma combine_In_nth (cols : list label) : forall s k c, In (c, k) (combine cols (seq s (List.length cols))) -> exists i, k = s + i /\ nth_error cols i = Some c.
Proof.
  induction cols as [|x cols IH]; intros s k c H; cbn in *; [tauto|]. destruct H as [[= -> ->]|H].
  - exists 0. split; auto.
  - apply IH in H. destruct H as (i & -> & H). exists (S i). split; auto. lia.
Qed.

Lemma map_fst_combine (cols : list label) s : map fst (combine cols (seq s (List.length cols))) = cols.
Proof. revert s. induction cols; intros s; cbn; auto. f_equal; auto. Qed.

Lemma idx_of_nth cols i c : NoDup cols -> nth_error cols i = Some c -> idx_of (col_idx cols) c = Ok (Z.of_nat i).
Proof.
  intros ND H. unfold idx_of. rewrite col_idx_combine by auto.
  rewrite (In_dget _ label_eqb_spec _ c i); auto.
  - unfold dkeys. rewrite map_fst_combine. auto.
  - apply (combine_nth_In cols 0 i c H).
Qed.

Lemma col_of_nth cols i c : NoDup cols -> nth_error cols i = Some c -> col_of (col_idx cols) (node i) = Ok c.
Proof.
  intros ND H. unfold col_of. rewrite col_idx_combine by auto.
  destruct (find _ _) as [[c' k]|] eqn:F.
  - apply find_some in F. destruct F as [F E]. cbn [snd] in E. destruct (label_eqb_spec (node k) (node i)) as [En|]; [|discriminate E].
    apply node_inj in En. subst k. apply combine_In_nth in F. destruct F as (i' & -> & F). cbn in H. cbn. congruence.
  - exfalso. apply find_none with (x := (c, i)) in F; [|apply (combine_nth_In cols 0 i c H)]. cbn [snd] in F.
    destruct (label_eqb_spec (node i) (node i)); congruence.
Qed.

Definition col_name (cols : list label) (i : nat) : label := nth i cols (LInt 0).

Lemma col_name_nth cols i : i < List.length cols -> nth_error cols i = Some (col_name cols i).
Proof. intros H. unfold col_name. apply nth_error_nth'. auto. Qed.

Lemma map_col_name cols : map (col_name cols) (seq 0 (List.length cols)) = cols.
Proof.
  unfold col_name. induction cols as [|c cols IH]; cbn; auto. f_equal. rewrite <- seq_shift, map_map. auto.
Qed.

Lemma tabu_index_ban cols t tz i j : NoDup cols -> tabu_index (col_idx cols) t = Ok tz -> i < List.length cols -> j < List.length cols ->
  banned t (col_name cols i) (col_name cols j) -> banned tz (Z.of_nat i) (Z.of_nat j).
Proof.
  intros ND E Hi Hj B. unfold tabu_index in E. apply bind_ok in E. destruct E as (e & E1 & E). apply bind_ok in E. destruct E as (q & E2 & E).
  apply bind_ok in E. destruct E as (c & E3' & E). injection E as <-.
  assert (Ni := idx_of_nth cols i _ ND (col_name_nth cols i Hi)). assert (Nj := idx_of_nth cols j _ ND (col_name_nth cols j Hj)).
  assert (F : forall A B (f : A -> res B) l l' x y, mapM f l = Ok l' -> In x l -> f x = Ok y -> In y l').
  { intros A B0 f l l' x y M Hx Hf. apply mapM_ok in M. induction M as [|a b l l' Hab M IH]; [destruct Hx|]. destruct Hx as [->|Hx]; [left; congruence|right; auto]. }
  destruct B as [(l & El & I)|[(l & El & I)|(l & El & I)]]; rewrite El in *; cbn [opt_mapM] in *.
  - apply bind_ok in E1. destruct E1 as (l' & M & [= <-]). left. exists l'. split; auto. eapply F; eauto. cbn [fst snd]. rewrite Ni. cbn. rewrite Nj. auto.
  - apply bind_ok in E2. destruct E2 as (l' & M & [= <-]). right; left. exists l'. split; auto. eapply F; eauto.
  - apply bind_ok in E3'. destruct E3' as (l' & M & [= <-]). right; right. exists l'. split; auto. eapply F; eauto.
Qed.

Lemma idx_of_inv cols c i : NoDup cols -> idx_of (col_idx cols) c = Ok (Z.of_nat i) -> col_name cols i = c.
Proof.
  intros ND. unfold idx_of. rewrite col_idx_combine by auto. destruct (dget _ _ _) as [k|] eqn:E; [|discriminate]. intros [= H].
  apply Nat2Z.inj in H. subst k. apply (dget_In _ label_eqb_spec) in E. apply combine_In_nth in E. destruct E as (k & -> & E).
  unfold col_name. cbn. apply nth_error_nth. auto.
Qed.

Lemma tabu_index_ban_inv cols t tz i j : NoDup cols -> tabu_index (col_idx cols) t = Ok tz ->
  banned tz (Z.of_nat i) (Z.of_nat j) -> banned t (col_name cols i) (col_name cols j).
Proof.
  intros ND E B. unfold tabu_index in E. apply bind_ok in E. destruct E as (e & E1 & E). apply bind_ok in E. destruct E as (q & E2 & E).
  apply bind_ok in E. destruct E as (c & E3' & E). injection E as <-.
  assert (F : forall A B (f : A -> res B) l l' y, mapM f l = Ok l' -> In y l' -> exists x, In x l /\ f x = Ok y).
  { intros A B0 f l l' y M Hy. apply mapM_ok in M. induction M as [|a b l l' Hab M IH]; [destruct Hy|].
    destruct Hy as [->|Hy]; [exists a; split; auto; left; auto|]. destruct (IH Hy) as (x & Hx & Ex). exists x. split; auto. right; auto. }
  destruct B as [(l & El & I)|[(l & El & I)|(l & El & I)]]; cbn in El; subst.
  - destruct (t_edges t) as [l0|] eqn:T; cbn [opt_mapM] in E1; [|discriminate]. apply bind_ok in E1. destruct E1 as (l' & M & [= ->]).
    destruct (F _ _ _ _ _ _ M I) as ([u v] & Iu & Eu). cbn [fst snd] in Eu. apply bind_ok in Eu. destruct Eu as (a & Ea & Eu). apply bind_ok in Eu. destruct Eu as (b & Eb & Eu).
    injection Eu as -> ->. apply idx_of_inv in Ea; auto. apply idx_of_inv in Eb; auto. left. exists l0. split; auto. congruence.
  - destruct (t_parents t) as [l0|] eqn:T; cbn [opt_mapM] in E2; [|discriminate]. apply bind_ok in E2. destruct E2 as (l' & M & [= ->]).
    destruct (F _ _ _ _ _ _ M I) as (u & Iu & Eu). apply idx_of_inv in Eu; auto. right; left. exists l0. split; auto. congruence.
  - destruct (t_children t) as [l0|] eqn:T; cbn [opt_mapM] in E3'; [|discriminate]. apply bind_ok in E3'. destruct E3' as (l' & M & [= ->]).
    destruct (F _ _ _ _ _ _ M I) as (u & Iu & Eu). apply idx_of_inv in Eu; auto. right; right. exists l0. split; auto. congruence.
Qed.

Lemma NoDup_fst_fun {A B} (l : list (A * B)) k v v' : NoDup (map fst l) -> In (k, v) l -> In (k, v') l -> v = v'.
Proof.
  induction l as [|[a b] l IH]; cbn; [tauto|]. intros N H1 H2. apply NoDup_cons_iff in N. destruct N as [N ND].
  assert (P : forall x, In (k, x) l -> a <> k) by (intros x Hx E; subst; apply N; apply in_map_iff; exists (k, x); auto).
  destruct H1 as [[= -> ->]|H1]; destruct H2 as [[= E]|H2]; auto.
  - exfalso. eapply P; eauto.
  - subst. exfalso. eapply P; eauto.
Qed.

Lemma edges_data_attrs g u v a b : NoDup (edges g) -> In (u, v, a) (edges_data g) -> edge_attrs g u v = Some b -> a = b.
Proof.
  intros N I E. unfold edge_attrs, succ_of in E. destruct (dget label_eqb g u) as [s|] eqn:Es; [|discriminate].
  apply (dget_In _ label_eqb_spec) in Es. apply (dget_In _ label_eqb_spec) in E.
  apply (NoDup_fst_fun (edges_data g) (u, v)); auto. unfold edges_data. apply in_flat_map. exists (u, s). split; auto.
  apply in_map_iff. exists (v, b). auto.
Qed.

(** The data frame result is the array result with the names of the columns. *)
Lemma from_pandas_graph learn X t g : NoDup (map fst (f_cols X)) -> from_pandas learn X t = Ok g ->
  exists tz g0, tabu_index (col_idx (map fst (f_cols X))) t = Ok tz /\
    learn (mkMat (List.length (f_cols X)) (f_rows X)) tz = Ok g0 /\
    forall o w keep, graph_of g0 (List.length (f_cols X)) node o w keep ->
      graph_of g (List.length (f_cols X)) (col_name (map fst (f_cols X))) "learned" w keep.
Proof.
  intros ND. unfold from_pandas. set (cols := map fst (f_cols X)) in *. destruct (forallb snd (f_cols X)); cbn [negb]; [|discriminate].
  intros H. apply bind_ok in H. destruct H as (tz & Et & H). apply bind_ok in H. destruct H as (g0 & El & H).
  apply bind_ok in H. destruct H as (es & Ee & H).
  assert (L : List.length cols = List.length (f_cols X)) by apply map_length.
  rewrite L in El. exists tz, g0. split; auto. split; auto. intros o w keep (N0 & ND0 & G & A). rewrite <- L in *. set (d := List.length cols) in *.
  set (colf := fun u => match col_of (col_idx cols) u with Ok c => c | Err _ => u end).
  assert (Cf : forall i, i < d -> colf (node i) = col_name cols i).
  { intros i Hi. unfold colf. rewrite (col_of_nth cols i (col_name cols i)); auto. apply col_name_nth; auto. }
  assert (Ed : forall e, In e (edges_data g0) -> exists i j, i < d /\ j < d /\ fst e = (node i, node j) /\ keep (w i j) /\
             (edge_attrs g0 (node i) (node j) = Some [("origin", AStr o); ("weight", ANum (w i j))])).
  { intros e He. assert (X1 : In (fst e) (edges g0)) by (apply in_map; auto). rewrite (surjective_pairing (fst e)) in X1. apply G in X1.
    destruct X1 as (i & j & Hi & Hj & E1 & E2 & K). exists i, j. repeat split; auto. rewrite (surjective_pairing (fst e)). congruence. }
  set (ws := map (fun e => (colf (fst (fst e)), colf (snd (fst e)), weight_of (snd e))) (edges_data g0)).
  assert (Ews : es = map (fun e => W3 (fst (fst e)) (snd (fst e)) (snd e)) ws).
  { unfold ws. rewrite map_map. cbn [fst snd].
    assert (M : mapM (fun e : label * label * list (string * aval) => do u <- col_of (col_idx cols) (fst (fst e)); do v <- col_of (col_idx cols) (snd (fst e)); Ok (W3 u v (weight_of (snd e)))) (edges_data g0)
       = Ok (map (fun x => W3 (colf (fst (fst x))) (colf (snd (fst x))) (weight_of (snd x))) (edges_data g0))).
    { apply mapM_ok_intro. intros e He. destruct (Ed e He) as (i & j & Hi & Hj & E & _). rewrite E. cbn [fst snd].
      rewrite !Cf by auto. rewrite (col_of_nth cols i (col_name cols i)), (col_of_nth cols j (col_name cols j)) by (auto; apply col_name_nth; auto). auto. }
    rewrite Ee in M. congruence. }
  assert (Inj : forall i j, i < d -> j < d -> col_name cols i = col_name cols j -> i = j).
  { intros i j Hi Hj E. apply (proj1 (NoDup_nth cols (LInt 0)) ND); auto. }
  destruct (weighted_build cols ws) as (g' & E' & W' & N' & A').
  - auto.
  - unfold ws. rewrite map_map. cbn [fst].
    rewrite <- (map_map fst (fun uv : label * label => (colf (fst uv), colf (snd uv)))). fold (edges g0).
    assert (Ie : forall a b, In a (edges g0) -> In b (edges g0) -> (colf (fst a), colf (snd a)) = (colf (fst b), colf (snd b)) -> a = b).
    { intros [a1 a2] [b1 b2] Ha Hb. apply G in Ha. apply G in Hb. destruct Ha as (i & j & Hi & Hj & -> & -> & _). destruct Hb as (k & l & Hk & Hl & -> & -> & _).
      cbn [fst snd]. rewrite !Cf by auto. intros [= E1 E2]. apply Inj in E1; auto. apply Inj in E2; auto. congruence. }
    clear - Ie ND0. induction (edges g0) as [|a l IH]; cbn; [constructor|]. apply NoDup_cons_iff in ND0. destruct ND0 as [N ND0]. constructor.
    + intros I. apply in_map_iff in I. destruct I as (b & E & I). apply N. replace a with b; auto. apply Ie; [right; auto|left; auto|exact E].
    + apply IH; auto. intros; apply Ie; auto; right; auto.
  - intros u v x I. unfold ws in I. apply in_map_iff in I. destruct I as (e & [= <- <- _] & I). destruct (Ed e I) as (i & j & Hi & Hj & E & _).
    rewrite E. cbn [fst snd]. rewrite !Cf by auto. split; apply nth_In; auto.
  - rewrite Ews in H. unfold sm_result in H. rewrite E' in H. cbn in H. injection H as ->.
    assert (Wt : forall u v x, In (u, v, x) ws <-> exists i j, i < d /\ j < d /\ u = col_name cols i /\ v = col_name cols j /\ keep (w i j) /\ x = ANum (w i j)).
    { intros u v x. unfold ws. rewrite in_map_iff. split.
      - intros (e & [= <- <- <-] & I). destruct (Ed e I) as (i & j & Hi & Hj & E & K & Ea). exists i, j. rewrite E. cbn [fst snd]. rewrite !Cf by auto.
        repeat split; auto.
        assert (Wa : snd e = [("origin", AStr o); ("weight", ANum (w i j))]).
        { apply (edges_data_attrs g0 (node i) (node j)); auto. rewrite <- E, <- surjective_pairing; auto. }
        rewrite Wa. reflexivity.
      - intros (i & j & Hi & Hj & -> & -> & K & ->).
        assert (I : In (node i, node j) (edges g0)) by (apply G; exists i, j; auto).
        unfold edges in I. apply in_map_iff in I. destruct I as (e & E & I). exists e. split; auto. rewrite E. cbn [fst snd]. rewrite !Cf by auto.
        f_equal.
        destruct (Ed e I) as (i' & j' & Hi' & Hj' & E2 & K' & Ea). rewrite E in E2. injection E2 as E2a E2b. apply Nat2Z.inj in E2a, E2b. subst i' j'.
        assert (Wa : snd e = [("origin", AStr o); ("weight", ANum (w i j))]).
        { apply (edges_data_attrs g0 (node i) (node j)); auto. rewrite <- E, <- surjective_pairing; auto. }
        rewrite Wa. reflexivity. }
    split; [rewrite N'; symmetry; apply map_col_name|]. split; [apply edges_NoDup; auto|]. split.
    + intros u v. rewrite edges_In by auto. split.
      * intros (a & Ha). apply A' in Ha. destruct Ha as (x & I & _). apply Wt in I. destruct I as (i & j & Hi & Hj & -> & -> & K & _). exists i, j. auto.
      * intros (i & j & Hi & Hj & -> & -> & K). eexists. apply A'. exists (ANum (w i j)). split; [apply Wt; exists i, j; auto 10|reflexivity].
    + intros i j Hi Hj K. apply A'. exists (ANum (w i j)). split; auto. apply Wt. exists i, j. auto 10.
Qed.

Theorem pandas_no_ban learn X t g : NoDup (map fst (f_cols X)) ->
  (forall M tz g0, learn M tz = Ok g0 -> (exists w keep, graph_of g0 (m_cols M) node "unknown" w keep) /\
     forall u v, In (u, v) (edges g0) -> exists i j, i < m_cols M /\ j < m_cols M /\ u = LInt (Z.of_nat i) /\ v = LInt (Z.of_nat j) /\ i <> j /\ ~ banned tz (Z.of_nat i) (Z.of_nat j)) ->
  from_pandas learn X t = Ok g -> forall u v, In (u, v) (edges g) ->
    In u (map fst (f_cols X)) /\ In v (map fst (f_cols X)) /\ u <> v /\ ~ banned t u v.
Proof.
  intros ND HL E u v H. destruct (from_pandas_graph learn X t g ND E) as (tz & g0 & Et & E0 & G).
  destruct (HL _ _ _ E0) as [(w & keep & G0) B]. cbn [m_cols] in *. pose proof (G _ _ _ G0) as G1.
  destruct G1 as (_ & _ & G1 & _). apply G1 in H. destruct H as (i & j & Hi & Hj & -> & -> & K).
  assert (I0 : In (node i, node j) (edges g0)) by (apply G0; exists i, j; auto).
  destruct (B _ _ I0) as (i' & j' & _ & _ & Ei & Ej & N & NB). apply node_inj in Ei, Ej. subst i' j'.
  rewrite <- (map_length fst (f_cols X)) in Hi, Hj. set (cols := map fst (f_cols X)) in *.
  split; [apply nth_In; auto|]. split; [apply nth_In; auto|]. split.
  - intros Ec. apply N. apply (proj1 (NoDup_nth cols (LInt 0)) ND); auto.
  - intros Bt. apply NB. eapply tabu_index_ban; eauto.
Qed.

Lemma numpy_learns fuel opt eh p M tz g0 : respects_bounds opt -> from_numpy fuel opt eh M p tz = Ok g0 ->
  (exists w keep, graph_of g0 (m_cols M) node "unknown" w keep) /\
  forall u v, In (u, v) (edges g0) -> exists i j, i < m_cols M /\ j < m_cols M /\ u = LInt (Z.of_nat i) /\ v = LInt (Z.of_nat j) /\ i <> j /\ ~ banned tz (Z.of_nat i) (Z.of_nat j).
Proof.
  intros RB E. split; [|eapply numpy_no_ban; eauto]. destruct (from_numpy_graph _ _ _ _ _ _ _ E) as (w & _ & G & _). eauto.
Qed.
Lemma numpy_lasso_learns fuel opt eh p M tz g0 : respects_bounds opt -> from_numpy_lasso fuel opt eh M p tz = Ok g0 ->
  (exists w keep, graph_of g0 (m_cols M) node "unknown" w keep) /\
  forall u v, In (u, v) (edges g0) -> exists i j, i < m_cols M /\ j < m_cols M /\ u = LInt (Z.of_nat i) /\ v = LInt (Z.of_nat j) /\ i <> j /\ ~ banned tz (Z.of_nat i) (Z.of_nat j).
Proof.
  intros RB E. split; [|eapply numpy_lasso_no_ban; eauto]. destruct (from_numpy_lasso_graph _ _ _ _ _ _ _ E) as (w & _ & G & _). eauto.
Qed.

Theorem pandas_plain_no_ban fuel opt eh X p t g : respects_bounds opt -> NoDup (map fst (f_cols X)) ->
  notears_pandas fuel opt eh X p t = Ok g -> forall u v, In (u, v) (edges g) ->
    In u (map fst (f_cols X)) /\ In v (map fst (f_cols X)) /\ u <> v /\ ~ banned t u v.
Proof. intros RB ND E. eapply pandas_no_ban; eauto. intros M tz g0. apply numpy_learns; auto. Qed.
Theorem pandas_lasso_no_ban fuel opt eh X p t g : respects_bounds opt -> NoDup (map fst (f_cols X)) ->
  notears_pandas_lasso fuel opt eh X p t = Ok g -> forall u v, In (u, v) (edges g) ->
    In u (map fst (f_cols X)) /\ In v (map fst (f_cols X)) /\ u <> v /\ ~ banned t u v.
Proof. intros RB ND E. eapply pandas_no_ban; eauto. intros M tz g0. apply numpy_lasso_learns; auto. Qed.

(** Names that are not columns *)
Lemma idx_of_unknown cols c : NoDup cols -> ~ In c cols -> idx_of (col_idx cols) c = Err KeyError.
Proof.
  intros ND H. unfold idx_of. rewrite col_idx_combine by auto. replace (dget label_eqb _ c) with (@None nat); auto.
  symmetry. apply (dget_None _ label_eqb_spec). unfold dkeys. rewrite map_fst_combine. auto.
Qed.
Lemma idx_of_err cols c e : idx_of (col_idx cols) c = Err e -> e = KeyError.
Proof. unfold idx_of. destruct (dget _ _ _); congruence. Qed.

Lemma tabu_index_unknown cols t u v l : NoDup cols -> t_edges t = Some l -> In (u, v) l -> ~ (In u cols /\ In v cols) ->
  tabu_index (col_idx cols) t = Err KeyError.
Proof.
  intros ND El I N. unfold tabu_index. rewrite El. cbn [opt_mapM].
  set (f := fun uv : label * label => _).
  assert (Fe : forall x e, f x = Err e -> e = KeyError).
  { intros [a b] e. unfold f. cbn [fst snd]. destruct (idx_of _ a) eqn:Ea; cbn; [|intros [= <-]; eapply idx_of_err; eauto].
    destruct (idx_of _ b) eqn:Eb; cbn; [discriminate|]. intros [= <-]. eapply idx_of_err; eauto. }
  assert (Fu : f (u, v) = Err KeyError).
  { destruct (f (u, v)) as [y|e] eqn:E; [|f_equal; eapply Fe; eauto]. exfalso. apply N. unfold f in E. cbn [fst snd] in E.
    destruct (memb label_eqb u cols) eqn:Hu; [apply (memb_In _ label_eqb_spec) in Hu|apply (memb_false _ label_eqb_spec) in Hu; rewrite (idx_of_unknown cols u) in E by auto; discriminate].
    destruct (memb label_eqb v cols) eqn:Hv; [apply (memb_In _ label_eqb_spec) in Hv|apply (memb_false _ label_eqb_spec) in Hv]; auto.
    rewrite (idx_of_unknown cols v) in E by auto. destruct (idx_of _ u); discriminate. }
  replace (mapM f l) with (@Err (list (Z * Z)) KeyError); auto. symmetry. clear - Fe Fu I. induction l as [|x l IH]; [destruct I|]. cbn.
  destruct (f x) as [y|e] eqn:E; cbn.
  - destruct I as [->|I]; [congruence|]. rewrite IH by auto. auto.
  - f_equal. eapply Fe; eauto.
Qed.

Theorem pandas_unknown_column fuel opt eh X p t u v l : NoDup (map fst (f_cols X)) ->
  forallb snd (f_cols X) = true -> t_edges t = Some l -> In (u, v) l ->
  ~ (In u (map fst (f_cols X)) /\ In v (map fst (f_cols X))) ->
  notears_pandas fuel opt eh X p t = Err KeyError /\ notears_pandas_lasso fuel opt eh X p t = Err KeyError.
Proof.
  intros ND Nu El I N. unfold notears_pandas, notears_pandas_lasso, from_pandas. rewrite Nu. cbn [negb].
  rewrite (tabu_index_unknown _ t u v l) by auto. auto.
Qed.

(** ** Results *)
Theorem numpy_result fuel opt eh X p t g : from_numpy fuel opt eh X p t = Ok g ->
  exists w, learned_vector opt (m_cols X * m_cols X) p w /\
    graph_of g (m_cols X) (fun i => LInt (Z.of_nat i)) "unknown" (fun i j => nth (i * m_cols X + j) w 0%Qc)
      (fun x => x <> 0%Qc /\ (w_threshold p < Qcabs x)%Qc).
Proof. intros E. destruct (from_numpy_graph _ _ _ _ _ _ _ E) as (w & A & G & _). exists w. split; auto. Qed.
Theorem numpy_lasso_result fuel opt eh X p t g : from_numpy_lasso fuel opt eh X p t = Ok g ->
  let d := m_cols X in
  exists w, learned_vector opt (2 * d * d) p w /\
    graph_of g d (fun i => LInt (Z.of_nat i)) "unknown" (fun i j => nth (i * d + j) w 0 - nth (d * d + (i * d + j)) w 0)%Qc
      (fun x => x <> 0%Qc /\ (w_threshold p <= Qcabs x)%Qc).
Proof. intros E d. destruct (from_numpy_lasso_graph _ _ _ _ _ _ _ E) as (w & A & G & _). exists w. split; auto. Qed.

Theorem pandas_result fuel opt eh X p t g : NoDup (map fst (f_cols X)) -> notears_pandas fuel opt eh X p t = Ok g ->
  let d := List.length (f_cols X) in
  exists w, learned_vector opt (d * d) p w /\
    graph_of g d (fun i => nth i (map fst (f_cols X)) (LInt 0)) "learned" (fun i j => nth (i * d + j) w 0%Qc)
      (fun x => x <> 0%Qc /\ (w_threshold p < Qcabs x)%Qc).
Proof.
  intros ND E d. destruct (from_pandas_graph _ X t g ND E) as (tz & g0 & _ & E0 & G).
  destruct (numpy_result _ _ _ _ _ _ _ E0) as (w & A & G0). exists w. split; auto. exact (G _ _ _ G0).
Qed.
Theorem pandas_lasso_result fuel opt eh X p t g : NoDup (map fst (f_cols X)) -> notears_pandas_lasso fuel opt eh X p t = Ok g ->
  let d := List.length (f_cols X) in
  exists w, learned_vector opt (2 * d * d) p w /\
    graph_of g d (fun i => nth i (map fst (f_cols X)) (LInt 0)) "learned" (fun i j => nth (i * d + j) w 0 - nth (d * d + (i * d + j)) w 0)%Qc
      (fun x => x <> 0%Qc /\ (w_threshold p <= Qcabs x)%Qc).
Proof.
  intros ND E d. destruct (from_pandas_graph _ X t g ND E) as (tz & g0 & _ & E0 & G).
  destruct (numpy_lasso_result _ _ _ _ _ _ _ E0) as (w & A & G0). exists w. split; auto. exact (G _ _ _ G0).
Qed.

Theorem pandas_is_numpy fuel opt eh X p t g : NoDup (map fst (f_cols X)) -> notears_pandas fuel opt eh X p t = Ok g ->
  let cols := map fst (f_cols X) in
  let d := List.length (f_cols X) in
  exists tz g0, from_numpy fuel opt eh (mkMat d (f_rows X)) p tz = Ok g0 /\
    (forall i j, i < d -> j < d -> (banned tz (Z.of_nat i) (Z.of_nat j) <-> banned t (nth i cols (LInt 0)) (nth j cols (LInt 0)))) /\
    nodes g = cols /\
    (forall i j, i < d -> j < d ->
       (In (nth i cols (LInt 0), nth j cols (LInt 0)) (edges g) <-> In (LInt (Z.of_nat i), LInt (Z.of_nat j)) (edges g0)) /\
       (forall a, edge_attrs g0 (LInt (Z.of_nat i)) (LInt (Z.of_nat j)) = Some a ->
          exists a', edge_attrs g (nth i cols (LInt 0)) (nth j cols (LInt 0)) = Some a' /\ dget String.eqb a' "weight" = dget String.eqb a "weight")).
Proof.
  intros ND E cols d. destruct (from_pandas_graph _ X t g ND E) as (tz & g0 & Et & E0 & G). exists tz, g0. split; auto.
  assert (Lc : List.length cols = d) by apply map_length.
  split. { intros i j Hi Hj. split; [apply tabu_index_ban_inv; auto|apply tabu_index_ban; auto; lia]. }
  destruct (numpy_result _ _ _ _ _ _ _ E0) as (w & A & G0). pose proof (G _ _ _ G0) as G1.
  assert (Wf : forall u v a, edge_attrs g0 u v = Some a -> In (u, v) (edges g0)).
  { intros u v a Ea. unfold edge_attrs, succ_of in Ea. destruct (dget label_eqb g0 u) as [s|] eqn:Es; [|discriminate].
    apply (dget_In _ label_eqb_spec) in Es. apply (dget_In _ label_eqb_spec) in Ea. unfold edges. apply in_map_iff. exists (u, v, a). split; auto.
    unfold edges_data. apply in_flat_map. exists (u, s). split; auto. apply in_map_iff. exists (v, a). auto. }
  destruct G0 as (_ & _ & Ed0 & At0). destruct G1 as (N1 & _ & Ed1 & At1).
  assert (L : List.length cols = d) by apply map_length.
  split. { rewrite N1. unfold cols. rewrite <- (map_length fst (f_cols X)). apply map_col_name. }
  assert (Inj : forall i j, i < d -> j < d -> nth i cols (LInt 0) = nth j cols (LInt 0) -> i = j).
  { intros i j Hi Hj. apply (proj1 (NoDup_nth cols (LInt 0)) ND); lia. }
  intros i j Hi Hj. split.
  - rewrite Ed0, Ed1. split; intros (i' & j' & Hi' & Hj' & Ei & Ej & K).
    + unfold col_name in Ei, Ej. apply Inj in Ei; auto. apply Inj in Ej; auto. subst i' j'. exists i, j. auto.
    + injection Ei as Ei. injection Ej as Ej. apply Nat2Z.inj in Ei, Ej. subst i' j'. exists i, j. auto.
  - intros a Ea. pose proof (Wf _ _ _ Ea) as I. apply Ed0 in I. destruct I as (i' & j' & _ & _ & Ei & Ej & K).
    injection Ei as Ei. injection Ej as Ej. apply Nat2Z.inj in Ei, Ej. subst i' j'.
    rewrite (At0 i j) in Ea by auto. injection Ea as <-. eexists. split; [apply At1; auto|]. reflexivity.
Qed.

(** ** Termination *)
Theorem numpy_terminates fuel opt eh X p t : (forall w, eh (m_cols X) w <> PInf) -> 21 <= fuel ->
  from_numpy fuel opt eh X p t <> Err OutOfFuel /\ from_numpy_lasso fuel opt eh X p t <> Err OutOfFuel.
Proof.
  intros Fi Hf.
  assert (S : forall d w, sm_of_matrix d w <> Err OutOfFuel).
  { intros d w. destruct (Nat.eq_dec (List.length w) (d * d)) as [L|L].
    - destruct (matrix_graph d w L) as (g & E & _). congruence.
    - unfold sm_of_matrix. apply Nat.eqb_neq in L. rewrite L. congruence. }
  unfold from_numpy, from_numpy_lasso. destruct (negb (all_finite X)); [split; congruence|]. destruct (m_size X =? 0); [split; congruence|]. split.
  - destruct (ascent_total (eh (m_cols X)) opt (bnds_matrix t free (m_cols X)) fuel (max_iter p) (m_cols X * m_cols X) (h_tol p)) as (s & b & E & _); auto.
    rewrite E. cbn [bind fst]. apply S.
  - match goal with |- context [dual_ascent _ _ _ ?hf _ ?bn] => destruct (ascent_total hf opt bn fuel (max_iter p) (2 * m_cols X * m_cols X) (h_tol p)) as (s & b & E & _); auto end.
    rewrite E. cbn [bind fst]. apply S.
Qed.

Lemma inner_calls_mono hf opt bnds : forall fuel s s', inner fuel hf opt bnds s = Ok s' -> calls s <= calls s'.
Proof.
  induction fuel as [|f IH]; intros s s' H; cbn [inner] in H; destruct (_ && _); try congruence; try (injection H as <-; lia).
  apply IH in H. cbn in H. lia.
Qed.

Lemma inner_ext hf (opt opt' : optimiser) bnds N : (forall r a x k, k < N -> opt bnds r a x k = opt' bnds r a x k) ->
  forall fuel s s', inner fuel hf opt bnds s = Ok s' -> calls s' <= N -> inner fuel hf opt' bnds s = Ok s'.
Proof.
  intros H. induction fuel as [|f IH]; intros s s' E L; cbn [inner] in *; destruct (_ && _); auto.
  pose proof (inner_calls_mono _ _ _ _ _ _ E) as M. cbn [calls] in M. rewrite <- H by lia. apply IH; auto.
Qed.

Lemma outer_calls_mono hf opt bnds tol fuel : forall n s s' b, outer n fuel hf opt bnds tol s = Ok (s', b) -> calls s <= calls s'.
Proof.
  induction n as [|n IH]; intros s s' b H; cbn [outer] in H; [injection H as <- <-; lia|].
  apply bind_ok in H. destruct H as (s1 & E1 & H). apply inner_calls_mono in E1. cbn [h_cur] in H.
  destruct (fle _ _); [injection H as <- <-; cbn; lia|]. destruct n; [injection H as <- <-; cbn; lia|]. apply IH in H. cbn [calls] in H. lia.
Qed.

Lemma outer_ext hf (opt opt' : optimiser) bnds tol fuel N : (forall r a x k, k < N -> opt bnds r a x k = opt' bnds r a x k) ->
  forall n s s' b, outer n fuel hf opt bnds tol s = Ok (s', b) -> calls s' <= N -> outer n fuel hf opt' bnds tol s = Ok (s', b).
Proof.
  intros Ho. induction n as [|n IH]; intros s s' b H L; cbn [outer] in *; auto.
  apply bind_ok in H. destruct H as (s1 & E1 & H). cbn [h_cur] in H.
  assert (M : calls s1 <= calls s').
  { destruct (fle _ _); [injection H as <- <-; cbn; lia|]. destruct n; [injection H as <- <-; cbn; lia|].
    apply outer_calls_mono in H. cbn [calls] in H. lia. }
  rewrite (inner_ext hf opt opt' bnds N Ho fuel s s1 E1) by lia. cbn [bind h_cur].
  destruct (fle _ _); auto. destruct n; auto.
Qed.

Theorem numpy_calls fuel (opt opt' : optimiser) eh X p t : (forall w, eh (m_cols X) w <> PInf) -> 21 <= fuel ->
  (forall bnds r a x k, k < max_iter p + 20 -> opt bnds r a x k = opt' bnds r a x k) ->
  from_numpy fuel opt eh X p t = from_numpy fuel opt' eh X p t /\
  from_numpy_lasso fuel opt eh X p t = from_numpy_lasso fuel opt' eh X p t.
Proof.
  intros Fi Hf Ho. unfold from_numpy, from_numpy_lasso. destruct (negb (all_finite X)); auto. destruct (m_size X =? 0); auto. split.
  - destruct (ascent_total (eh (m_cols X)) opt (bnds_matrix t free (m_cols X)) fuel (max_iter p) (m_cols X * m_cols X) (h_tol p)) as (s & b & E & L); auto.
    rewrite E. unfold dual_ascent in *. rewrite (outer_ext _ opt opt' _ _ _ _ (fun r a x k => Ho _ r a x k) _ _ _ _ E L). auto.
  - match goal with |- context [dual_ascent _ _ _ ?hf _ ?bn] => destruct (ascent_total hf opt bn fuel (max_iter p) (2 * m_cols X * m_cols X) (h_tol p)) as (s & b & E & L); auto end.
    rewrite E. unfold dual_ascent in *. rewrite (outer_ext _ opt opt' _ _ _ _ (fun r a x k => Ho _ r a x k) _ _ _ _ E L). auto.
Qed.
