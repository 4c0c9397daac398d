(** * TorchThms: bans, locality, the learned graph and the collapsed graph of the torch version. *)
From Coq Require Import List Bool Arith ZArith Lia String QArith Qcanon Permutation.
From Verif Require Import Base Names Digraph SmModel SmProofs SmBuild QcX NotearsModel NotearsProofs NotearsThms TorchModel TorchSpec TorchProofs.
Import ListNotations.
Local Open Scope string_scope.
Local Open Scope list_scope.
Local Open Scope nat_scope.

(** ** The prepared data *)
Lemma schema_kinds_keys d schema ks : (forall s, schema = Some s -> NoDup (map fst s)) -> schema_kinds d schema = Ok ks ->
  NoDup (map fst ks) /\ (forall i, In i (map fst ks) <-> i < d).
Proof.
  unfold schema_kinds. destruct schema as [s|].
  - intros N. specialize (N s eq_refl). destruct (forallb _ (seq 0 d) && _) eqn:C; [|discriminate]. apply andb_true_iff in C. destruct C as [C1 C2].
    intros M. apply mapM_ok in M.
    assert (E : map fst ks = map fst s).
    { clear - M. induction M as [|[i a] [j k] s ks H M IH]; cbn; auto. f_equal; auto. cbn [fst snd] in H. destruct (alias_kind a); [injection H as <- _; auto|discriminate]. }
    rewrite E. split; auto. intros i. rewrite forallb_forall in C1, C2. split.
    + intros H. apply C2 in H. apply Nat.ltb_lt; auto.
    + intros H. assert (Hs : In i (seq 0 d)) by (apply in_seq; lia). apply C1 in Hs. apply existsb_exists in Hs. destruct Hs as (j & Hj & Ej).
      apply Nat.eqb_eq in Ej. subst. auto.
  - intros _ [= <-]. rewrite map_map. cbn [fst]. rewrite map_id. split; [apply seq_NoDup|]. intros i. rewrite in_seq. lia.
Qed.

Definition start_data (X : mat) : data := mkData (m_cols X) (map (map finite_part) (m_rows X)).

Lemma start_rect X : rectangular X -> rect (start_data X).
Proof. intros R. unfold rect, start_data. cbn. apply Forall_map. eapply Forall_impl; [|exact R]. intros r H. cbn beta in *. rewrite map_length. auto. Qed.

Lemma start_column X i : column i (start_data X) = values X i.
Proof.
  unfold column, start_data, values. cbn. rewrite map_map. apply map_ext. intros r.
  change 0%Qc with (finite_part NaN). apply map_nth.
Qed.

Record facts (X : mat) (ks : list (nat * kind)) (t : tabu Z) (dts : list dtype) (X' : data) (t' : tabu Z) : Prop := mkFacts {
  fa_layout : map (fun dt => (dt_idx dt, dt_columns dt)) dts = expanded X ks;
  fa_kinds : map (fun dt => (dt_idx dt, dt_kind dt)) dts = ks;
  fa_nodup : NoDup (map dt_idx dts);
  fa_vars : forall i, In i (map dt_idx dts) <-> i < m_cols X;
  fa_good : Forall good_dt dts;
  fa_fresh : fresh_columns dts;
  fa_rect : rect X';
  fa_rows : List.length (rows X') = List.length (m_rows X);
  fa_cover : forall x, x < width X' <-> exists a, a < m_cols X /\ In x (columns_of (expanded X ks) a);
  fa_uniq : forall a b x, a < m_cols X -> b < m_cols X -> In x (columns_of (expanded X ks) a) -> In x (columns_of (expanded X ks) b) -> a = b;
  fa_cols : forall a, NoDup (columns_of (expanded X ks) a);
  fa_ban_edge : forall a b x y, zedge t a b -> In x (columns_of (expanded X ks) a) -> In y (columns_of (expanded X ks) b) -> x <> y -> zedge t' x y;
  fa_ban_same : forall a x y, a < m_cols X -> In x (columns_of (expanded X ks) a) -> In y (columns_of (expanded X ks) a) -> x <> y -> zedge t' x y;
  fa_ban_parent : forall a x, zparent t a -> In x (columns_of (expanded X ks) a) -> zparent t' x;
  fa_ban_child : forall a x, zchild t a -> In x (columns_of (expanded X ks) a) -> zchild t' x;
  fa_width : m_cols X <= width X'
}.

Lemma columns_of_In L a cs : NoDup (map fst L) -> In (a, cs) L -> columns_of L a = cs.
Proof. intros N I. unfold columns_of. rewrite (In_dget _ Nat.eqb_spec L a cs); auto. Qed.
Lemma columns_of_key L a : In a (map fst L) -> In (a, columns_of L a) L.
Proof.
  intros H. unfold columns_of. destruct (dget Nat.eqb L a) as [c|] eqn:E.
  - apply (dget_In _ Nat.eqb_spec) in E. auto.
  - exfalso. apply (dget_None _ Nat.eqb_spec) in E. auto.
Qed.

Lemma prepare_facts X schema ks t dts X' t' : rectangular X -> (forall s, schema = Some s -> NoDup (map fst s)) ->
  schema_kinds (m_cols X) schema = Ok ks -> prepare ks (start_data X) t = Ok (dts, X', t') -> facts X ks t dts X' t'.
Proof.
  intros R Ns Ek Ep. destruct (schema_kinds_keys _ _ _ Ns Ek) as [Nk Kk].
  assert (Bk : forall i, In i (map fst ks) -> i < width (start_data X)) by (intros i Hi; apply Kk; auto).
  destruct (prepare_layout ks _ _ _ _ _ (start_rect X R) Nk Bk Ep) as (L & K & G & W & R' & Rw).
  assert (D : dims_of (start_data X) ks = map (fun ik => (fst ik, n_columns (snd ik) (values X (fst ik)))) ks).
  { unfold dims_of. apply map_ext. intros [i k]. cbn [fst snd]. rewrite start_column. auto. }
  set (vs := map (fun ik => (fst ik, n_columns (snd ik) (values X (fst ik)))) ks) in *.
  assert (Vk : map fst vs = map fst ks) by (unfold vs; rewrite map_map; apply map_ext; auto).
  assert (Le : map (fun dt => (dt_idx dt, dt_columns dt)) dts = expanded X ks) by (rewrite L, D; reflexivity).
  assert (I : map dt_idx dts = map fst ks).
  { transitivity (map fst (map (fun dt => (dt_idx dt, dt_kind dt)) dts)); [rewrite map_map; apply map_ext; auto|rewrite K; auto]. }
  assert (Ke : map fst (expanded X ks) = map fst ks) by (unfold expanded; rewrite layout_keys; exact Vk).
  assert (Nv : NoDup (map fst (expanded X ks))) by (rewrite Ke; auto).
  assert (Bv : forall b, In b (map fst vs) -> b < m_cols X) by (intros b Hb; rewrite Vk in Hb; apply Kk; auto).
  assert (Nv' : NoDup (map fst vs)) by (rewrite Vk; auto).
  assert (Pin : forall a, a < m_cols X -> In (a, columns_of (expanded X ks) a) (layout (m_cols X) vs)).
  { intros a Ha. change (layout (m_cols X) vs) with (expanded X ks). apply columns_of_key. rewrite Ke. apply Kk; auto. }
  assert (Wt : width X' = total (m_cols X) vs) by (rewrite W, D; reflexivity).
  assert (Ea : forall dt, In dt dts -> In (dt_idx dt, dt_columns dt) (layout (m_cols X) vs)).
  { intros dt Hd. change (layout (m_cols X) vs) with (expanded X ks). rewrite <- Le. apply in_map_iff. eauto. }
  assert (Gd : Forall good_dt dts).
  { apply Forall_forall. intros dt Hd. unfold good_dt. destruct (dt_kind dt) eqn:Ed; auto. rewrite (G dt Hd Ed).
    pose proof (Ea dt Hd) as P. pose proof (layout_nodup vs _ _ _ Bv P) as ND.
    assert (Hx : exists ex, dt_columns dt = dt_idx dt :: ex).
    { clear - P. generalize dependent (m_cols X). induction vs as [|[b n] vs' IH]; intros w P; cbn in P; [tauto|].
      destruct P as [[= E1 E2]|P]; [rewrite <- E2, <- E1; eauto|eauto]. }
    destruct Hx as (ex & Ex). exists ex. rewrite <- Ex. auto. }
  assert (Fr : fresh_columns dts).
  { intros dt x Hd Hx Nx I'. rewrite I in I'. destruct (layout_ge vs _ _ _ _ (Ea dt Hd) Hx) as [->|Q]; [tauto|]. apply Kk in I'. lia. }
  assert (Ni : NoDup (map dt_idx dts)) by (rewrite I; auto).
  pose proof (prepare_steps _ _ _ _ _ _ Ep) as ->.
  destruct (steps_bans dts t Ni Gd Fr) as (S1 & S2 & S3 & S4).
  assert (Ec : forall a, ecols dts a = columns_of (expanded X ks) a) by (intros a; unfold ecols; rewrite Le; auto).
  constructor; auto.
  - intros i. rewrite I. apply Kk.
  - rewrite Rw. unfold start_data. cbn. apply map_length.
  - intros x. rewrite Wt. split.
    + intros Hx. destruct (layout_covers vs (m_cols X) x) as (a & cs & H1 & H2).
      { destruct (Nat.lt_ge_cases x (m_cols X)); [left; rewrite Vk; apply Kk; auto|right; lia]. }
      assert (Ia : In a (map fst (expanded X ks))) by (apply in_map_iff; exists (a, cs); auto).
      exists a. rewrite Ke in Ia. split; [apply Kk; auto|]. rewrite (columns_of_In _ a cs); auto.
    + intros (a & Ha & Hx). destruct (layout_ge vs _ _ _ _ (Pin a Ha) Hx) as [->|Q]; [|lia]. pose proof (total_ge vs (m_cols X)). lia.
  - intros a b x Ha Hb Xa Xb. eapply (layout_disjoint vs (m_cols X)); eauto.
  - intros a. unfold columns_of. destruct (dget Nat.eqb (expanded X ks) a) as [c|] eqn:E; [|repeat constructor; cbn; tauto].
    apply (dget_In _ Nat.eqb_spec) in E. eapply layout_nodup; [|exact E]. auto.
  - intros a b x y H Hx Hy N. rewrite <- Ec in Hx, Hy. eauto.
  - intros a x y Ha Hx Hy N. rewrite <- Ec in Hx, Hy. eapply S2; eauto. rewrite I. apply Kk; auto.
  - intros a x H Hx. rewrite <- Ec in Hx. eauto.
  - intros a x H Hx. rewrite <- Ec in Hx. eauto.
  - rewrite Wt. apply total_ge.
Qed.

(** A variable whose pair is banned, or the same variable. *)
Lemma facts_banned X ks t dts X' t' a b x y : facts X ks t dts X' t' -> a < m_cols X -> b < m_cols X ->
  In x (columns_of (expanded X ks) a) -> In y (columns_of (expanded X ks) b) ->
  a = b \/ banned t (Z.of_nat a) (Z.of_nat b) -> x = y \/ banned t' (Z.of_nat x) (Z.of_nat y).
Proof.
  intros F Ha Hb Hx Hy H. destruct (Nat.eq_dec x y) as [->|N]; auto. right. destruct H as [<-|[H|[H|H]]].
  - left. eapply (fa_ban_same _ _ _ _ _ _ F); eauto.
  - left. eapply (fa_ban_edge _ _ _ _ _ _ F); eauto.
  - right. left. eapply (fa_ban_parent _ _ _ _ _ _ F); eauto.
  - right. right. eapply (fa_ban_child _ _ _ _ _ _ F); eauto.
Qed.

(** ** Dual ascent *)
Lemma torch_while_last (P : list Qc -> Prop) fuel : forall hf opt bnds flat al h r hn cur k r' h' cur' k',
  (forall r a x k, P (opt bnds r a x k)) -> P cur ->
  torch_while fuel hf opt bnds flat al h r hn cur k = Ok (r', h', cur', k') -> P cur'.
Proof.
  induction fuel as [|f IH]; intros hf opt bnds flat al h r hn cur k r' h' cur' k' O C; cbn [torch_while].
  - destruct (_ && _); [discriminate|]. intros [= _ _ <- _]. auto.
  - destruct (_ && _); [|intros [= _ _ <- _]; auto]. apply IH; auto.
Qed.

Lemma torch_fit_last (P : list Qc -> Prop) n : forall fuel hf opt bnds r al h cur k v b,
  (forall r a x k, P (opt bnds r a x k)) -> P cur ->
  torch_fit n fuel hf opt bnds r al h cur k = Ok (v, b) -> P (fst v).
Proof.
  induction n as [|m IH]; intros fuel hf opt bnds r al h cur k v b O C; cbn [torch_fit].
  - intros [= <- <-]. auto.
  - intros E. apply bind_ok in E. destruct E as ([[[r' h'] cur'] k'] & E1 & E). cbn beta iota in E.
    assert (C' : P cur') by (eapply torch_while_last; eauto).
    destruct (_ || _); [injection E as <- <-; auto|]. destruct m as [|m]; [injection E as <- <-; auto|]. eapply IH; [| |exact E]; auto.
Qed.

(** The bounds of the first layer *)
Lemma torch_bnds_row t d (j m i : nat) : List.length (flat_map (fun _ : nat => map (fun i => bnd t free i j) (seq 0 d)) (seq m i)) = i * d.
Proof. apply length_blocks. intros. rewrite map_length, seq_length. auto. Qed.

Lemma torch_bnds_length t d m1 : List.length (torch_bnds t d m1) = n_weights d m1.
Proof.
  unfold torch_bnds, n_weights. rewrite (length_blocks _ (m1 * d)); [lia|]. intros j. apply (torch_bnds_row t d j 0 m1).
Qed.

Lemma torch_bnds_nth t d m1 j m i x : j < d -> m < m1 -> i < d -> nth ((j * m1 + m) * d + i) (torch_bnds t d m1) x = bnd t free i j.
Proof.
  intros Hj Hm Hi. unfold torch_bnds. replace ((j * m1 + m) * d + i) with (j * (m1 * d) + (m * d + i)) by lia.
  rewrite (nth_blocks (fun j => flat_map (fun _ : nat => map (fun i => bnd t free i j) (seq 0 d)) (seq 0 m1)) (m1 * d)); auto; try nia.
  - rewrite (nth_blocks (fun _ => map (fun i => bnd t free i (0 + j)) (seq 0 d)) d); auto.
    + rewrite nth_map_seq; auto.
    + intros. rewrite map_length, seq_length. auto.
  - intros. apply (torch_bnds_row t d i0 0 m1).
Qed.

Lemma torch_bnds_feasible t d m1 n : Forall feasible (torch_bnds t d m1 ++ repeat free n).
Proof.
  apply Forall_app. split.
  - apply Forall_forall. intros b H. unfold torch_bnds in H. apply in_flat_map in H. destruct H as (j & _ & H). apply in_flat_map in H.
    destruct H as (m & _ & H). apply in_map_iff in H. destruct H as (i & <- & _). apply feasible_bnd. auto.
  - apply Forall_forall. intros b H. apply repeat_spec in H. subst. exists 0%Qc. apply in_free.
Qed.

Lemma weight_index d m1 j m i : j < d -> m < m1 -> i < d -> (j * m1 + m) * d + i < n_weights d m1.
Proof. intros. unfold n_weights. nia. Qed.

(** The first layer has zero weights at banned pairs. *)
Definition no_banned_weight (t : tabu Z) (d m1 : nat) (v : list Qc) : Prop :=
  forall i j m, i < d -> j < d -> m < m1 -> i = j \/ banned t (Z.of_nat i) (Z.of_nat j) -> dag_w d m1 v j m i = 0%Qc.

Lemma bounds_no_banned t d m1 n v : Forall2 in_bound (torch_bnds t d m1 ++ repeat free n) v -> no_banned_weight t d m1 v.
Proof.
  intros F i j m Hi Hj Hm B. unfold dag_w. pose proof (weight_index d m1 j m i Hj Hm Hi) as Hx.
  pose proof (Forall2_nth _ _ _ ((j * m1 + m) * d + i) fixed0 0%Qc F) as Q.
  rewrite app_length, torch_bnds_length in Q. rewrite app_nth1 in Q by (rewrite torch_bnds_length; auto).
  rewrite torch_bnds_nth, bnd_banned in Q by auto. apply in_fixed0. apply Q. lia.
Qed.

Lemma zeros_no_banned t d m1 n r : n_weights d m1 <= n -> no_banned_weight t d m1 (repeat 0%Qc n ++ r).
Proof.
  intros L i j m Hi Hj Hm B. unfold dag_w. pose proof (weight_index d m1 j m i Hj Hm Hi) as Hx.
  rewrite app_nth1 by (rewrite repeat_length; lia). apply nth_repeat.
Qed.

(** ** Locality of the network *)
Lemma dag_units_local d m1 ub v x y j :
  (forall i, i < d -> (exists m, m < m1 /\ dag_w d m1 v j m i <> 0%Qc) -> nth i x 0%Qc = nth i y 0%Qc) ->
  dag_units d m1 ub v x j = dag_units d m1 ub v y j.
Proof.
  intros H. unfold dag_units. apply map_ext_in. intros m Hm. apply in_seq in Hm. f_equal. apply Qsum_ext. intros i Hi. apply in_seq in Hi.
  destruct (Qc_eq_dec (dag_w d m1 v j m i) 0%Qc) as [->|N]; [ring|]. rewrite (H i); auto; [lia|]. exists m. split; auto. lia.
Qed.

Theorem forward_local act ub dims v x y j :
  let d := nth 0 dims 0 in let m1 := nth 1 dims 0 in
  (forall i, i < d -> (exists m, m < m1 /\ dag_w d m1 v j m i <> 0%Qc) -> nth i x 0%Qc = nth i y 0%Qc) ->
  nth j (forward act ub dims v x) 0%Qc = nth j (forward act ub dims v y) 0%Qc.
Proof.
  intros d m1 H. unfold forward. fold d m1. destruct (Nat.lt_ge_cases j d) as [Hj|Hj].
  - rewrite !nth_map_seq by auto. cbn [plus]. rewrite (dag_units_local d m1 ub v x y j); auto.
  - rewrite !nth_overflow; auto; rewrite map_length, seq_length; auto.
Qed.

(** Zero weights give a zero adjacency. *)
Lemma adjacency_zero act grad ub dims v X me i j : gradient_local grad \/ List.length dims <= 2 ->
  0 < nth 1 dims 0 -> i < nth 0 dims 0 ->
  (forall m, m < nth 1 dims 0 -> dag_w (nth 0 dims 0) (nth 1 dims 0) v j m i = 0%Qc) ->
  adjacency act grad ub dims v X me i j = 0%Qc.
Proof.
  intros G Hm Hi Z. unfold adjacency. destruct (List.length dims <=? 2) eqn:L.
  - cbv zeta. rewrite Z by lia. destruct me; auto.
  - apply Nat.leb_gt in L. destruct G as [G|G]; [|lia]. cbv zeta. rewrite (Qsum_all_zero _ _).
    + unfold Qcdiv. ring.
    + intros r Hr. rewrite (G _ _ i) with (2 := Hr); [destruct me; auto|]. intros Z' S. clear - S Z.
      induction S as [|a b Y Z' H S IH]; [reflexivity|]. rewrite !Qsum_cons. f_equal; auto. apply forward_local. cbv zeta.
      intros k Hk (m & Hm & N). symmetry. apply H. intros ->. apply N, Z. auto.
Qed.

Lemma Qcabs_nonneg x : (0 <= Qcabs x)%Qc.
Proof. unfold Qcabs. destruct (Qclt_le_dec x 0); qlra. Qed.

Lemma adjacency_nonneg act grad ub dims v X i j : (0 <= adjacency act grad ub dims v X false i j)%Qc.
Proof.
  unfold adjacency. destruct (_ <=? _); cbv zeta; [apply Qcabs_nonneg|].
  apply Qc_div_nonneg; [apply Qsum_nonneg; intros; apply Qcabs_nonneg|].
  unfold Qcle, Q2Qc. cbn [this]. rewrite !Qred_correct. unfold Qle. cbn. lia.
Qed.
