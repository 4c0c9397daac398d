(** * TorchAcyc: the penalty of the torch version and cycles among the learned edges. *)
From Coq Require Import List Bool Arith ZArith Lia String QArith Qcanon Qreals Permutation Reals Lra Relations.
From Verif Require Import Base Names Digraph SmModel SmProofs SmBuild QcX NotearsModel NotearsProofs NotearsThms AcycModel AcycProofs AcycThms AcycLink
  TorchModel TorchSpec TorchProofs TorchThms TorchGraph TorchResult.
Import ListNotations.
Local Open Scope string_scope.
Local Open Scope list_scope.
Local Open Scope nat_scope.

(** The weight of the linear model from column [x] to column [y]. *)
Definition lin_weight (l : learned) (x y : nat) : Qc := nth (y * nth 0 (l_dims l) 0 + x) (l_params l) 0%Qc.

(** Sum of the squared weights between the columns of two variables. *)
Definition var_weight (L : list (nat * list nat)) (l : learned) (a b : nat) : Qc :=
  block_sum (fun x y => lin_weight l x y * lin_weight l x y)%Qc (columns_of L a) (columns_of L b).

Lemma linear_m1 d p : linear p -> nth 1 (net_dims d (hidden_units p)) 0 = 1.
Proof. intros H. unfold net_dims. rewrite (linear_units p H). reflexivity. Qed.

Lemma square_linear d v x y : square_mat d 1 v x y = (nth (y * d + x) v 0 * nth (y * d + x) v 0)%Qc.
Proof. unfold square_mat, dag_w. cbn [seq]. rewrite Qsum_cons, Qsum_nil. replace ((y * 1 + 0) * d + x) with (y * d + x) by lia. ring. Qed.

Lemma h_size_cols X ks t dts X' t' : facts X ks t dts X' t' -> 0 < m_cols X -> h_size dts = m_cols X.
Proof.
  intros F Hd. unfold h_size. assert (L : list_max (map dt_idx dts) = m_cols X - 1); [|lia]. apply Nat.le_antisymm.
  - apply list_max_le. apply Forall_forall. intros i Hi. apply (fa_vars _ _ _ _ _ _ F) in Hi. lia.
  - destruct (Nat.lt_ge_cases (list_max (map dt_idx dts)) (m_cols X - 1)) as [Lt|]; auto. exfalso.
    apply list_max_lt in Lt.
    + rewrite Forall_forall in Lt. assert (In (m_cols X - 1) (map dt_idx dts)) by (apply (fa_vars _ _ _ _ _ _ F); lia). apply Lt in H. lia.
    + intros E. assert (I : In 0 (map dt_idx dts)) by (apply (fa_vars _ _ _ _ _ _ F); lia). revert I. rewrite E. intros [].
Qed.

Lemma size_pos X : (m_size X =? 0) = false -> 0 < m_cols X.
Proof. intros H. apply Nat.eqb_neq in H. unfold m_size in H. destruct (m_cols X); lia. Qed.

(** The matrix whose penalty is driven to zero has one row and column for each variable, and the sum of the
    squares of the weights between two variables. *)
Theorem torch_penalty_matrix fuel opt eh act grad rnd X schema p t l ks : rectangular X -> (forall s, schema = Some s -> NoDup (map fst s)) ->
  schema_kinds (m_cols X) schema = Ok ks -> torch_numpy fuel opt eh act grad rnd X schema p t = Ok l -> linear p ->
  h_size (l_dtypes l) = m_cols X /\
  forall a b, h_matrix (l_dtypes l) (nth 0 (l_dims l) 0) (nth 1 (l_dims l) 0) (l_params l) a b = var_weight (expanded X ks) l a b.
Proof.
  intros R Ns Ek E Lp. assert (Sz : (m_size X =? 0) = false) by (unfold torch_numpy in E; destruct (m_size X =? 0); [discriminate|auto]).
  destruct (torch_numpy_inv _ _ _ _ _ _ _ _ _ _ _ E) as (ks' & dts & X' & t' & Ek' & Ep & O). rewrite Ek in Ek'. injection Ek' as <-.
  pose proof (prepare_facts _ _ _ _ _ _ _ R Ns Ek Ep) as F. rewrite (oc_dtypes _ _ _ _ _ _ _ _ _ _ _ _ _ O).
  split; [eapply h_size_cols; eauto; apply size_pos; auto|]. intros a b. unfold h_matrix. rewrite modify_collapse, (facts_collapse _ _ _ _ _ _ _ a b F).
  unfold var_weight, block_sum. apply Qsum_ext. intros x _. apply Qsum_ext. intros y _.
  rewrite (oc_dims _ _ _ _ _ _ _ _ _ _ _ _ _ O). rewrite linear_m1 by auto. rewrite square_linear. unfold lin_weight.
  rewrite (oc_dims _ _ _ _ _ _ _ _ _ _ _ _ _ O). auto.
Qed.

Lemma lin_adjacency act grad ub dims v X me x y : List.length dims <= 2 -> nth 1 dims 0 = 1 ->
  adjacency act grad ub dims v X me x y = let w := nth (y * nth 0 dims 0 + x) v 0%Qc in if me then w else Qcabs w.
Proof.
  intros L M. unfold adjacency. apply Nat.leb_le in L. rewrite L, M. unfold dag_w. cbv zeta. replace ((y * 1 + 0) * nth 0 dims 0 + x) with (y * nth 0 dims 0 + x) by lia. auto.
Qed.

Lemma realq_sq_le t w : (0 <= t)%Qc -> (t <= Qcabs w)%Qc -> (realq t * realq t <= realq (w * w)%Qc)%R.
Proof.
  intros Ht H. assert (M : forall a b, realq (a * b)%Qc = (realq a * realq b)%R).
  { intros a b. unfold realq. rewrite <- Q2R_mult. apply Qeq_eqR. unfold Qcmult, Q2Qc. cbn [this]. apply Qred_correct. }
  rewrite M. apply realq_le in H, Ht. rewrite realq_abs in H. rewrite realq_0 in Ht. rewrite <- (Rabs_right (realq t)) in H by lra. apply Rsqr_le_abs_1 in H. exact H.
Qed.

Lemma Qsum_ge_one {A} (f : A -> Qc) l x : (forall y, (0 <= f y)%Qc) -> In x l -> (f x <= Qsum f l)%Qc.
Proof.
  intros P I. induction l as [|y l IH]; [destruct I|]. rewrite Qsum_cons. destruct I as [->|I].
  - assert (0 <= Qsum f l)%Qc by (apply Qsum_nonneg; auto). qlra.
  - specialize (IH I). specialize (P y). qlra.
Qed.

Lemma Qc_square_nonneg (w : Qc) : (0 <= w * w)%Qc.
Proof. unfold Qcle, Qcmult, Q2Qc. cbn [this]. change (Qred 0) with 0%Q. rewrite Qred_correct. destruct w as [[n d] c]. unfold Qle. cbn. nia. Qed.

Lemma block_ge w ca cb x y : (forall x y, (0 <= w x y)%Qc) -> In x ca -> In y cb -> (w x y <= block_sum w ca cb)%Qc.
Proof.
  intros P Hx Hy. unfold block_sum. apply Qcle_trans with (Qsum (fun y => w x y) cb).
  - apply (Qsum_ge_one (fun y => w x y)); auto.
  - apply (Qsum_ge_one (fun x => Qsum (fun y => w x y) cb)); auto. intros. apply Qsum_nonneg. auto.
Qed.

(** [tol] excludes cycles of every length up to [d]. *)
Definition poly_excludes (d : nat) (t tol : R) : Prop := forall L, 0 < L <= d -> (tol < INR L * (t * t / INR d) ^ L)%R.

Theorem torch_linear_acyclic fuel opt eh act grad rnd X schema p t l ks th tol : rectangular X -> (forall s, schema = Some s -> NoDup (map fst s)) ->
  schema_kinds (m_cols X) schema = Ok ks -> torch_numpy fuel opt eh act grad rnd X schema p t = Ok l -> linear p ->
  tp_threshold p = Some th -> (0 <= th)%Qc -> (poly_penalty (m_cols X) (fun a b => realq (var_weight (expanded X ks) l a b)) <= tol)%R ->
  poly_excludes (m_cols X) (realq th) tol ->
  (forall a, ~ clos_trans nat (fun a b => exists x y, In x (columns_of (expanded X ks) a) /\ In y (columns_of (expanded X ks) b) /\
                                  a < m_cols X /\ b < m_cols X /\ In (LInt (Z.of_nat x), LInt (Z.of_nat y)) (edges (l_graph l))) a a) /\
  acyclic (edges (l_graph l)).
Proof.
  intros R Ns Ek E Lp Et Ht Pen Ex. assert (Sz : (m_size X =? 0) = false) by (unfold torch_numpy in E; destruct (m_size X =? 0); [discriminate|auto]).
  destruct (torch_numpy_inv _ _ _ _ _ _ _ _ _ _ _ E) as (ks' & dts & X' & t' & Ek' & Ep & O). rewrite Ek in Ek'. injection Ek' as <-.
  pose proof (prepare_facts _ _ _ _ _ _ _ R Ns Ek Ep) as F. pose proof (size_pos X Sz) as Hd. set (d := m_cols X) in *.
  set (Ed := fun a b => exists x y, In x (columns_of (expanded X ks) a) /\ In y (columns_of (expanded X ks) b) /\ a < d /\ b < d /\
                          In (LInt (Z.of_nat x), LInt (Z.of_nat y)) (edges (l_graph l))).
  assert (Big : forall a b, Ed a b -> a < d /\ b < d /\ (realq th * realq th <= realq (var_weight (expanded X ks) l a b))%R).
  { intros a b (x & y & Hx & Hy & Ha & Hb & I). split; auto. split; auto.
    destruct (oc_graph _ _ _ _ _ _ _ _ _ _ _ _ _ O) as (_ & _ & Ge & _). apply Ge in I. destruct I as (i & j & Hi & Hj & Ei & Ej & (Nz & Kth)).
    apply node_inj in Ei, Ej. subst i j. specialize (Kth th Et). rewrite (oc_dims _ _ _ _ _ _ _ _ _ _ _ _ _ O) in Kth.
    rewrite lin_adjacency in Kth; [|apply linear_dims; auto|apply linear_m1; auto]. cbv zeta in Kth. rewrite <- (oc_dims _ _ _ _ _ _ _ _ _ _ _ _ _ O) in Kth.
    assert (A2 : Qcabs (Qcabs (lin_weight l x y)) = Qcabs (lin_weight l x y)).
    { unfold Qcabs at 1. destruct (Qclt_le_dec (Qcabs (lin_weight l x y)) 0) as [N|]; auto. exfalso. apply (Qclt_not_le _ _ N). apply Qcabs_nonneg. }
    unfold lin_weight in A2. rewrite A2 in Kth. apply Rle_trans with (1 := realq_sq_le th _ Ht Kth). apply realq_le.
    apply (block_ge (fun x y => lin_weight l x y * lin_weight l x y)%Qc); auto. intros. apply Qc_square_nonneg. }
  assert (NC : forall a, ~ clos_trans nat Ed a a).
  { intros a C. apply (poly_threshold d (fun a b => realq (var_weight (expanded X ks) l a b)) (realq th * realq th)) with (i := a).
    - intros i j _ _. rewrite <- realq_0. apply realq_le. unfold var_weight, block_sum. apply Qsum_nonneg. intros x _. apply Qsum_nonneg. intros y _. apply Qc_square_nonneg.
    - auto.
    - apply Rle_0_sqr.
    - intros L HL. apply Rle_lt_trans with (1 := Pen). apply Ex. auto.
    - revert C. clear - Big. generalize a at 2 4. intros b C. induction C as [a b H|]; [apply t_step; auto|eapply t_trans; eauto]. }
  split; [exact NC|]. intros u P.
  assert (Q : forall u v, path (edges (l_graph l)) u v -> exists x y a b, u = node x /\ v = node y /\ In x (columns_of (expanded X ks) a) /\ In y (columns_of (expanded X ks) b) /\ a < d /\ b < d /\ clos_trans nat Ed a b).
  { assert (St : forall u v, In (u, v) (edges (l_graph l)) -> exists x y a b, u = node x /\ v = node y /\ In x (columns_of (expanded X ks) a) /\ In y (columns_of (expanded X ks) b) /\ a < d /\ b < d /\ Ed a b).
    { intros u' v I. pose proof I as I0. destruct (oc_graph _ _ _ _ _ _ _ _ _ _ _ _ _ O) as (_ & _ & Ge & _). apply Ge in I. destruct I as (x & y & Hx & Hy & -> & -> & _).
      apply (fa_cover _ _ _ _ _ _ F) in Hx, Hy. destruct Hx as (a & Ha & Xa), Hy as (b & Hb & Yb). exists x, y, a, b. repeat split; auto. exists x, y. auto. }
    clear u P. intros u v P. induction P as [u v H|u v z H P IH].
    - destruct (St u v H) as (x & y & a & b & ? & ? & ? & ? & ? & ? & ?). exists x, y, a, b. repeat split; auto. apply t_step. auto.
    - destruct (St u v H) as (x & y & a & b & -> & -> & Xa & Yb & Ha & Hb & Eab). destruct IH as (y' & z' & b' & c & Ey & -> & Yb' & Zc & Hb' & Hc & C).
      apply node_inj in Ey. subst y'. assert (b = b') by (apply (fa_uniq _ _ _ _ _ _ F b b' y); auto). subst b'.
      exists x, z', a, c. repeat split; auto. apply t_trans with b; auto. apply t_step. auto. }
  destruct (Q u u P) as (x & y & a & b & -> & Ey & Xa & Yb & Ha & Hb & C). apply node_inj in Ey. subst y.
  assert (a = b) by (apply (fa_uniq _ _ _ _ _ _ F a b x); auto). subst b. apply (NC a C).
Qed.
