(** * FitBest: the learned weights fit at least as well as those of every allowed acyclic structure. *)
From Coq Require Import List Bool Arith ZArith Lia String QArith Qcanon Qreals Reals Lra Relations.
From Coquelicot Require Import Coquelicot.
From Verif Require Import Base QcX Digraph SmModel SmProofs NotearsModel NotearsProofs NotearsThms AcycModel AcycProofs AcycThms AcycLink.
From Verif Require Import ObjModel ObjProofs ObjGrad ObjLasso PropsObj ObjUnits PropsObjMore ObjFit FitLink OrdProofs FitBound.
Import ListNotations.
Local Open Scope list_scope.
Local Open Scope nat_scope.

(** ** Specification *)

(** Given bounds that allow what the description [box] says, and multipliers rho > 0 and alpha >= 0, the optimiser
    returns a vector of [size] numbers within the bounds whose objective is at most [eps] above every other. *)
Definition near_optimiser (size : nat) (box : nat -> R -> Prop) (F : R -> R -> (nat -> R) -> R) (eps : R) (opt : optimiser) : Prop :=
  forall bnds, (forall q x, q < size -> (inside bnds q x <-> box q x)) ->
    forall r q x k, (0 < r)%Qc -> (0 <= q)%Qc -> let w := opt bnds r (Fin q) x k in
      List.length w = size /\ (forall p, p < size -> inside bnds p (vec w p)) /\
      forall v, (forall p, p < size -> inside bnds p (v p)) -> (F (realq r) (realq q) (vec w) <= F (realq r) (realq q) v + eps)%R.

(** The penalty of the weights [v] is computed up to [delta] and is not negative. *)
Definition penalty_close (delta : R) (eh : penalty) (d : nat) (v : list Qc) : Prop :=
  within delta eh d v /\ forall q, eh d v = Fin q -> (0 <= q)%Qc.

(** Weights for edges that may be learned *)
Definition allowed (d : nat) (may : nat -> nat -> Prop) (V : nat -> nat -> R) : Prop :=
  forall i j, i < d -> j < d -> ~ may i j -> V i j = 0%R.

(** The tolerance is within reach of the ascent for data with half mean square [m]. *)
Definition reachable (m eps delta : R) (p : params) : Prop :=
  (sqrt (2 * (m + eps) / 10 ^ 19) + delta <= realq (h_tol p))%R /\ (sqrt (2 * (m + eps)) + delta <= 4 ^ (max_iter p - 1) * realq (h_tol p))%R.

(** ** Lemmas *)
Definition no_weights (i j : nat) : R := 0%R.

Lemma zero_dag d : dag d no_weights.
Proof. intros i C. induction C as [x y (_ & _ & N)|]; [apply N; reflexivity|assumption]. Qed.
Lemma zero_allowed d may : allowed d may no_weights.
Proof. red. auto. Qed.
Lemma dag_h d V : dag d V -> h_fun d V = 0%R.
Proof. intros H. apply (exp_penalty_zero d V); [apply h_fun_penalty|exact H]. Qed.
Lemma h_nonneg d V : (0 <= h_fun d V)%R.
Proof. eapply exp_penalty_nonneg. apply h_fun_penalty. Qed.
Lemma mse_nonneg n d T P : 0 < n -> (0 <= half_mse n d T P)%R.
Proof.
  intros Hn. unfold half_mse. apply lt_INR in Hn. cbn in Hn. apply Rmult_le_pos; [|left; apply Rinv_0_lt_compat; lra].
  apply total_nonneg. intros r _. apply total_nonneg. intros c _. apply pow2_ge_0.
Qed.
Lemma linear_zero d X r c : linear d X no_weights r c = 0%R.
Proof. unfold linear. apply total_zero. intros k _. unfold no_weights. ring. Qed.
Lemma mse_zero n d X : half_mse n d X (linear d X no_weights) = half_mse n d X (fun _ _ => 0%R).
Proof. unfold half_mse. f_equal. apply total_ext. intros r _. apply total_ext. intros c _. rewrite linear_zero. reflexivity. Qed.

Lemma close_bound delta eh d w : penalty_close delta eh d w ->
  exists h, eh d w = Fin h /\ (0 <= h)%Qc /\ (realq h <= h_fun d (fun i j => realq (entry d w i j)) + delta)%R.
Proof.
  intros [(q & E & W) P]. exists q. split; [exact E|]. split; [auto|]. specialize (W _ (h_fun_penalty d _)). unfold Rabs in W. destruct (Rcase_abs _) in W; lra.
Qed.

(** A structure that keeps every weight is acyclic only if the weights are. *)
Lemma graph_dag g d name o (w : nat -> nat -> Qc) keep : graph_of g d name o w keep -> (forall x, x <> 0%Qc -> keep x) -> Digraph.acyclic (edges g) -> dag d (fun i j => realq (w i j)).
Proof.
  intros (_ & _ & G & _) K A i C. apply (A (name i)). revert C. generalize i at 2 4. intros j C.
  induction C as [x y (Hx & Hy & N)|x y z _ H1 _ H2].
  - apply Digraph.path_one. apply G. exists x, y. repeat split; auto. apply K. intros E. apply N. rewrite E. apply realq_0.
  - eapply Digraph.path_trans; eauto.
Qed.

Lemma abs_pos x : x <> 0%Qc -> (0 < Qcabs x)%Qc.
Proof.
  intros N. unfold Qclt. apply Rlt_Qlt. change (realq 0 < realq (Qcabs x))%R. rewrite realq_0, realq_abs. apply Rabs_pos_lt.
  intros E. apply N. apply Qc_is_canon, eqR_Qeq. change (realq x = realq 0). rewrite realq_0. exact E.
Qed.
Lemma keep_nonzero x : x <> 0%Qc -> keep_gt 0 x.
Proof. intros N. split; [exact N|]. apply abs_pos. exact N. Qed.
Lemma keep_nonzero_ge x : x <> 0%Qc -> keep_ge 0 x.
Proof. intros N. split; [exact N|]. apply Qclt_le_weak, abs_pos. exact N. Qed.

(** ** Plain *)
Lemma plain_asked opt eh (X : mat) t eps delta V : let d := m_cols X in let n := List.length (m_rows X) in let may := open_edge t Z.of_nat in
  0 < n -> near_optimiser (d * d) (plain_box d may) (func n d (data X)) eps opt ->
  (forall bnds r q x k, (0 < r)%Qc -> (0 <= q)%Qc -> penalty_close delta eh d (opt bnds r (Fin q) x k)) ->
  allowed d may V -> dag d V ->
  forall r q x k, (0 < r)%Qc -> (0 <= q)%Qc -> let w := opt (bnds_matrix t free d) r (Fin q) x k in
    (exists h, eh d w = Fin h /\ (0 <= h)%Qc /\ (realq h <= h_fun d (plain_weights d (vec w)) + delta)%R) /\ (0 <= h_fun d (plain_weights d (vec w)))%R /\
    (0 <= half_mse n d (data X) (linear d (data X) (plain_weights d (vec w))))%R /\
    (half_mse n d (data X) (linear d (data X) (plain_weights d (vec w))) + realq r / 2 * h_fun d (plain_weights d (vec w)) ^ 2 + realq q * h_fun d (plain_weights d (vec w))
     <= half_mse n d (data X) (linear d (data X) V) + eps)%R.
Proof.
  intros d n may Hn Op Cl Al Dg r q x k Hr Hq w.
  destruct (Op (bnds_matrix t free d) (fun q x Hq => plain_bounds t d q x Hq) r q x k Hr Hq) as (_ & _ & M). fold w in M.
  split; [exact (close_bound delta eh d w (Cl _ r q x k Hr Hq))|]. split; [apply h_nonneg|]. split; [apply mse_nonneg; auto|].
  destruct (weights_of d V) as (v & Ev). specialize (M v). rewrite !(C73_objective _ _ _ _ _ _ _ (h_fun_penalty d _)) in M. unfold lagrangian in M.
  assert (E : (half_mse n d (data X) (linear d (data X) (plain_weights d v)) = half_mse n d (data X) (linear d (data X) V))%R).
  { rewrite <- !loss_mse. apply loss_ext. auto. }
  rewrite E, (h_ext d (plain_weights d v) V) in M by auto. rewrite (dag_h d V Dg) in M.
  assert (Bx : forall p, p < d * d -> inside (bnds_matrix t free d) p (v p)).
  { intros p Hp. apply plain_bounds; auto. intros i j Hi Hj -> N. change (plain_weights d v i j = 0%R). rewrite Ev by auto. apply Al; auto. }
  specialize (M Bx). lra.
Qed.

Lemma asked_fits hf opt bnds (L H : list Qc -> R) B delta w :
  (forall r q x k, (0 < r)%Qc -> (0 <= q)%Qc -> let w := opt bnds r (Fin q) x k in
    (exists h, hf w = Fin h /\ (0 <= h)%Qc /\ (realq h <= H w + delta)%R) /\ (0 <= H w)%R /\ (0 <= L w)%R /\
    (L w + realq r / 2 * H w ^ 2 + realq q * H w <= B)%R) -> asked opt bnds w -> (L w <= B)%R.
Proof.
  intros A (r & q & x & k & Hr & Hq & ->). destruct (A r q x k Hr Hq) as (_ & H0 & _ & Le).
  apply Qlt_Rlt in Hr. apply realq_nonneg in Hq. change (realq 0 < realq r)%R in Hr. rewrite realq_0 in Hr.
  assert (0 <= realq q * H (opt bnds r (Fin q) x k))%R by (apply Rmult_le_pos; auto).
  assert (0 <= realq r / 2 * H (opt bnds r (Fin q) x k) ^ 2)%R by (apply Rmult_le_pos; [lra|apply pow2_ge_0]). lra.
Qed.

Theorem plain_best fuel opt eh X p t g eps delta : 0 < max_iter p -> from_numpy fuel opt eh X p t = Ok g ->
  let d := m_cols X in let n := List.length (m_rows X) in let may := open_edge t Z.of_nat in
  near_optimiser (d * d) (plain_box d may) (func n d (data X)) eps opt ->
  (forall bnds r q x k, (0 < r)%Qc -> (0 <= q)%Qc -> penalty_close delta eh d (opt bnds r (Fin q) x k)) ->
  exists W, graph_of g d node "unknown" W (keep_gt (w_threshold p)) /\ allowed d may (fun i j => realq (W i j)) /\
    (forall V, allowed d may V -> dag d V -> (half_mse n d (data X) (linear d (data X) (fun i j => realq (W i j))) <= half_mse n d (data X) (linear d (data X) V) + eps)%R) /\
    (w_threshold p = 0%Qc -> Digraph.acyclic (edges g) -> dag d (fun i j => realq (W i j))) /\
    forall b, numpy_warns fuel opt eh X p t = Ok b -> reachable (half_mse n d (data X) (fun _ _ => 0%R)) eps delta p ->
      b = false /\ ((0 <= w_threshold p)%Qc -> excludes d (realq (w_threshold p)) (realq (h_tol p) + delta) -> Digraph.acyclic (edges g)).
Proof.
  intros Hm H d n may Op Cl. unfold from_numpy in H. fold d in H. destruct (all_finite X); cbn [negb] in H; [|discriminate].
  destruct (m_size X =? 0) eqn:Sz; [discriminate|]. apply rows_pos in Sz. fold n in Sz.
  apply bind_ok in H. destruct H as ([s b] & E & H). cbn [fst] in H.
  pose proof (fun V => plain_asked opt eh X t eps delta V Sz Op Cl) as Ask. fold d n may in Ask.
  set (Lf := fun w => half_mse n d (data X) (linear d (data X) (plain_weights d (vec w)))). set (Hf := fun w => h_fun d (plain_weights d (vec w))).
  set (Bf := fun V => (half_mse n d (data X) (linear d (data X) V) + eps)%R).
  destruct (ascent_sound (eh d) opt (bnds_matrix t free d) Lf Hf (Bf no_weights) delta (Ask no_weights (zero_allowed d may) (zero_dag d)) _ _ _ _ _ _ Hm E) as (h & _ & (Aw & Eh) & Eb & _).
  set (w := w_est s) in *.
  assert (G : graph_of g d node "unknown" (entry d w) (keep_gt (w_threshold p))).
  { eapply matrix_graph_of; [exact H|]. intros i j Hi Hj. rewrite cut_le_entry. unfold keep_gt.
    destruct (qle _ _) eqn:Q.
    + apply qle_iff in Q. split; [|intros [_ X1]; exfalso; apply (Qclt_not_le _ _ X1); auto].
      split; [congruence|]. intros [_ X1]. exfalso. apply (Qclt_not_le _ _ X1); auto.
    + apply qle_false in Q. tauto. }
  exists (entry d w). split; [exact G|]. split.
  { destruct Aw as (r & q & x & k & Hr & Hq & Ew).
    destruct (Op (bnds_matrix t free d) (fun q x Hq => plain_bounds t d q x Hq) r q x k Hr Hq) as (_ & In & _). rewrite <- Ew in In.
    intros i j Hi Hj N. pose proof (index_lt d i j Hi Hj) as Hq'. specialize (In _ Hq'). apply plain_bounds in In; auto. apply (In i j); auto. }
  split. { intros V Al Dg. exact (asked_fits (eh d) opt (bnds_matrix t free d) Lf Hf (Bf V) delta w (Ask V Al Dg) Aw). }
  split. { intros T A. eapply graph_dag; [exact G| |exact A]. intros x N. rewrite T. apply keep_nonzero. exact N. }
  intros b' Wn [T1 T2]. unfold numpy_warns in Wn. fold d in Wn. rewrite E in Wn. cbn [bind snd] in Wn. injection Wn as <-.
  assert (Nb : b = false).
  { eapply (ascent_converges (eh d) opt (bnds_matrix t free d) Lf Hf (Bf no_weights) delta (Ask no_weights (zero_allowed d may) (zero_dag d))); [exact Hm|exact E| |]; unfold last_penalty, first_penalty, Bf; rewrite mse_zero; assumption. }
  split; [exact Nb|]. intros Ht Ex. refine (accepted_acyclic g d node _ w _ p delta eh b G _ (keep_gt_ge _) Ht _ Nb Ex).
  - intros i j _ _ Q. apply node_inj; auto.
  - right. split; [|rewrite Eh; exact Eb]. destruct Aw as (r & q & x & k & Hr & Hq & ->). apply Cl; auto.
Qed.

(** ** Lasso *)
Lemma lasso_bound_in t d (V : nat -> nat -> R) : allowed d (open_edge t Z.of_nat) V -> forall p, p < 2 * (d * d) -> inside (bnds_matrix t nonneg d ++ bnds_matrix t nonneg d) p (split_mat d V p).
Proof.
  intros Al p Hp. apply lasso_bounds; auto. revert p Hp. apply lasso_in_box. apply split_box. intros i j Hi Hj O. apply Al; auto. apply okb_closed. exact O.
Qed.

Lemma lasso_dag_value n d X beta rho alpha V : dag d V -> lasso_func n d X beta rho alpha (split_mat d V) = (half_mse n d X (linear d X V) + beta * weight_norm d d V)%R.
Proof.
  intros Dg. assert (E : forall i j, i < d -> j < d -> lasso_mat d (split_mat d V) i j = V i j).
  { intros i j Hi Hj. rewrite lasso_mat_at, split_pos, split_neg by auto. apply parts_diff. }
  unfold lasso_func. rewrite (loss_ext n d X _ _ E), (h_ext d _ _ E), (dag_h d V Dg), loss_mse, norm_l1.
  replace (rsum (2 * (d * d)) (split_mat d V)) with (l1 d d V); [ring|].
  rewrite rsum_two. apply rsum_ext. intros i Hi. apply rsum_ext. intros j Hj. rewrite split_pos, split_neg by auto. symmetry. apply parts_sum.
Qed.

Lemma norm_nonneg d e V : (0 <= weight_norm d e V)%R.
Proof. apply total_nonneg. intros. apply total_nonneg. intros. apply Rabs_pos. Qed.
Lemma norm_zero d e : weight_norm d e no_weights = 0%R.
Proof. apply total_zero. intros. apply total_zero. intros. apply Rabs_R0. Qed.

Lemma lasso_length d w : List.length w = 2 * (d * d) -> List.length (lasso_matrix d w) = d * d.
Proof. intros H. unfold lasso_matrix, subv. rewrite map_length, combine_length, firstn_length, skipn_length. lia. Qed.
Lemma lasso_lin d w i j : realq (diff_entry d w i j) = split_weights d (vec w) i j.
Proof. unfold diff_entry, split_weights, vec. rewrite realq_minus, Nat.add_assoc. reflexivity. Qed.

Lemma lasso_asked opt eh (X : mat) t beta eps delta V : let d := m_cols X in let n := List.length (m_rows X) in let may := open_edge t Z.of_nat in
  0 < n -> (0 <= beta)%R -> near_optimiser (2 * (d * d)) (lasso_box d may) (lasso_func n d (data X) beta) eps opt ->
  (forall bnds r q x k, (0 < r)%Qc -> (0 <= q)%Qc -> penalty_close delta eh d (lasso_matrix d (opt bnds r (Fin q) x k))) ->
  allowed d may V -> dag d V ->
  forall r q x k, (0 < r)%Qc -> (0 <= q)%Qc -> let w := opt (bnds_matrix t nonneg d ++ bnds_matrix t nonneg d) r (Fin q) x k in
    (exists h, eh d (lasso_matrix d w) = Fin h /\ (0 <= h)%Qc /\ (realq h <= h_fun d (split_weights d (vec w)) + delta)%R) /\ (0 <= h_fun d (split_weights d (vec w)))%R /\
    (0 <= half_mse n d (data X) (linear d (data X) (split_weights d (vec w))) + beta * weight_norm d d (split_weights d (vec w)))%R /\
    (half_mse n d (data X) (linear d (data X) (split_weights d (vec w))) + beta * weight_norm d d (split_weights d (vec w))
     + realq r / 2 * h_fun d (split_weights d (vec w)) ^ 2 + realq q * h_fun d (split_weights d (vec w))
     <= half_mse n d (data X) (linear d (data X) V) + beta * weight_norm d d V + eps)%R.
Proof.
  intros d n may Hn Hb Op Cl Al Dg r q x k Hr Hq w.
  destruct (Op (bnds_matrix t nonneg d ++ bnds_matrix t nonneg d) (fun q x Hq => lasso_bounds t d q x Hq) r q x k Hr Hq) as (Lw & In & M). fold w in M, Lw, In.
  split.
  { destruct (close_bound delta eh d (lasso_matrix d w) (Cl (bnds_matrix t nonneg d ++ bnds_matrix t nonneg d) r q x k Hr Hq)) as (h & E & P & B). exists h. split; [exact E|]. split; [exact P|].
    erewrite h_ext in B; [exact B|]. intros i j Hi Hj. cbn beta. rewrite lasso_entry by (auto; apply lasso_length; exact Lw). apply lasso_lin. }
  split; [apply h_nonneg|]. split.
  { pose proof (mse_nonneg n d (data X) (linear d (data X) (split_weights d (vec w))) Hn). pose proof (Rmult_le_pos _ _ Hb (norm_nonneg d d (split_weights d (vec w)))). lra. }
  specialize (M (split_mat d V) (lasso_bound_in t d V Al)). rewrite (lasso_dag_value _ _ _ _ _ _ _ Dg) in M.
  pose proof (lasso_lower n d (data X) beta (realq r) (realq q) (vec w) Hb) as Lo. change (lasso_mat d (vec w)) with (split_weights d (vec w)) in Lo.
  rewrite loss_mse, <- norm_l1 in Lo.
  assert (P : forall p, p < 2 * (d * d) -> (0 <= vec w p)%R) by (intros p Hp; specialize (In p Hp); apply lasso_bounds in In; auto; apply In).
  specialize (Lo P). lra.
Qed.

Theorem lasso_best fuel opt eh X p t g beta eps delta : 0 < max_iter p -> from_numpy_lasso fuel opt eh X p t = Ok g -> (0 <= beta)%R ->
  let d := m_cols X in let n := List.length (m_rows X) in let may := open_edge t Z.of_nat in
  let cost := fun V => (half_mse n d (data X) (linear d (data X) V) + beta * weight_norm d d V)%R in
  near_optimiser (2 * (d * d)) (lasso_box d may) (lasso_func n d (data X) beta) eps opt ->
  (forall bnds r q x k, (0 < r)%Qc -> (0 <= q)%Qc -> penalty_close delta eh d (lasso_matrix d (opt bnds r (Fin q) x k))) ->
  exists W, graph_of g d node "unknown" W (keep_ge (w_threshold p)) /\ allowed d may (fun i j => realq (W i j)) /\
    (forall V, allowed d may V -> dag d V -> (cost (fun i j => realq (W i j)) <= cost V + eps)%R) /\
    (w_threshold p = 0%Qc -> Digraph.acyclic (edges g) -> dag d (fun i j => realq (W i j))) /\
    forall b, numpy_lasso_warns fuel opt eh X p t = Ok b -> reachable (half_mse n d (data X) (fun _ _ => 0%R)) eps delta p ->
      b = false /\ ((0 <= w_threshold p)%Qc -> excludes d (realq (w_threshold p)) (realq (h_tol p) + delta) -> Digraph.acyclic (edges g)).
Proof.
  intros Hm H Hb d n may cost Op Cl. unfold from_numpy_lasso in H. fold d in H. destruct (all_finite X); cbn [negb] in H; [|discriminate].
  destruct (m_size X =? 0) eqn:Sz; [discriminate|]. apply rows_pos in Sz. fold n in Sz.
  apply bind_ok in H. destruct H as ([s b] & E & H). cbn [fst] in H.
  pose proof (fun V => lasso_asked opt eh X t beta eps delta V Sz Hb Op Cl) as Ask. fold d n may in Ask.
  set (bnds := bnds_matrix t nonneg d ++ bnds_matrix t nonneg d) in *. set (hf := fun w => eh d (lasso_matrix d w)) in *.
  set (Lf := fun w => cost (split_weights d (vec w))). set (Hf := fun w => h_fun d (split_weights d (vec w))). set (Bf := fun V => (cost V + eps)%R).
  destruct (ascent_sound hf opt bnds Lf Hf (Bf no_weights) delta (Ask no_weights (zero_allowed d may) (zero_dag d)) _ _ _ _ _ _ Hm E) as (h & _ & (Aw & Eh) & Eb & _).
  set (w := w_est s) in *.
  assert (Ln : List.length w = 2 * (d * d) /\ forall p, p < 2 * (d * d) -> inside bnds p (vec w p)).
  { destruct Aw as (r & q & x & k & Hr & Hq & ->). destruct (Op bnds (fun q x Hq => lasso_bounds t d q x Hq) r q x k Hr Hq) as (Lw & In & _). auto. }
  destruct Ln as [Lw In].
  assert (Lin : forall i j, i < d -> j < d -> entry d (lasso_matrix d w) i j = diff_entry d w i j) by (intros i j Hi Hj; apply lasso_entry; auto; apply lasso_length; exact Lw).
  assert (G : graph_of g d node "unknown" (entry d (lasso_matrix d w)) (keep_ge (w_threshold p))).
  { eapply matrix_graph_of; [exact H|]. intros i j Hi Hj. rewrite cut_lt_entry. unfold keep_ge.
    destruct (qlt _ _) eqn:Q.
    + apply qlt_iff in Q. split; [|intros [_ X1]; exfalso; apply (Qclt_not_le _ _ Q); auto].
      split; [congruence|]. intros [_ X1]. exfalso. apply (Qclt_not_le _ _ Q); auto.
    + apply qlt_false in Q. tauto. }
  assert (Cw : cost (fun i j => realq (entry d (lasso_matrix d w) i j)) = Lf w).
  { assert (Ex : forall i j, i < d -> j < d -> realq (entry d (lasso_matrix d w) i j) = split_weights d (vec w) i j) by (intros i j Hi Hj; rewrite Lin by auto; apply lasso_lin).
    unfold Lf, cost. rewrite <- !loss_mse, !norm_l1. f_equal; [apply loss_ext; exact Ex|]. f_equal. apply l1_ext. exact Ex. }
  exists (entry d (lasso_matrix d w)). split; [exact G|]. split.
  { intros i j Hi Hj N. rewrite Lin, lasso_lin by auto. apply (box_supported d (okb t) (vec w)); auto; [|apply okb_closed; exact N].
    apply lasso_in_box. intros p0 Hp0. apply lasso_bounds; auto. }
  split. { intros V Al Dg. rewrite Cw. exact (asked_fits hf opt bnds Lf Hf (Bf V) delta w (Ask V Al Dg) Aw). }
  split. { intros T A. eapply graph_dag; [exact G| |exact A]. intros x N. rewrite T. apply keep_nonzero_ge. exact N. }
  intros b' Wn [T1 T2]. unfold numpy_lasso_warns in Wn. fold d in Wn. fold bnds hf in Wn. rewrite E in Wn. cbn [bind snd] in Wn. injection Wn as <-.
  assert (Cz : (Bf no_weights = half_mse n d (data X) (fun _ _ => 0) + eps)%R) by (unfold Bf, cost; rewrite mse_zero, norm_zero; ring).
  assert (Nb : b = false).
  { eapply (ascent_converges hf opt bnds Lf Hf (Bf no_weights) delta (Ask no_weights (zero_allowed d may) (zero_dag d))); [exact Hm|exact E| |]; unfold last_penalty, first_penalty; rewrite Cz; assumption. }
  split; [exact Nb|]. intros Ht Ex. refine (accepted_acyclic g d node _ (lasso_matrix d w) _ p delta eh b G _ (fun x H => H) Ht _ Nb Ex).
  - intros i j _ _ Q. apply node_inj; auto.
  - right. split; [|unfold hf in Eh; rewrite Eh; exact Eb]. destruct Aw as (r & q & x & k & Hr & Hq & ->). apply Cl; auto.
Qed.

(** ** Data frames *)
Lemma renamed_acyclic g0 g d name o o' (w : nat -> nat -> Qc) keep : graph_of g0 d node o w keep -> graph_of g d name o' w keep ->
  (forall i j, i < d -> j < d -> name i = name j -> i = j) -> Digraph.acyclic (edges g0) -> Digraph.acyclic (edges g).
Proof.
  intros G0 G Inj A x C.
  destruct (path_index g d name o' w keep (fun i j => i < d /\ j < d /\ keep (w i j)) G Inj (fun i j Hi Hj K => conj Hi (conj Hj K)) x x C) as (i & j & Hi & Hj & E1 & E2 & T).
  assert (i = j) by (apply Inj; congruence). subst j. apply (A (node i)). clear - T G0. revert T. generalize i at 2 4. intros j T.
  destruct G0 as (_ & _ & G0 & _). induction T as [a b (Ha & Hb & K)|a b c _ H1 _ H2].
  - apply Digraph.path_one. apply G0. exists a, b. auto.
  - eapply Digraph.path_trans; eauto.
Qed.

Lemma near_ext size box box' F eps opt : (forall q x, q < size -> (box q x <-> box' q x)) -> near_optimiser size box F eps opt -> near_optimiser size box' F eps opt.
Proof. intros E H bnds Hb. apply H. intros q x Hq. rewrite Hb, E by auto. tauto. Qed.
Lemma allowed_ext d may may' V : (forall i j, i < d -> j < d -> (may i j <-> may' i j)) -> allowed d may V -> allowed d may' V.
Proof. intros E H i j Hi Hj N. apply H; auto. rewrite E; auto. Qed.

Theorem plain_best_pandas fuel opt eh X p t g eps delta : 0 < max_iter p -> NoDup (map fst (f_cols X)) -> notears_pandas fuel opt eh X p t = Ok g ->
  let d := List.length (f_cols X) in let n := List.length (f_rows X) in let may := open_edge t (col_name (map fst (f_cols X))) in
  near_optimiser (d * d) (plain_box d may) (func n d (frame_data X)) eps opt ->
  (forall bnds r q x k, (0 < r)%Qc -> (0 <= q)%Qc -> penalty_close delta eh d (opt bnds r (Fin q) x k)) ->
  exists W, graph_of g d (col_name (map fst (f_cols X))) "learned" W (keep_gt (w_threshold p)) /\ allowed d may (fun i j => realq (W i j)) /\
    (forall V, allowed d may V -> dag d V -> (half_mse n d (frame_data X) (linear d (frame_data X) (fun i j => realq (W i j))) <= half_mse n d (frame_data X) (linear d (frame_data X) V) + eps)%R) /\
    (w_threshold p = 0%Qc -> Digraph.acyclic (edges g) -> dag d (fun i j => realq (W i j))) /\
    forall b, pandas_warns (fun M tz => numpy_warns fuel opt eh M p tz) X t = Ok b -> reachable (half_mse n d (frame_data X) (fun _ _ => 0%R)) eps delta p ->
      b = false /\ ((0 <= w_threshold p)%Qc -> excludes d (realq (w_threshold p)) (realq (h_tol p) + delta) -> Digraph.acyclic (edges g)).
Proof.
  intros Hm ND H d n may Op Cl. destruct (from_pandas_graph _ X t g ND H) as (tz & g0 & Et & E0 & G). fold d in E0, G.
  assert (O : forall i j, i < d -> j < d -> (may i j <-> open_edge tz Z.of_nat i j)).
  { intros i j Hi Hj. unfold may. symmetry. apply open_named; auto; rewrite map_length; auto. }
  destruct (plain_best fuel opt eh _ p tz g0 eps delta Hm E0) as (W & GW & Al & Be & _ & Cv); cbn [m_cols m_rows] in *.
  - apply (near_ext _ (plain_box d may)); [|exact Op]. intros q x Hq. apply plain_box_ext. auto.
  - exact Cl.
  - pose proof (G _ _ _ GW) as GX. exists W. split; [exact GX|]. split; [eapply allowed_ext; [|exact Al]; intros; symmetry; auto|].
    split; [intros V AV; apply Be; eapply allowed_ext; eauto|].
    split. { intros T A. eapply graph_dag; [exact GX| |exact A]. intros x N. rewrite T. apply keep_nonzero. exact N. }
    intros b Wn Re. unfold pandas_warns in Wn. rewrite Et in Wn. cbn [bind] in Wn. rewrite map_length in Wn. fold d in Wn.
    destruct (Cv b Wn Re) as [Nb Ac]. split; [exact Nb|]. intros Ht Ex. eapply renamed_acyclic; [exact GW|exact GX| |apply Ac; auto].
    apply col_name_inj; auto. rewrite map_length. reflexivity.
Qed.

Theorem lasso_best_pandas fuel opt eh X p t g beta eps delta : 0 < max_iter p -> NoDup (map fst (f_cols X)) -> notears_pandas_lasso fuel opt eh X p t = Ok g -> (0 <= beta)%R ->
  let d := List.length (f_cols X) in let n := List.length (f_rows X) in let may := open_edge t (col_name (map fst (f_cols X))) in
  let cost := fun V => (half_mse n d (frame_data X) (linear d (frame_data X) V) + beta * weight_norm d d V)%R in
  near_optimiser (2 * (d * d)) (lasso_box d may) (lasso_func n d (frame_data X) beta) eps opt ->
  (forall bnds r q x k, (0 < r)%Qc -> (0 <= q)%Qc -> penalty_close delta eh d (lasso_matrix d (opt bnds r (Fin q) x k))) ->
  exists W, graph_of g d (col_name (map fst (f_cols X))) "learned" W (keep_ge (w_threshold p)) /\ allowed d may (fun i j => realq (W i j)) /\
    (forall V, allowed d may V -> dag d V -> (cost (fun i j => realq (W i j)) <= cost V + eps)%R) /\
    (w_threshold p = 0%Qc -> Digraph.acyclic (edges g) -> dag d (fun i j => realq (W i j))) /\
    forall b, pandas_warns (fun M tz => numpy_lasso_warns fuel opt eh M p tz) X t = Ok b -> reachable (half_mse n d (frame_data X) (fun _ _ => 0%R)) eps delta p ->
      b = false /\ ((0 <= w_threshold p)%Qc -> excludes d (realq (w_threshold p)) (realq (h_tol p) + delta) -> Digraph.acyclic (edges g)).
Proof.
  intros Hm ND H Hb d n may cost Op Cl. destruct (from_pandas_graph _ X t g ND H) as (tz & g0 & Et & E0 & G). fold d in E0, G.
  assert (O : forall i j, i < d -> j < d -> (may i j <-> open_edge tz Z.of_nat i j)).
  { intros i j Hi Hj. unfold may. symmetry. apply open_named; auto; rewrite map_length; auto. }
  destruct (lasso_best fuel opt eh _ p tz g0 beta eps delta Hm E0 Hb) as (W & GW & Al & Be & _ & Cv); cbn [m_cols m_rows] in *.
  - apply (near_ext _ (lasso_box d may)); [|exact Op]. intros q x Hq. apply lasso_box_ext. auto.
  - exact Cl.
  - pose proof (G _ _ _ GW) as GX. exists W. split; [exact GX|]. split; [eapply allowed_ext; [|exact Al]; intros; symmetry; auto|].
    split; [intros V AV; apply Be; eapply allowed_ext; eauto|].
    split. { intros T A. eapply graph_dag; [exact GX| |exact A]. intros x N. rewrite T. apply keep_nonzero_ge. exact N. }
    intros b Wn Re. unfold pandas_warns in Wn. rewrite Et in Wn. cbn [bind] in Wn. rewrite map_length in Wn. fold d in Wn.
    destruct (Cv b Wn Re) as [Nb Ac]. split; [exact Nb|]. intros Ht Ex. eapply renamed_acyclic; [exact GW|exact GX| |apply Ac; auto].
    apply col_name_inj; auto. rewrite map_length. reflexivity.
Qed.
