(** * FitLink: what the learners return when the bans leave no cycle and the optimiser is exact. *)
From Coq Require Import List Bool Arith ZArith Lia String QArith Qcanon Qreals Reals Lra Relations.
From Coquelicot Require Import Coquelicot.
From Verif Require Import Base QcX Digraph SmModel SmProofs NotearsModel NotearsProofs NotearsThms AcycModel AcycProofs AcycThms AcycLink.
From Verif Require Import ObjModel ObjProofs ObjGrad ObjLasso PropsObj ObjUnits PropsObjMore ObjFit.
Import ListNotations.
Local Open Scope list_scope.
Local Open Scope nat_scope.

(** ** The dual ascent with a finite penalty *)
Section Finite.
  Variables (hf : list Qc -> fl) (opt : optimiser) (bnds : list bound).
  Hypothesis Fi : forall r q x k, is_finite (hf (opt bnds r (Fin q) x k)) = true.

  (** [w] is an answer of the optimiser, asked with a finite multiplier. *)
  Definition answered (w : list Qc) : Prop := exists r q x k, w = opt bnds r (Fin q) x k.
  Definition settled (s : st) : Prop := answered (w_new s) /\ exists h, h_new s = Fin h.

  Lemma answered_fin w : answered w -> exists h, hf w = Fin h.
  Proof. intros (r & q & x & k & ->). specialize (Fi r q x k). destruct (hf _); try discriminate. eauto. Qed.

  Lemma inner_fin fuel : forall s s' q, alpha s = Fin q -> inner fuel hf opt bnds s = Ok s' -> alpha s' = Fin q /\ (s' = s \/ settled s').
  Proof.
    induction fuel as [|f IH]; intros s s' q Ha H; cbn [inner] in H; destruct (_ && _); try discriminate; try (injection H as <-; auto).
    set (w := opt bnds (rho s) (alpha s) (w_est s) (calls s)) in *.
    assert (Aw : answered w) by (unfold w; rewrite Ha; red; eauto).
    apply IH with (q := q) in H; [|exact Ha]. destruct H as [Ha' H]. split; auto. right. destruct H as [->|H]; auto.
    split; [exact Aw|]. cbn [h_new]. apply answered_fin. auto.
  Qed.

  Lemma inner_fin_enters fuel s s' q : alpha s = Fin q -> rho s = Qcpower ten 0 -> h_new s = PInf -> inner fuel hf opt bnds s = Ok s' -> alpha s' = Fin q /\ settled s'.
  Proof.
    intros Ha Hr Hh H. destruct fuel as [|f]; cbn [inner] in H; rewrite Hr, Hh in H; cbn [is_pinf] in H;
    rewrite orb_true_r, andb_true_r in H; replace (qlt (Qcpower ten 0) rho_max) with true in H by (symmetry; apply qlt_iff, ten_pow_lt; lia);
    [discriminate|].
    apply inner_fin with (q := q) in H; [|exact Ha]. destruct H as [Ha' H]. split; auto. destruct H as [->|H]; auto.
    assert (Aw : answered (opt bnds (Qcpower ten 0) (alpha s) (w_est s) (calls s))) by (rewrite Ha; red; eauto).
    split; [exact Aw|]. cbn [h_new]. apply answered_fin. auto.
  Qed.

  Lemma outer_fin n : forall fuel tol s s' b q, alpha s = Fin q -> (settled s \/ (rho s = Qcpower ten 0 /\ h_new s = PInf)) ->
    outer (S n) fuel hf opt bnds tol s = Ok (s', b) -> answered (w_est s').
  Proof.
    induction n as [|n IH]; intros fuel tol s s' b q Ha I H; cbn [outer] in H; apply bind_ok in H; destruct H as (s1 & E & H);
    (assert (L : alpha s1 = Fin q /\ settled s1) by (destruct I as [I|[I1 I2]]; [destruct (inner_fin _ _ _ q Ha E) as [A1 [->|]]; auto | eapply inner_fin_enters; eauto]));
    destruct L as (A1 & A2 & h & A3); destruct (fle _ _).
    - injection H as <- <-. exact A2.
    - injection H as <- <-. exact A2.
    - injection H as <- <-. exact A2.
    - eapply IH; [|left|exact H]; [cbn [alpha]; rewrite A1, A3; cbn; reflexivity|]. split; [exact A2|]. exists h. exact A3.
  Qed.

  Lemma ascent_fin fuel n len tol s b : 0 < n -> dual_ascent fuel n len hf opt bnds tol = Ok (s, b) -> answered (w_est s).
  Proof. intros Hn H. destruct n as [|n]; [lia|]. unfold dual_ascent in H. eapply outer_fin; [| |exact H]; [reflexivity|]. right. auto. Qed.
End Finite.

(** ** Specification *)

(** The vector of an array, the entry of a data set, the set of numbers within a pair of bounds *)
Definition vec (w : list Qc) (q : nat) : R := realq (nth q w 0%Qc).
Definition data (X : mat) (r c : nat) : R := match nth c (nth r (m_rows X) []) NaN with Fin q => realq q | _ => 0%R end.
Definition inside (bnds : list bound) (q : nat) (x : R) : Prop :=
  (forall l, fst (nth q bnds free) = Some l -> (realq l <= x)%R) /\ (forall u, snd (nth q bnds free) = Some u -> (x <= realq u)%R).

(** The edge from [i] to [j] is no loop and not banned. *)
Definition open_edge {A} (t : tabu A) (name : nat -> A) (i j : nat) : Prop := i <> j /\ ~ banned t (name i) (name j).

(** No chain of edges that may be learned leads back to its start. *)
Definition no_loop (d : nat) (may : nat -> nat -> Prop) : Prop :=
  forall i, ~ clos_trans nat (fun a b => a < d /\ b < d /\ may a b) i i.

(** Given bounds that allow what the description [box] says, the optimiser returns a vector of [size] numbers
    that minimises the objective [F] of the multipliers. *)
Definition exact_optimiser (size : nat) (box : nat -> R -> Prop) (F : R -> R -> (nat -> R) -> R) (opt : optimiser) : Prop :=
  forall bnds, (forall q x, q < size -> (inside bnds q x <-> box q x)) ->
    forall r q x k, List.length (opt bnds r (Fin q) x k) = size /\
      minimises size (inside bnds) (F (realq r) (realq q)) (vec (opt bnds r (Fin q) x k)).

(** ** Bounds *)
Definition okb (t : tabu Z) (i j : nat) : bool := match bnd t free i j with (None, _) => true | _ => false end.

Lemma bnd_ok t o i j : bnd t o i j = if okb t i j then o else fixed0.
Proof. unfold okb, bnd. repeat match goal with |- context [if ?b then _ else _] => destruct b; auto end. Qed.

Lemma okb_open t i j : okb t i j = true <-> open_edge t Z.of_nat i j.
Proof.
  split.
  - intros H. split; [intros ->|intros B]; pose proof (bnd_banned t free) as Bb; unfold okb in H.
    + rewrite Bb in H by auto. discriminate.
    + rewrite Bb in H by auto. discriminate.
  - intros [N B]. unfold okb, bnd. destruct (Nat.eqb_spec i j); [contradiction|].
    destruct (on_list (t_edges t) _) eqn:E1; [|destruct (on_list (t_parents t) _) eqn:E2; [|destruct (on_list (t_children t) _) eqn:E3; [|reflexivity]]]; exfalso; apply B.
    + left. destruct (t_edges t) as [l|]; [|discriminate]. exists l. split; auto. apply zzmem_In. exact E1.
    + right. left. destruct (t_parents t) as [l|]; [|discriminate]. exists l. split; auto. cbn [on_list] in E2. unfold zmem in E2. apply existsb_exists in E2. destruct E2 as (z & I & Q). apply Z.eqb_eq in Q. congruence.
    + right. right. destruct (t_children t) as [l|]; [|discriminate]. exists l. split; auto. cbn [on_list] in E3. unfold zmem in E3. apply existsb_exists in E3. destruct E3 as (z & I & Q). apply Z.eqb_eq in Q. congruence.
Qed.

Lemma okb_closed t i j : okb t i j = false <-> ~ open_edge t Z.of_nat i j.
Proof. rewrite <- okb_open. destruct (okb t i j); split; intros; congruence. Qed.

Lemma inside_fixed x : ((forall l, fst fixed0 = Some l -> (realq l <= x)%R) /\ (forall u, snd fixed0 = Some u -> (x <= realq u)%R)) <-> x = 0%R.
Proof.
  cbn. split.
  - intros [A B]. specialize (A _ eq_refl). specialize (B _ eq_refl). rewrite realq_0 in *. lra.
  - intros ->. split; intros l [= <-]; rewrite realq_0; lra.
Qed.
Lemma inside_free x : ((forall l, fst free = Some l -> (realq l <= x)%R) /\ (forall u, snd free = Some u -> (x <= realq u)%R)) <-> True.
Proof. cbn. split; auto. intros _. split; discriminate. Qed.
Lemma inside_nonneg x : ((forall l, fst nonneg = Some l -> (realq l <= x)%R) /\ (forall u, snd nonneg = Some u -> (x <= realq u)%R)) <-> (0 <= x)%R.
Proof.
  cbn. split.
  - intros [A _]. specialize (A _ eq_refl). rewrite realq_0 in *. lra.
  - intros H. split; [intros l [= <-]; rewrite realq_0; lra|discriminate].
Qed.

Lemma realq_minus x y : realq (x - y)%Qc = (realq x - realq y)%R.
Proof.
  unfold realq. rewrite <- Q2R_minus. apply Qeq_eqR. unfold Qcminus, Qcplus, Qcopp, Q2Qc. cbn [this]. rewrite !Qred_correct. reflexivity.
Qed.

Lemma no_loop_cycle d t : no_loop d (open_edge t Z.of_nat) -> no_cycle d (okb t).
Proof.
  intros H i C. apply (H i). revert C. generalize i at 1 3. intros k C.
  induction C as [x y (Hx & Hy & N)|x y z _ H1 _ H2]; [apply t_step|eapply t_trans; eauto]. split; auto. split; auto. apply okb_open. auto.
Qed.

(** ** Plain *)
Definition plain_box (d : nat) (may : nat -> nat -> Prop) (q : nat) (x : R) : Prop :=
  forall i j, i < d -> j < d -> q = i * d + j -> ~ may i j -> x = 0%R.

Lemma div_pair d i j i' j' : j < d -> j' < d -> i * d + j = i' * d + j' -> i = i' /\ j = j'.
Proof. intros Hj Hj' E. destruct (div_row d i j Hj) as [D M]. destruct (div_row d i' j' Hj') as [D' M']. rewrite E in *. lia. Qed.

Lemma plain_bounds t d q x : q < d * d -> (inside (bnds_matrix t free d) q x <-> plain_box d (open_edge t Z.of_nat) q x).
Proof.
  intros Hq. destruct (decode d q d Hq) as (i & j & Hi & Hj & ->). unfold inside. rewrite bnds_entry, bnd_ok by auto.
  destruct (okb t i j) eqn:O.
  - rewrite inside_free. split; auto. intros _ i' j' Hi' Hj' E N. exfalso. destruct (div_pair d i j i' j' Hj Hj' E) as [-> ->]. apply N. apply okb_open. auto.
  - rewrite inside_fixed. split.
    + intros -> ? ? ? ? ? ?. reflexivity.
    + intros H. apply (H i j); auto. apply okb_closed. auto.
Qed.

Lemma rows_pos X : (m_size X =? 0) = false -> 0 < List.length (m_rows X).
Proof. intros H. apply Nat.eqb_neq in H. unfold m_size in H. destruct (List.length (m_rows X)); cbn in *; lia. Qed.

Lemma minimises_box size box box' F w : (forall q x, q < size -> (box q x <-> box' q x)) -> minimises size box F w -> minimises size box' F w.
Proof.
  intros E [A B]. split.
  - intros q Hq. apply E; auto.
  - intros v Hv. apply B. intros q Hq. apply E; auto.
Qed.

Theorem plain_learned fuel opt eh X p t g : 0 < max_iter p -> from_numpy fuel opt eh X p t = Ok g ->
  let d := m_cols X in let n := List.length (m_rows X) in let may := open_edge t Z.of_nat in
  (forall w, is_finite (eh d w) = true) -> no_loop d may -> exact_optimiser (d * d) (plain_box d may) (func n d (data X)) opt ->
  exists W, graph_of g d node "unknown" W (keep_gt (w_threshold p)) /\ (forall i j, i < d -> j < d -> ~ may i j -> W i j = 0%Qc) /\
    (forall i j, i < d -> j < d -> may i j -> total n (fun r => data X r i * (data X r j - linear d (data X) (fun a b => realq (W a b)) r j))%R = 0%R).
Proof.
  intros Hm H d n may Fi NL Ex. unfold from_numpy in H. fold d in H. destruct (all_finite X); cbn [negb] in H; [|discriminate].
  destruct (m_size X =? 0) eqn:Sz; [discriminate|]. apply rows_pos in Sz. fold n in Sz.
  apply bind_ok in H. destruct H as ([s b] & E & H). cbn [fst] in H.
  destruct (ascent_fin (eh d) opt (bnds_matrix t free d) (fun r q x k => Fi _) _ _ _ _ _ _ Hm E) as (r & q & x & k & Ew).
  destruct (Ex (bnds_matrix t free d) (fun q x Hq => plain_bounds t d q x Hq) r q x k) as [Lw M]. rewrite <- Ew in Lw, M.
  set (w := w_est s) in *. exists (entry d w). split; [|].
  - eapply matrix_graph_of; [exact H|]. intros i j Hi Hj. rewrite cut_le_entry. unfold keep_gt.
    destruct (qle _ _) eqn:Q.
    + apply qle_iff in Q. split; [|intros [_ X1]; exfalso; apply (Qclt_not_le _ _ X1); auto].
      split; [congruence|]. intros [_ X1]. exfalso. apply (Qclt_not_le _ _ X1); auto.
    + apply qle_false in Q. tauto.
  - apply (minimises_box _ _ _ _ _ (fun q x Hq => plain_bounds t d q x Hq)) in M. destruct M as [M1 M2].
    assert (S : supported d d (okb t) (plain_weights d (vec w))).
    { intros i j Hi Hj O. apply okb_closed in O. pose proof (index_lt d i j Hi Hj) as Hq. apply (M1 _ Hq i j); auto. }
    assert (Lin : forall i j, realq (entry d w i j) = plain_weights d (vec w) i j) by reflexivity.
    split.
    + intros i j Hi Hj O. apply okb_closed in O. specialize (S i j Hi Hj O). rewrite <- Lin in S.
      apply Qc_is_canon. apply eqR_Qeq. change (realq (entry d w i j) = realq 0). rewrite realq_0. exact S.
    + intros i j Hi Hj O. apply okb_open in O.
      assert (A : residual_moment n d (data X) (data X) (plain_weights d (vec w)) i j = 0%R).
      { apply (proj1 (plain_fit n d (data X) (realq r) (realq q) (okb t) Sz (no_loop_cycle d t NL) (vec w) S)); auto.
        intros v Sv. apply M2. intros p0 Hp0 i' j' Hi' Hj' -> N. apply Sv; auto. apply okb_closed. auto. }
      unfold residual_moment, Rdiv in A. apply Rmult_integral in A. destruct A as [A|A]; [exact A|].
      exfalso. apply lt_INR in Sz. cbn in Sz. apply (Rinv_neq_0_compat (INR n)) in A; auto. lra.
Qed.

(** ** Lasso *)
Definition lasso_box (d : nat) (may : nat -> nat -> Prop) (q : nat) (x : R) : Prop :=
  (0 <= x)%R /\ forall b i j, b < 2 -> i < d -> j < d -> q = b * (d * d) + (i * d + j) -> ~ may i j -> x = 0%R.

Lemma lasso_bounds t d q x : q < 2 * (d * d) -> (inside (bnds_matrix t nonneg d ++ bnds_matrix t nonneg d) q x <-> lasso_box d (open_edge t Z.of_nat) q x).
Proof.
  intros Hq.
  assert (D : exists b i j, b < 2 /\ i < d /\ j < d /\ q = b * (d * d) + (i * d + j)).
  { destruct (Nat.lt_ge_cases q (d * d)) as [H|H].
    - destruct (decode d q d H) as (i & j & Hi & Hj & ->). exists 0, i, j. repeat split; auto.
    - assert (H' : q - d * d < d * d) by lia. destruct (decode d _ d H') as (i & j & Hi & Hj & E). exists 1, i, j. repeat split; auto. lia. }
  destruct D as (b & i & j & Hb & Hi & Hj & ->).
  assert (N : nth (b * (d * d) + (i * d + j)) (bnds_matrix t nonneg d ++ bnds_matrix t nonneg d) free = bnd t nonneg i j).
  { pose proof (index_lt d i j Hi Hj). destruct b as [|[|b]]; [| |lia].
    - cbn [Nat.mul plus]. rewrite app_nth1 by (rewrite bnds_length; auto). apply bnds_entry; auto.
    - rewrite app_nth2 by (rewrite bnds_length; lia). rewrite bnds_length. replace (1 * (d * d) + (i * d + j) - d * d) with (i * d + j) by lia. apply bnds_entry; auto. }
  unfold inside. rewrite N, bnd_ok. pose proof (index_lt d i j Hi Hj) as Hx. destruct (okb t i j) eqn:O.
  - rewrite inside_nonneg. split; [|intros [A _]; exact A]. intros A. split; auto. intros b' i' j' Hb' Hi' Hj' E Nm. exfalso.
    pose proof (index_lt d i' j' Hi' Hj') as Hx'.
    assert (E2 : i * d + j = i' * d + j') by (destruct b as [|[|b]], b' as [|[|b']]; lia).
    destruct (div_pair d i j i' j' Hj Hj' E2) as [-> ->]. apply Nm. apply okb_open. auto.
  - rewrite inside_fixed. split.
    + intros ->. split; [lra|]. intros. reflexivity.
    + intros [_ H]. apply (H b i j); auto. apply okb_closed. auto.
Qed.

Lemma lasso_in_box t d w : (forall q, q < 2 * (d * d) -> lasso_box d (open_edge t Z.of_nat) q (w q)) <-> in_box d (okb t) w.
Proof.
  split.
  - intros H i j Hi Hj. pose proof (index_lt d i j Hi Hj) as Hx. split.
    + split; apply H; lia.
    + intros O. apply okb_closed in O. split.
      * apply (proj2 (H (i * d + j) ltac:(lia)) 0 i j); auto.
      * apply (proj2 (H (d * d + (i * d + j)) ltac:(lia)) 1 i j); auto. lia.
  - intros B q Hq. split; [apply (box_pos d (okb t) w B q Hq)|]. intros b i j Hb Hi Hj -> O. apply okb_closed in O. destruct (B i j Hi Hj) as [_ Z]. destruct (Z O) as [Z1 Z2].
    destruct b as [|[|b]]; [exact Z1| |lia]. replace (1 * (d * d) + (i * d + j)) with (d * d + (i * d + j)) by lia. exact Z2.
Qed.

Theorem lasso_learned fuel opt eh X p t g beta : 0 < max_iter p -> from_numpy_lasso fuel opt eh X p t = Ok g -> (0 <= beta)%R ->
  let d := m_cols X in let n := List.length (m_rows X) in let may := open_edge t Z.of_nat in
  (forall w, is_finite (eh d w) = true) -> no_loop d may -> exact_optimiser (2 * (d * d)) (lasso_box d may) (lasso_func n d (data X) beta) opt ->
  exists W, graph_of g d node "unknown" W (keep_ge (w_threshold p)) /\ (forall i j, i < d -> j < d -> ~ may i j -> W i j = 0%Qc) /\
    (forall i j, i < d -> j < d -> may i j -> optimal_weight beta (residual_moment n d (data X) (data X) (fun a b => realq (W a b)) i j) (realq (W i j))).
Proof.
  intros Hm H Hb d n may Fi NL Ex. unfold from_numpy_lasso in H. fold d in H. destruct (all_finite X); cbn [negb] in H; [|discriminate].
  destruct (m_size X =? 0) eqn:Sz; [discriminate|]. apply rows_pos in Sz. fold n in Sz.
  apply bind_ok in H. destruct H as ([s b] & E & H). cbn [fst] in H.
  destruct (ascent_fin (fun w => eh d (lasso_matrix d w)) opt (bnds_matrix t nonneg d ++ bnds_matrix t nonneg d) (fun r q x k => Fi _) _ _ _ _ _ _ Hm E) as (r & q & x & k & Ew).
  destruct (Ex (bnds_matrix t nonneg d ++ bnds_matrix t nonneg d) (fun q x Hq => lasso_bounds t d q x Hq) r q x k) as [Lw M]. rewrite <- Ew in Lw, M.
  set (w := w_est s) in *. exists (diff_entry d w). split; [|].
  - assert (L : List.length (lasso_matrix d w) = d * d).
    { unfold sm_of_matrix in H. rewrite cut_lt_length in H. destruct (_ =? _) eqn:L; [|discriminate]. apply Nat.eqb_eq; auto. }
    eapply matrix_graph_of; [exact H|]. intros i j Hi Hj. rewrite cut_lt_entry, lasso_entry by auto. unfold keep_ge.
    destruct (qlt _ _) eqn:Q.
    + apply qlt_iff in Q. split; [|intros [_ X1]; exfalso; apply (Qclt_not_le _ _ Q); auto].
      split; [congruence|]. intros [_ X1]. exfalso. apply (Qclt_not_le _ _ Q); auto.
    + apply qlt_false in Q. tauto.
  - apply (minimises_box _ _ _ _ _ (fun q x Hq => lasso_bounds t d q x Hq)) in M. destruct M as [M1 M2].
    rewrite lasso_in_box in M1. pose proof (box_supported d (okb t) (vec w) M1) as S.
    assert (Lin : forall i j, realq (diff_entry d w i j) = split_weights d (vec w) i j).
    { intros i j. unfold diff_entry, split_weights, vec. rewrite realq_minus, Nat.add_assoc. reflexivity. }
    split.
    + intros i j Hi Hj O. apply okb_closed in O. specialize (S i j Hi Hj O). rewrite <- Lin in S.
      apply Qc_is_canon. apply eqR_Qeq. change (realq (diff_entry d w i j) = realq 0). rewrite realq_0. exact S.
    + intros i j Hi Hj O. apply okb_open in O. rewrite Lin.
      rewrite (moment_ext n d d _ _ _ (split_weights d (vec w)) i j Hj) by (intros; apply Lin).
      apply (lasso_fit n d (data X) beta (realq r) (realq q) (okb t) Sz Hb (no_loop_cycle d t NL) (vec w) M1); auto.
      intros v Bv. apply M2. apply lasso_in_box. exact Bv.
Qed.

(** ** Data frames *)
Lemma open_named cols t tz i j : NoDup cols -> tabu_index (col_idx cols) t = Ok tz -> i < List.length cols -> j < List.length cols ->
  (open_edge tz Z.of_nat i j <-> open_edge t (col_name cols) i j).
Proof.
  intros ND E Hi Hj. unfold open_edge. split; intros [N B]; (split; [exact N|]); intros C; apply B.
  - eapply tabu_index_ban; eauto.
  - eapply tabu_index_ban_inv; eauto.
Qed.

Lemma no_loop_ext d may may' : (forall i j, i < d -> j < d -> (may i j <-> may' i j)) -> no_loop d may -> no_loop d may'.
Proof.
  intros E H i C. apply (H i). revert C. generalize i at 1 3. intros k C.
  induction C as [x y (Hx & Hy & N)|x y z _ H1 _ H2]; [apply t_step|eapply t_trans; eauto]. split; auto. split; auto. apply E; auto.
Qed.

Lemma exact_ext size box box' F opt : (forall q x, q < size -> (box q x <-> box' q x)) -> exact_optimiser size box F opt -> exact_optimiser size box' F opt.
Proof. intros E H bnds Hb. apply H. intros q x Hq. rewrite Hb, E by auto. tauto. Qed.

Lemma plain_box_ext d may may' q x : (forall i j, i < d -> j < d -> (may i j <-> may' i j)) -> plain_box d may q x <-> plain_box d may' q x.
Proof. intros E. split; intros H i j Hi Hj Q N; apply (H i j); auto; rewrite E in *; auto. Qed.
Lemma lasso_box_ext d may may' q x : (forall i j, i < d -> j < d -> (may i j <-> may' i j)) -> lasso_box d may q x <-> lasso_box d may' q x.
Proof. intros E. split; intros [P H]; (split; [exact P|]); intros b i j Hb Hi Hj Q N; apply (H b i j); auto; rewrite E in *; auto. Qed.

Definition frame_data (X : frame) : nat -> nat -> R := data (mkMat (List.length (f_cols X)) (f_rows X)).

Theorem plain_learned_pandas fuel opt eh X p t g : 0 < max_iter p -> NoDup (map fst (f_cols X)) -> notears_pandas fuel opt eh X p t = Ok g ->
  let d := List.length (f_cols X) in let n := List.length (f_rows X) in let may := open_edge t (col_name (map fst (f_cols X))) in
  (forall w, is_finite (eh d w) = true) -> no_loop d may -> exact_optimiser (d * d) (plain_box d may) (func n d (frame_data X)) opt ->
  exists W, graph_of g d (col_name (map fst (f_cols X))) "learned" W (keep_gt (w_threshold p)) /\ (forall i j, i < d -> j < d -> ~ may i j -> W i j = 0%Qc) /\
    (forall i j, i < d -> j < d -> may i j -> total n (fun r => frame_data X r i * (frame_data X r j - linear d (frame_data X) (fun a b => realq (W a b)) r j))%R = 0%R).
Proof.
  intros Hm ND H d n may Fi NL Ex. destruct (from_pandas_graph _ X t g ND H) as (tz & g0 & Et & E0 & G). fold d in E0, G.
  assert (O : forall i j, i < d -> j < d -> (open_edge tz Z.of_nat i j <-> may i j)).
  { intros i j Hi Hj. unfold may. apply open_named; auto; rewrite map_length; auto. }
  destruct (plain_learned fuel opt eh _ p tz g0 Hm E0) as (W & GW & Z & N); cbn [m_cols m_rows].
  - exact Fi.
  - apply (no_loop_ext d may); auto. intros. symmetry. auto.
  - apply (exact_ext _ (plain_box d may)); [|exact Ex]. intros q x Hq. apply plain_box_ext. intros. symmetry. auto.
  - exists W. split; [exact (G _ _ _ GW)|]. split.
    + intros i j Hi Hj Nm. apply Z; auto. rewrite O; auto.
    + intros i j Hi Hj M. apply N; auto. apply O; auto.
Qed.

Theorem lasso_learned_pandas fuel opt eh X p t g beta : 0 < max_iter p -> NoDup (map fst (f_cols X)) -> notears_pandas_lasso fuel opt eh X p t = Ok g -> (0 <= beta)%R ->
  let d := List.length (f_cols X) in let n := List.length (f_rows X) in let may := open_edge t (col_name (map fst (f_cols X))) in
  (forall w, is_finite (eh d w) = true) -> no_loop d may -> exact_optimiser (2 * (d * d)) (lasso_box d may) (lasso_func n d (frame_data X) beta) opt ->
  exists W, graph_of g d (col_name (map fst (f_cols X))) "learned" W (keep_ge (w_threshold p)) /\ (forall i j, i < d -> j < d -> ~ may i j -> W i j = 0%Qc) /\
    (forall i j, i < d -> j < d -> may i j -> optimal_weight beta (residual_moment n d (frame_data X) (frame_data X) (fun a b => realq (W a b)) i j) (realq (W i j))).
Proof.
  intros Hm ND H Hb d n may Fi NL Ex. destruct (from_pandas_graph _ X t g ND H) as (tz & g0 & Et & E0 & G). fold d in E0, G.
  assert (O : forall i j, i < d -> j < d -> (open_edge tz Z.of_nat i j <-> may i j)).
  { intros i j Hi Hj. unfold may. apply open_named; auto; rewrite map_length; auto. }
  destruct (lasso_learned fuel opt eh _ p tz g0 beta Hm E0 Hb) as (W & GW & Z & N); cbn [m_cols m_rows].
  - exact Fi.
  - apply (no_loop_ext d may); auto. intros. symmetry. auto.
  - apply (exact_ext _ (lasso_box d may)); [|exact Ex]. intros q x Hq. apply lasso_box_ext. intros. symmetry. auto.
  - exists W. split; [exact (G _ _ _ GW)|]. split.
    + intros i j Hi Hj Nm. apply Z; auto. rewrite O; auto.
    + intros i j Hi Hj M. apply N; auto. apply O; auto.
Qed.
