(** * FitBestDyno: the effects learned by DYNOTEARS fit at least as well as all allowed effects without cycles. *)
From Coq Require Import List Bool Arith ZArith Lia String QArith Qcanon Qreals Reals Lra Relations.
From Coquelicot Require Import Coquelicot.
From Verif Require Import Base QcX Digraph SmModel SmProofs NotearsModel NotearsProofs NotearsThms TransModel MapperModel DynoModel DynoProofs DynoThms AcycModel AcycProofs AcycThms AcycLink DynoLoss.
From Verif Require Import ObjModel ObjProofs ObjGrad ObjLasso PropsObj ObjUnits PropsObjMore ObjFit FitLink FitDyno OrdProofs FitBound FitBest.
Import ListNotations.
Local Open Scope list_scope.
Local Open Scope nat_scope.

(** ** Specification *)

(** The prediction of variable [j] in row [r] from the variables of the same and the [p] previous periods *)
Definition predicted (X Xlags : mat) (p : nat) (E : nat -> nat -> nat -> R) (r j : nat) : R :=
  total (S p) (fun k => total (m_cols X) (fun i => lagged X Xlags k r i * E k i j)%R).

(** Least squares with L1 penalties for the effects within the period and the lagged effects *)
Definition dyn_cost (X Xlags : mat) (p : nat) (lw la : R) (E : nat -> nat -> nat -> R) : R :=
  (half_mse (List.length (m_rows X)) (m_cols X) (data X) (predicted X Xlags p E) + lw * weight_norm (m_cols X) (m_cols X) (E 0%nat)
   + la * total p (fun k => weight_norm (m_cols X) (m_cols X) (E (S k))))%R.

Definition lag_allowed (d p : nat) (may : nat -> nat -> nat -> Prop) (E : nat -> nat -> nat -> R) : Prop :=
  forall k i j, k <= p -> i < d -> j < d -> ~ may k i j -> E k i j = 0%R.

(** ** Lemmas *)
Lemma dyn_cost_eq X Xlags p lw la E W A : let d := m_cols X in
  (forall i j, i < d -> j < d -> W i j = E 0 i j) -> (forall k i j, k < p -> i < d -> j < d -> A (k * d + i) j = E (S k) i j) ->
  dyn_cost X Xlags p lw la E = (0.5 / INR (List.length (m_rows X)) * norm2 (List.length (m_rows X)) d (msub (mmul d (data X) (msub mid W)) (mmul (p * d) (data Xlags) A)) + (lw * l1 d d W + la * l1 (p * d) d A))%R.
Proof.
  intros d HW HA. unfold dyn_cost. fold d. rewrite Rplus_assoc. f_equal; [|f_equal; f_equal].
  - apply mse_norm. intros r c Hr Hc. unfold msub at 1. rewrite resid_entry by auto. unfold predicted. fold d. change (S p) with (1 + p). rewrite total_app. cbn [total].
    assert (E1 : linear d (data X) W r c = total d (fun i => lagged X Xlags 0%nat r i * E 0%nat i c)%R) by (apply total_ext; intros i Hi; rewrite HW by auto; reflexivity).
    assert (E2 : mmul (p * d) (data Xlags) A r c = total p (fun k => total d (fun i => lagged X Xlags (1 + k)%nat r i * E (1 + k)%nat i c)%R)).
    { unfold mmul. rewrite rsum_blocks, total_rsum. apply rsum_ext. intros k Hk. rewrite total_rsum. apply rsum_ext. intros i Hi. rewrite HA by auto. reflexivity. }
    rewrite E1, E2. ring.
  - rewrite norm_l1. apply l1_ext. intros. symmetry. auto.
  - rewrite l1_lags, total_rsum. apply rsum_ext. intros k Hk. rewrite norm_l1. unfold l1. apply rsum_ext. intros i Hi. apply rsum_ext. intros j Hj. rewrite HA by auto. reflexivity.
Qed.

Definition no_effects (k i j : nat) : R := 0%R.
Lemma dyn_cost_zero X Xlags p lw la : dyn_cost X Xlags p lw la no_effects = half_mse (List.length (m_rows X)) (m_cols X) (data X) (fun _ _ => 0%R).
Proof.
  unfold dyn_cost. rewrite (norm_zero (m_cols X) (m_cols X) : weight_norm _ _ (no_effects 0%nat) = 0%R), (total_zero p) by (intros k _; apply norm_zero).
  transitivity (half_mse (List.length (m_rows X)) (m_cols X) (data X) (predicted X Xlags p no_effects)); [ring|].
  unfold half_mse. f_equal. apply total_ext. intros r _. apply total_ext. intros c _. f_equal. f_equal. unfold predicted. apply total_zero. intros k _. apply total_zero. intros i _. unfold no_effects. ring.
Qed.

Lemma dyn_asked opt eh (X Xlags : mat) t lw la eps delta V : let d := m_cols X in let p := m_cols Xlags / d in let n := List.length (m_rows X) in let may := open_lag t Z.of_nat in
  0 < n -> (0 <= lw)%R -> (0 <= la)%R -> near_optimiser (2 * (p + 1) * (d * d)) (dyn_box d p may) (dyn_func n d p (data X) (data Xlags) lw la) eps opt ->
  (forall bnds r q x k wa, (0 < r)%Qc -> (0 <= q)%Qc -> reshape_wa (opt bnds r (Fin q) x k) d p = Ok wa -> penalty_close delta eh d (fst wa)) ->
  lag_allowed d p may V -> dag d (V 0) ->
  forall r q x k, (0 < r)%Qc -> (0 <= q)%Qc -> let w := opt (dbnds t d p) r (Fin q) x k in
    (exists h, dyn_h eh d p w = Fin h /\ (0 <= h)%Qc /\ (realq h <= h_fun d (dyn_w d (vec w)) + delta)%R) /\ (0 <= h_fun d (dyn_w d (vec w)))%R /\
    (0 <= dyn_cost X Xlags p lw la (fun k i j => realq (effect d w k i j)))%R /\
    (dyn_cost X Xlags p lw la (fun k i j => realq (effect d w k i j)) + realq r / 2 * h_fun d (dyn_w d (vec w)) ^ 2 + realq q * h_fun d (dyn_w d (vec w))
     <= dyn_cost X Xlags p lw la V + eps)%R.
Proof.
  intros d p n may Hn Hlw Hla Op Cl Al Dg r q x k Hr Hq w.
  destruct (Op (dbnds t d p) (fun q x Hq => dyn_bounds t d p q x Hq) r q x k Hr Hq) as (Lw & In & M). fold w in M, Lw, In.
  assert (Re : exists wa, reshape_wa w d p = Ok wa).
  { unfold reshape_wa. rewrite Lw. replace (2 * (p + 1) * (d * d) =? 2 * (p + 1) * d * d) with true by (symmetry; apply Nat.eqb_eq; lia). eauto. }
  destruct Re as ([w0 a0] & Re). destruct (reshape_ok _ _ _ _ _ Re) as (_ & _ & _ & Ew & _).
  split.
  { destruct (close_bound delta eh d w0 (Cl _ r q x k _ Hr Hq Re)) as (h & E & P & B). exists h. unfold dyn_h. rewrite Re. split; [exact E|]. split; [exact P|].
    erewrite h_ext in B; [exact B|]. intros i j Hi Hj. cbn beta. rewrite Ew by auto. apply effect_now. }
  split; [apply h_nonneg|]. split.
  { unfold dyn_cost. pose proof (mse_nonneg n d (data X) (predicted X Xlags p (fun k i j => realq (effect d w k i j))) Hn).
    pose proof (Rmult_le_pos _ _ Hlw (norm_nonneg d d (fun i j => realq (effect d w 0 i j)))).
    assert (0 <= la * total p (fun k => weight_norm d d (fun i j => realq (effect d w (S k) i j))))%R by (apply Rmult_le_pos; auto; apply total_nonneg; intros; apply norm_nonneg).
    fold d n. lra. }
  set (A := fun m j => V (S (m / d)) (m mod d) j).
  assert (HA : forall k i j, k < p -> i < d -> j < d -> A (k * d + i) j = V (S k) i j) by (intros a i j Ha Hi Hj; unfold A; destruct (div_row d a i Hi) as [-> ->]; reflexivity).
  specialize (M (split_dyn d (V 0) A)). rewrite dyn_at_split, (dag_h d (V 0) Dg) in M.
  pose proof (dyn_cost_eq X Xlags p lw la V (V 0) A (fun _ _ _ _ => eq_refl) HA) as CV. fold d n in CV.
  pose proof (dyn_cost_eq X Xlags p lw la (fun k i j => realq (effect d w k i j)) (dyn_w d (vec w)) (dyn_a d (vec w))) as CW. cbv zeta in CW. fold d n in CW.
  rewrite CV, CW; [|intros; symmetry; apply effect_now|intros; symmetry; apply effect_lag; auto].
  assert (Bx : forall v, in_dbox d p (okd t 0) (fun k => okd t (S k)) v -> forall q, q < 2 * (p + 1) * (d * d) -> inside (dbnds t d p) q (v q)).
  { intros v B q' Hq'. apply dyn_bounds; auto. revert q' Hq'. apply dyn_in_box. exact B. }
  assert (Pos : forall q, q < 2 * (p + 1) * (d * d) -> (0 <= vec w q)%R).
  { intros q' Hq'. specialize (In q' Hq'). apply dyn_bounds in In; auto. apply In. }
  pose proof (dyn_lower n d p (data X) (data Xlags) lw la (realq r) (realq q) (vec w) Hlw Hla Pos) as Lo. unfold dyn_resid in Lo.
  assert (SB : in_dbox d p (okd t 0) (fun k => okd t (S k)) (split_dyn d (V 0) A)).
  { apply (split_dbox n); [exact Hn| |].
    - intros i j Hi Hj O. apply okd_closed in O. apply Al; auto. lia.
    - intros a i j Ha Hi Hj O. apply okd_closed in O. rewrite HA by auto. apply Al; auto. }
  specialize (M (Bx _ SB)).
  lra.
Qed.

Theorem dynamic_best fuel opt eh X Xlags par t g b lw la eps delta : 0 < max_iter par -> learn_numpy_dynamic fuel opt eh X Xlags par t = Ok (g, b) -> (0 <= lw)%R -> (0 <= la)%R ->
  let d := m_cols X in let p := m_cols Xlags / d in let n := List.length (m_rows X) in let may := open_lag t Z.of_nat in
  near_optimiser (2 * (p + 1) * (d * d)) (dyn_box d p may) (dyn_func n d p (data X) (data Xlags) lw la) eps opt ->
  (forall bnds r q x k wa, (0 < r)%Qc -> (0 <= q)%Qc -> reshape_wa (opt bnds r (Fin q) x k) d p = Ok wa -> penalty_close delta eh d (fst wa)) ->
  exists E, dgraph_of g d p dname "unknown" E (keep_ge (w_threshold par)) /\ lag_allowed d p may (fun k i j => realq (E k i j)) /\
    (forall V, lag_allowed d p may V -> dag d (V 0) -> (dyn_cost X Xlags p lw la (fun k i j => realq (E k i j)) <= dyn_cost X Xlags p lw la V + eps)%R) /\
    (reachable (half_mse n d (data X) (fun _ _ => 0%R)) eps delta par ->
      b = false /\ ((0 <= w_threshold par)%Qc -> excludes d (realq (w_threshold par)) (realq (h_tol par) + delta) -> Digraph.acyclic (edges g))).
Proof.
  intros Hm H Hlw Hla d p n may Op Cl.
  destruct (numpy_dynamic_states _ _ _ _ _ _ _ _ _ H) as (Hd & _ & v & G & _ & _ & (s & Ea & Ev) & [w0 a0] & Re). fold d p in Hd, G, Ea, Re.
  assert (Hn : 0 < n).
  { unfold learn_numpy_dynamic in H. fold d in H. destruct (Nat.eqb_spec d 0) as [|_]; [discriminate|]. fold p in H.
    apply bind_ok in H. destruct H as (o & El & _). unfold learn_dynamic in El. destruct (m_size X =? 0) eqn:Sz; [discriminate|]. apply rows_pos in Sz. exact Sz. }
  pose proof (fun V => dyn_asked opt eh X Xlags t lw la eps delta V Hn Hlw Hla Op Cl) as Ask. fold d in Ask. fold p in Ask. fold may in Ask.
  set (Lf := fun w => dyn_cost X Xlags p lw la (fun k i j => realq (effect d w k i j))). set (Hf := fun w => h_fun d (dyn_w d (vec w))). set (Bf := fun V => (dyn_cost X Xlags p lw la V + eps)%R).
  assert (Z0 : lag_allowed d p may no_effects) by (red; auto). assert (D0 : dag d (no_effects 0)) by exact (zero_dag d).
  destruct (ascent_sound (dyn_h eh d p) opt (dbnds t d p) Lf Hf (Bf no_effects) delta (Ask no_effects Z0 D0) _ _ _ _ _ _ Hm Ea) as (h & _ & (Aw & Eh) & Eb & _).
  rewrite <- Ev in Aw, Eh. exists (effect d v). split; [exact G|]. split.
  { destruct Aw as (r & q & x & k & Hr & Hq & Ew).
    destruct (Op (dbnds t d p) (fun q x Hq => dyn_bounds t d p q x Hq) r q x k Hr Hq) as (_ & In & _). rewrite <- Ew in In.
    assert (Bv : in_dbox d p (okd t 0) (fun k => okd t (S k)) (vec v)) by (apply dyn_in_box; intros q' Hq'; apply dyn_bounds; auto).
    intros l i j Hl Hi Hj N. apply okd_closed in N. destruct l as [|l].
    - rewrite effect_now. apply (box_supported d (okd t 0) (vec v) (proj1 Bv)); auto.
    - rewrite effect_lag by auto. apply (dbox_lag d p (okd t 0) (fun k => okd t (S k)) (vec v) Bv); auto. }
  split. { intros V Al Dg. exact (asked_fits (dyn_h eh d p) opt (dbnds t d p) Lf Hf (Bf V) delta v (Ask V Al Dg) Aw). }
  intros [T1 T2].
  assert (Nb : b = false).
  { eapply (ascent_converges (dyn_h eh d p) opt (dbnds t d p) Lf Hf (Bf no_effects) delta (Ask no_effects Z0 D0)); [exact Hm|exact Ea| |]; unfold last_penalty, first_penalty, Bf; rewrite dyn_cost_zero; assumption. }
  split; [exact Nb|]. intros Ht Ex. destruct (reshape_ok _ _ _ _ _ Re) as (_ & _ & _ & Ew & _).
  assert (Wn : within delta eh d w0).
  { destruct Aw as (r & q & x & k & Hr & Hq & Ev'). rewrite Ev' in Re. exact (proj1 (Cl _ _ _ _ _ _ Hr Hq Re)). }
  destruct (exp_penalty_ex d (fun i j => realq (entry d w0 i j))) as (h0 & P). pose proof Wn as (q & Eq & _).
  eapply (dgraph_acyclic g d p dname _ (effect d v) _ (w_threshold par) h0); [exact G|intros; apply dname_inj; auto|intros y Hy; apply Hy|exact Ht| | |exact Ex].
  - eapply exp_penalty_eq; [|exact P]. intros i j Hi Hj. cbn beta. rewrite Ew by auto. reflexivity.
  - eapply within_le; [exact Wn|exact Eq|exact P|]. rewrite Nb in Eb. unfold dyn_h in Eh. rewrite Re in Eh. cbn [fst] in Eh. rewrite Eq in Eh. injection Eh as ->.
    cbn in Eb. symmetry in Eb. apply qlt_false in Eb. exact Eb.
Qed.
