(** * FitDyno: what DYNOTEARS returns when the bans leave no cycle and the optimiser is exact. *)
From Coq Require Import List Bool Arith ZArith Lia String QArith Qcanon Qreals Reals Lra Relations.
From Coquelicot Require Import Coquelicot.
From Verif Require Import Base QcX Digraph SmModel SmProofs NotearsModel NotearsProofs NotearsThms TransModel MapperModel DynoModel DynoProofs DynoThms AcycModel AcycProofs AcycThms AcycLink.
From Verif Require Import ObjModel ObjProofs ObjGrad ObjLasso PropsObj ObjUnits PropsObjMore ObjFit FitLink.
Import ListNotations.
Local Open Scope list_scope.
Local Open Scope nat_scope.

(** ** Specification *)

(** The effect of variable [i], [k] periods earlier, on variable [j] may be learned. *)
Definition open_lag {A} (t : dtabu A) (name : nat -> A) (k i j : nat) : Prop := ~ (k = 0 /\ i = j) /\ ~ dbanned t k (name i) (name j).

(** The bounds: no negative parts, and zeros for what may not be learned. *)
Definition dyn_box (d p : nat) (may : nat -> nat -> nat -> Prop) (q : nat) (x : R) : Prop :=
  (0 <= x)%R /\ forall k b i j, k <= p -> b < 2 -> i < d -> j < d -> q = (2 * k + b) * (d * d) + (i * d + j) -> ~ may k i j -> x = 0%R.

(** The value of variable [i], [k] periods earlier, in row [r]; what the effects [E] leave of variable [j]. *)
Definition lagged (X Xlags : mat) (k r i : nat) : R := match k with O => data X r i | S k' => data Xlags r (k' * m_cols X + i) end.
Definition unexplained (X Xlags : mat) (p : nat) (E : nat -> nat -> nat -> R) (r j : nat) : R :=
  (data X r j - total (S p) (fun k => total (m_cols X) (fun i => lagged X Xlags k r i * E k i j)))%R.

(** ** Bounds *)
Definition okd (t : dtabu Z) (k i j : nat) : bool := match snd (dbnd t k i j) with None => true | _ => false end.

Lemma dbnd_ok t k i j : dbnd t k i j = if okd t k i j then nonneg else fixed0.
Proof. unfold okd, dbnd, dbnd_w, dbnd_a. destruct k; repeat match goal with |- context [if ?b then _ else _] => destruct b; auto end. Qed.

Lemma okd_open t k i j : okd t k i j = true <-> open_lag t Z.of_nat k i j.
Proof.
  split.
  - intros H. split; intros B; pose proof (dbnd_banned t k i j) as Bb; unfold okd in H; rewrite Bb in H by auto; discriminate.
  - intros [N B]. unfold okd.
    assert (A : dbnd_a t k i j = nonneg).
    { unfold dbnd_a. destruct (on_list (dt_edges t) _) eqn:E1; [|destruct (on_list (dt_parents t) _) eqn:E2; [|destruct (on_list (dt_children t) _) eqn:E3; [|reflexivity]]]; exfalso; apply B.
      - left. destruct (dt_edges t) as [l|]; [|discriminate]. exists l. split; auto. apply zzzmem_In. exact E1.
      - right. left. destruct (dt_parents t) as [l|]; [|discriminate]. exists l. split; auto. apply zmem_In. exact E2.
      - right. right. destruct (dt_children t) as [l|]; [|discriminate]. exists l. split; auto. apply zmem_In. exact E3. }
    destruct k as [|k]; cbn [dbnd]; [|rewrite A; reflexivity].
    assert (W : dbnd_w t i j = if i =? j then fixed0 else dbnd_a t 0 i j) by reflexivity. rewrite W.
    destruct (Nat.eqb_spec i j) as [E|E]; [exfalso; auto|]. rewrite A. reflexivity.
Qed.
Lemma okd_closed t k i j : okd t k i j = false <-> ~ open_lag t Z.of_nat k i j.
Proof. rewrite <- okd_open. destruct (okd t k i j); split; intros; congruence. Qed.

Lemma dyn_decode d p q : q < 2 * (p + 1) * (d * d) -> exists k b i j, k <= p /\ b < 2 /\ i < d /\ j < d /\ q = (2 * k + b) * (d * d) + (i * d + j).
Proof.
  intros H. assert (D0 : d * d <> 0) by (intros E; rewrite E in H; lia).
  pose proof (Nat.div_mod q (d * d) D0) as E. pose proof (Nat.mod_upper_bound q (d * d) D0) as M.
  assert (K : q / (d * d) < 2 * (p + 1)) by (apply Nat.div_lt_upper_bound; [auto|lia]).
  destruct (decode d _ d M) as (i & j & Hi & Hj & Ej). pose proof (Nat.div_mod (q / (d * d)) 2 ltac:(lia)) as E2. pose proof (Nat.mod_upper_bound (q / (d * d)) 2 ltac:(lia)) as M2.
  exists (q / (d * d) / 2), (q / (d * d) mod 2), i, j. split; [lia|]. split; [auto|]. split; [auto|]. split; [auto|]. rewrite <- E2, <- Ej. lia.
Qed.

Lemma pos_inj d k b i j k' b' i' j' : b < 2 -> b' < 2 -> i < d -> j < d -> i' < d -> j' < d ->
  (2 * k + b) * (d * d) + (i * d + j) = (2 * k' + b') * (d * d) + (i' * d + j') -> k = k' /\ b = b' /\ i = i' /\ j = j'.
Proof.
  intros Hb Hb' Hi Hj Hi' Hj' E. pose proof (index_lt d i j Hi Hj) as H. pose proof (index_lt d i' j' Hi' Hj') as H'.
  destruct (div_pair (d * d) _ _ _ _ H H' E) as [E1 E2]. destruct (div_pair d _ _ _ _ Hj Hj' E2) as [-> ->]. lia.
Qed.

Lemma dyn_bounds t d p q x : q < 2 * (p + 1) * (d * d) -> (inside (dbnds t d p) q x <-> dyn_box d p (open_lag t Z.of_nat) q x).
Proof.
  intros Hq. destruct (dyn_decode d p q Hq) as (k & b & i & j & Hk & Hb & Hi & Hj & ->).
  assert (N : nth ((2 * k + b) * (d * d) + (i * d + j)) (dbnds t d p) free = dbnd t k i j).
  { destruct (dbnds_nth t d p k i j free Hk Hi Hj) as [N1 N2]. destruct b as [|[|b]]; [rewrite Nat.add_0_r; exact N1|exact N2|lia]. }
  unfold inside. rewrite N, dbnd_ok. destruct (okd t k i j) eqn:O.
  - rewrite inside_nonneg. split; [|intros [A _]; exact A]. intros A. split; auto. intros k' b' i' j' Hk' Hb' Hi' Hj' E Nm. exfalso.
    apply pos_inj in E; auto. destruct E as (-> & -> & -> & ->). apply Nm. apply okd_open. auto.
  - rewrite inside_fixed. split.
    + intros ->. split; [lra|]. intros. reflexivity.
    + intros [_ H]. apply (H k b i j); auto. apply okd_closed. auto.
Qed.

Lemma dyn_in_box t d p w : (forall q, q < 2 * (p + 1) * (d * d) -> dyn_box d p (open_lag t Z.of_nat) q (w q)) <-> in_dbox d p (okd t 0) (fun k => okd t (S k)) w.
Proof.
  assert (P : forall k b i j, k <= p -> b < 2 -> i < d -> j < d -> (2 * k + b) * (d * d) + (i * d + j) < 2 * (p + 1) * (d * d)).
  { intros k b i j Hk Hb Hi Hj. pose proof (index_lt d i j Hi Hj). assert ((2 * k + b + 1) * (d * d) <= 2 * (p + 1) * (d * d)) by (apply Nat.mul_le_mono_r; lia). lia. }
  split.
  - intros H. assert (B : forall k b i j, k <= p -> b < 2 -> i < d -> j < d -> (0 <= w ((2 * k + b) * (d * d) + (i * d + j))%nat)%R /\ (okd t k i j = false -> w ((2 * k + b) * (d * d) + (i * d + j))%nat = 0%R)).
    { intros k b i j Hk Hb Hi Hj. destruct (H _ (P k b i j Hk Hb Hi Hj)) as [Q1 Q2]. split; [exact Q1|]. intros O. apply okd_closed in O. apply (Q2 k b i j); auto. }
    split.
    + intros i j Hi Hj. destruct (B 0 0 i j) as [B1 B2]; auto; try lia. destruct (B 0 1 i j) as [B3 B4]; auto; try lia.
      replace ((2 * 0 + 0) * (d * d) + (i * d + j)) with (i * d + j) in * by lia. replace ((2 * 0 + 1) * (d * d) + (i * d + j)) with (d * d + (i * d + j)) in * by lia. auto.
    + intros k Hk i j Hi Hj. destruct (B (S k) 0 i j) as [B1 B2]; auto; try lia. destruct (B (S k) 1 i j) as [B3 B4]; auto; try lia.
      replace ((2 * S k + 0) * (d * d) + (i * d + j)) with (2 * (d * d) + (k * (2 * (d * d)) + (i * d + j))) in * by lia.
      replace ((2 * S k + 1) * (d * d) + (i * d + j)) with (2 * (d * d) + (k * (2 * (d * d)) + (d * d + (i * d + j)))) in * by lia. auto.
  - intros B q Hq. split; [apply (dbox_pos d p _ _ w B q Hq)|]. intros k b i j Hk Hb Hi Hj -> O. apply okd_closed in O. destruct B as [B1 B2].
    destruct k as [|k].
    + destruct (B1 i j Hi Hj) as [_ Z]. destruct (Z O) as [Z1 Z2]. destruct b as [|[|b]]; [| |lia].
      * replace ((2 * 0 + 0) * (d * d) + (i * d + j)) with (i * d + j) by lia. exact Z1.
      * replace ((2 * 0 + 1) * (d * d) + (i * d + j)) with (d * d + (i * d + j)) by lia. exact Z2.
    + destruct (B2 k Hk i j Hi Hj) as [_ Z]. destruct (Z O) as [Z1 Z2]. destruct b as [|[|b]]; [| |lia].
      * replace ((2 * S k + 0) * (d * d) + (i * d + j)) with (2 * (d * d) + (k * (2 * (d * d)) + (i * d + j))) by lia. exact Z1.
      * replace ((2 * S k + 1) * (d * d) + (i * d + j)) with (2 * (d * d) + (k * (2 * (d * d)) + (d * d + (i * d + j)))) by lia. exact Z2.
Qed.

Lemma effect_now d v i j : realq (effect d v 0 i j) = dyn_w d (vec v) i j.
Proof.
  unfold effect, dyn_w. rewrite lasso_mat_at, realq_minus. unfold vec.
  replace (2 * 0 * (d * d) + (i * d + j)) with (i * d + j) by lia. replace ((2 * 0 + 1) * (d * d) + (i * d + j)) with (d * d + (i * d + j)) by lia. reflexivity.
Qed.
Lemma effect_lag d v k i j : i < d -> realq (effect d v (S k) i j) = dyn_a d (vec v) (k * d + i) j.
Proof.
  intros Hi. unfold effect. rewrite dyn_a_at, realq_minus by auto. unfold vec. f_equal; f_equal; f_equal; lia.
Qed.

Lemma unexplained_left X Xlags p v r j : j < m_cols X ->
  unexplained X Xlags p (fun k i j => realq (effect (m_cols X) v k i j)) r j = left_over (m_cols X) p (data X) (data Xlags) (dyn_w (m_cols X) (vec v)) (dyn_a (m_cols X) (vec v)) r j.
Proof.
  intros Hj. set (d := m_cols X). unfold unexplained, left_over. f_equal. fold d. change (S p) with (1 + p). rewrite total_app. cbn [total]. f_equal.
  - rewrite Rplus_0_l. unfold linear. apply total_ext. intros i Hi. rewrite effect_now. reflexivity.
  - unfold linear. rewrite total_rsum, total_rsum, rsum_blocks. apply rsum_ext. intros k Hk. rewrite total_rsum. apply rsum_ext. intros i Hi.
    change (1 + k) with (S k). rewrite effect_lag by auto. cbn [lagged]. fold d. reflexivity.
Qed.

Theorem dynamic_learned fuel opt eh X Xlags par t g lw la : 0 < max_iter par -> from_numpy_dynamic fuel opt eh X Xlags par t = Ok g -> (0 <= lw)%R -> (0 <= la)%R ->
  let d := m_cols X in let p := m_cols Xlags / d in let n := List.length (m_rows X) in let may := open_lag t Z.of_nat in
  (forall w, is_finite (eh d w) = true) -> no_loop d (may 0) -> exact_optimiser (2 * (p + 1) * (d * d)) (dyn_box d p may) (dyn_func n d p (data X) (data Xlags) lw la) opt ->
  exists E, dgraph_of g d p dname "unknown" E (keep_ge (w_threshold par)) /\ (forall k i j, k <= p -> i < d -> j < d -> ~ may k i j -> E k i j = 0%Qc) /\
    (forall k i j, k <= p -> i < d -> j < d -> may k i j ->
       optimal_weight (if k =? 0 then lw else la) (total n (fun r => lagged X Xlags k r i * unexplained X Xlags p (fun k i j => realq (E k i j)) r j)%R / INR n) (realq (E k i j))).
Proof.
  intros Hm H Hlw Hla d p n may Fi NL Ex. unfold from_numpy_dynamic in H. apply bind_ok in H. destruct H as ([g' b] & H & [= <-]).
  destruct (numpy_dynamic_states _ _ _ _ _ _ _ _ _ H) as (Hd & _ & v & G & _ & _ & (s & Ea & Ev) & _). fold d p in Hd, G, Ea.
  assert (Hn : 0 < n).
  { unfold learn_numpy_dynamic in H. fold d in H. destruct (Nat.eqb_spec d 0) as [|_]; [discriminate|]. fold p in H.
    apply bind_ok in H. destruct H as (o & El & _). unfold learn_dynamic in El. destruct (m_size X =? 0) eqn:Sz; [discriminate|]. apply rows_pos in Sz. exact Sz. }
  assert (An : answered opt (dbnds t d p) v).
  { rewrite Ev. eapply ascent_fin; [|exact Hm|exact Ea]. intros r q x k. unfold dyn_h.
    destruct (Ex (dbnds t d p) (fun q x Hq => dyn_bounds t d p q x Hq) r q x k) as [L _]. unfold reshape_wa. rewrite L.
    replace (2 * (p + 1) * (d * d) =? 2 * (p + 1) * d * d) with true by (symmetry; apply Nat.eqb_eq; lia). apply Fi. }
  destruct An as (r & q & x & k & Ew). destruct (Ex (dbnds t d p) (fun q x Hq => dyn_bounds t d p q x Hq) r q x k) as [_ M]. rewrite <- Ew in M.
  apply (minimises_box _ _ _ _ _ (fun q x Hq => dyn_bounds t d p q x Hq)) in M. destruct M as [M1 M2]. rewrite dyn_in_box in M1.
  exists (effect d v). split; [exact G|]. split.
  - intros l i j Hl Hi Hj O. apply okd_closed in O. apply Qc_is_canon, eqR_Qeq. change (realq (effect d v l i j) = realq 0). rewrite realq_0.
    destruct l as [|l].
    + rewrite effect_now. apply (box_supported d (okd t 0) (vec v) (proj1 M1)); auto.
    + rewrite effect_lag by auto. rewrite dyn_a_at by auto. destruct (proj2 M1 l Hl i j Hi Hj) as [_ Z]. destruct (Z O) as [Z1 Z2]. rewrite Z1, Z2. ring.
  - assert (NC : no_cycle d (okd t 0)).
    { intros i C. apply (NL i). revert C. generalize i at 1 3. intros c C.
      induction C as [y z (Hy & Hz & N)|y z w _ H1 _ H2]; [apply t_step|eapply t_trans; eauto]. split; auto. split; auto. apply okd_open. auto. }
    destruct (dyn_fit n d p (data X) (data Xlags) lw la (realq r) (realq q) (okd t 0) (fun k => okd t (S k)) Hn Hlw Hla NC (vec v) M1) as [C1 C2].
    { intros u Bu. apply M2. apply dyn_in_box. exact Bu. }
    intros l i j Hl Hi Hj O. apply okd_open in O. destruct l as [|l]; cbn [Nat.eqb].
    + rewrite effect_now. rewrite (total_ext n _ (fun r => data X r i * left_over d p (data X) (data Xlags) (dyn_w d (vec v)) (dyn_a d (vec v)) r j)%R); [apply C1; auto|].
      intros r' _. cbn [lagged]. f_equal. apply unexplained_left. auto.
    + rewrite effect_lag by auto. rewrite (total_ext n _ (fun r => data Xlags r (l * d + i) * left_over d p (data X) (data Xlags) (dyn_w d (vec v)) (dyn_a d (vec v)) r j)%R); [apply C2; auto|].
      intros r' _. cbn [lagged]. fold d. f_equal. apply unexplained_left. auto.
Qed.
