(** * ObjProofs: derivatives of the objective functions. *)
From Coq Require Import List Arith Bool Lia Reals Lra.
From Coquelicot Require Import Coquelicot.
From Verif Require Import AcycModel AcycProofs AcycThms ObjModel.
Import ListNotations.
Local Open Scope R_scope.

(** ** Derivatives of sums *)
Lemma derive_eq (f : R -> R) (x l l' : R) : is_derive f x l -> l = l' -> is_derive f x l'.
Proof. intros H <-. exact H. Qed.

Lemma derive_ext (f g : R -> R) (x l : R) : (forall t, f t = g t) -> is_derive f x l -> is_derive g x l.
Proof. apply is_derive_ext. Qed.

Lemma derive_lsum {A} (f : A -> R -> R) (f' : A -> R) l x : (forall a, In a l -> is_derive (f a) x (f' a)) -> is_derive (fun y => lsum (fun a => f a y) l) x (lsum f' l).
Proof.
  induction l as [|a l IH]; intros H; cbn.
  - apply is_derive_Reals. apply derivable_pt_lim_const.
  - apply (is_derive_plus (K := R_AbsRing) (f a) (fun y => lsum (fun a => f a y) l)); [apply H; left; auto|apply IH; intros; apply H; right; auto].
Qed.

Lemma derive_rsum d (f : nat -> R -> R) (f' : nat -> R) x : (forall a, (a < d)%nat -> is_derive (f a) x (f' a)) -> is_derive (fun y => rsum d (fun a => f a y)) x (rsum d f').
Proof. intros H. apply derive_lsum. intros a Ha. apply H, in_seq0. auto. Qed.

Lemma derive_const c x : is_derive (fun _ : R => c) x 0.
Proof. apply is_derive_Reals, derivable_pt_lim_const. Qed.

Lemma derive_mult (f g : R -> R) (x f' g' : R) : is_derive f x f' -> is_derive g x g' -> is_derive (fun y => f y * g y) x (f' * g x + f x * g').
Proof. intros Hf Hg. apply is_derive_Reals. apply is_derive_Reals in Hf, Hg. exact (derivable_pt_lim_mult f g x f' g' Hf Hg). Qed.
Lemma derive_plus (f g : R -> R) (x f' g' : R) : is_derive f x f' -> is_derive g x g' -> is_derive (fun y => f y + g y) x (f' + g').
Proof. intros Hf Hg. apply is_derive_Reals. apply is_derive_Reals in Hf, Hg. exact (derivable_pt_lim_plus f g x f' g' Hf Hg). Qed.
Lemma derive_minus (f g : R -> R) (x f' g' : R) : is_derive f x f' -> is_derive g x g' -> is_derive (fun y => f y - g y) x (f' - g').
Proof. intros Hf Hg. apply is_derive_Reals. apply is_derive_Reals in Hf, Hg. exact (derivable_pt_lim_minus f g x f' g' Hf Hg). Qed.
Lemma derive_scal (c : R) (f : R -> R) (x f' : R) : is_derive f x f' -> is_derive (fun y => c * f y) x (c * f').
Proof. intros Hf. eapply derive_eq; [apply derive_mult; [apply derive_const|exact Hf]|cbn; lra]. Qed.

(** ** Derivatives of series *)
Section Series.
  Variables (f g : nat -> R -> R) (M : nat -> R) (x0 : R).
  Hypothesis Hd : forall k y, is_derive (f k) y (g k y).
  Hypothesis Hc : forall k y, ex_derive (g k) y.
  Hypothesis HM : ex_series M.
  Hypothesis Hf : forall k y, Rabs (y - x0) < 1 -> Rabs (f k y) <= M k.
  Hypothesis Hg : forall k y, Rabs (y - x0) < 1 -> Rabs (g k y) <= M k.

  Lemma partial_derive n y : is_derive (fun y => sum_n (fun k => f k y) n) y (sum_n (fun k => g k y) n).
  Proof.
    induction n as [|n IH].
    - apply is_derive_ext with (f 0%nat); [intros t; rewrite sum_O; auto|]. rewrite sum_O. apply Hd.
    - apply is_derive_ext with (fun y => sum_n (fun k => f k y) n + f (S n) y); [intros t; rewrite sum_Sn; auto|]. rewrite sum_Sn. apply derive_plus; auto.
  Qed.

  Lemma partial_ex n y : ex_derive (fun y => sum_n (fun k => g k y) n) y.
  Proof.
    induction n as [|n IH].
    - apply ex_derive_ext with (g 0%nat); [intros t; rewrite sum_O; auto|]. apply Hc.
    - apply ex_derive_ext with (fun y => sum_n (fun k => g k y) n + g (S n) y); [intros t; rewrite sum_Sn; auto|]. apply (ex_derive_plus (K := R_AbsRing) (fun y => sum_n (fun k => g k y) n) (g (S n))); auto.
  Qed.

  Lemma sums_cauchy (h : nat -> R -> R) (D : R -> Prop) : (forall k y, D y -> Rabs (h k y) <= M k) -> CVU_cauchy (fun n y => sum_n (fun k => h k y) n) D.
  Proof.
    intros Hh eps. destruct (Cauchy_ex_series M HM eps) as (N & HN). exists (S N).
    assert (Q : forall n m x, D x -> (S N <= n)%nat -> (n <= m)%nat -> Rabs (sum_n (fun k => h k x) n - sum_n (fun k => h k x) m) < eps).
    { intros n m x Dx H1 H2. destruct (Nat.eq_dec n m) as [->|Ne]; [unfold Rminus; rewrite Rplus_opp_r, Rabs_R0; apply cond_pos|].
      rewrite Rabs_minus_sym. unfold sum_n.
      replace (sum_n_m (fun k => h k x) 0 m - sum_n_m (fun k => h k x) 0 n) with (sum_n_m (fun k => h k x) (S n) m).
      - eapply Rle_lt_trans; [apply (norm_sum_n_m (V := R_NormedModule) (fun k => h k x))|].
        eapply Rle_lt_trans; [|apply (HN (S n) m); lia]. eapply Rle_trans; [|apply Rle_abs]. apply sum_n_m_le. intros k. apply Hh. auto.
      - rewrite (sum_n_m_Chasles (fun k => h k x) 0 n m) by lia. unfold plus. cbn. lra. }
    intros n m x Dx H1 H2. destruct (Nat.le_ge_cases n m); [apply Q; auto|]. rewrite Rabs_minus_sym. apply Q; auto.
  Qed.

  Lemma series_derive : is_derive (fun y => Series (fun k => f k y)) x0 (Series (fun k => g k x0)).
  Proof.
    set (D := fun y => Rabs (y - x0) < 1).
    assert (Dg : forall n y, Derive (fun y => sum_n (fun k => f k y) n) y = sum_n (fun k => g k y) n) by (intros; apply is_derive_unique, partial_derive).
    assert (Op : open D).
    { intros y Hy. assert (P : 0 < 1 - Rabs (y - x0)) by (unfold D in Hy; lra). exists (mkposreal _ P). intros z Hz. unfold D in *. change (Rabs (z - y) < 1 - Rabs (y - x0)) in Hz.
      replace (z - x0) with ((z - y) + (y - x0)) by ring. eapply Rle_lt_trans; [apply Rabs_triang|]. lra. }
    assert (Cn : is_connected D).
    { intros a b c Ha Hb [H1 H2]. unfold D in *. apply Rabs_def2 in Ha, Hb. apply Rabs_def1; lra. }
    assert (H := CVU_Derive (fun n y => sum_n (fun k => f k y) n) D Op Cn).
    assert (C1 : CVU_dom (fun n y => sum_n (fun k => f k y) n) D) by (apply CVU_dom_cauchy, sums_cauchy; auto).
    assert (C2 : CVU_dom (fun n y => Derive (fun y => sum_n (fun k => f k y) n) y) D).
    { apply CVU_dom_cauchy. intros eps. destruct (sums_cauchy g D Hg eps) as (N & HN). exists N. intros n m y Dy H1 H2. rewrite !Dg. apply HN; auto. }
    specialize (H C1). assert (E1 : forall n x, D x -> ex_derive (fun y => sum_n (fun k => f k y) n) x) by (intros n x _; eexists; apply partial_derive).
    assert (E2 : forall n x, D x -> continuity_pt (Derive (fun y => sum_n (fun k => f k y) n)) x).
    { intros n x _. apply continuity_pt_ext with (fun y => sum_n (fun k => g k y) n); [intros; rewrite Dg; auto|]. apply continuity_pt_filterlim. exact (ex_derive_continuous (V := R_NormedModule) _ x (partial_ex n x)). }
    specialize (H E1 E2 C2 x0). assert (D0 : D x0) by (unfold D; unfold Rminus; rewrite Rplus_opp_r, Rabs_R0; lra). specialize (H D0).
    eapply derive_eq; [exact H|]. unfold Series. f_equal. apply Lim_seq_ext. intros n. apply Dg.
  Qed.
End Series.

Lemma sum_ex (a b : nat -> R) : ex_series a -> ex_series b -> ex_series (fun k => a k + b k).
Proof. exact (ex_series_plus (V := R_NormedModule) a b). Qed.
Lemma scal_ex (c : R) (a : nat -> R) : ex_series a -> ex_series (fun k => c * a k).
Proof. exact (ex_series_scal (V := R_NormedModule) c a). Qed.

(** ** Powers *)

(** The matrix with another entry at (a, b) *)
Definition pert (A : rmat) (a b : nat) (u : R) : rmat := fun i j => if ((i =? a) && (j =? b))%bool then u else A i j.

Lemma mpow_abs d A M n i j : 0 <= M -> (forall i j, (i < d)%nat -> (j < d)%nat -> Rabs (A i j) <= M) -> (i < d)%nat -> (j < d)%nat -> Rabs (mpow d A n i j) <= (INR d * M) ^ n.
Proof.
  intros HM B. revert i j. induction n as [|n IH]; intros i j Hi Hj; cbn [mpow pow].
  - unfold mid. destruct (_ =? _)%nat; [rewrite Rabs_R1|rewrite Rabs_R0]; lra.
  - unfold mmul, rsum. assert (Q : forall l, (forall k, In k l -> (k < d)%nat) -> Rabs (lsum (fun k => A i k * mpow d A n k j) l) <= INR (length l) * (M * (INR d * M) ^ n)).
    { induction l as [|k l IHl]; intros Hl; [cbn; rewrite Rabs_R0; lra|]. cbn [lsum length]. rewrite S_INR. eapply Rle_trans; [apply Rabs_triang|]. rewrite Rabs_mult.
      assert (Rabs (A i k) * Rabs (mpow d A n k j) <= M * (INR d * M) ^ n) by (apply Rmult_le_compat; try apply Rabs_pos; [apply B|apply IH]; auto; apply Hl; left; auto).
      specialize (IHl (fun k Hk => Hl k (or_intror Hk))). lra. }
    specialize (Q (seq 0 d) (fun k Hk => proj1 (in_seq0 d k) Hk)). rewrite seq_length in Q. lra.
Qed.

Lemma rsum_ext d (f g : nat -> R) : (forall i, (i < d)%nat -> f i = g i) -> rsum d f = rsum d g.
Proof. intros H. apply lsum_ext. intros x Hx. apply H, in_seq0. auto. Qed.

Lemma rsum_S d (f : nat -> R) : rsum (S d) f = f 0%nat + rsum d (fun k => f (S k)).
Proof. unfold rsum. cbn [seq lsum]. f_equal. rewrite <- seq_shift. clear. induction (seq 0 d) as [|x l IH]; cbn; [auto|rewrite IH; auto]. Qed.

Lemma rsum_swap d e (f : nat -> nat -> R) : rsum d (fun x => rsum e (fun y => f x y)) = rsum e (fun y => rsum d (fun x => f x y)).
Proof. apply lsum_swap. Qed.
Lemma rsum_scal d c f : rsum d (fun x => c * f x) = c * rsum d f.
Proof. apply lsum_scal. Qed.
Lemma rsum_plus d f g : rsum d (fun x => f x + g x) = rsum d f + rsum d g.
Proof. apply lsum_plus. Qed.
Lemma rsum_pick d i (f : nat -> R) : (i < d)%nat -> rsum d (fun k => (if k =? i then 1 else 0) * f k) = f i.
Proof. intros H. rewrite <- (rsum_delta d i f H). apply rsum_ext. intros k _. unfold mid. rewrite Nat.eqb_sym. auto. Qed.

Section Powers.
  Variables (d : nat) (A : rmat) (a b : nat).
  Hypothesis Ha : (a < d)%nat.
  Hypothesis Hb : (b < d)%nat.
  Let P (u : R) : rmat := pert A a b u.

  Lemma pert_derive i j u : is_derive (fun u => P u i j) u ((if i =? a then 1 else 0) * (if j =? b then 1 else 0)).
  Proof.
    unfold P, pert. destruct (i =? a), (j =? b); cbn [andb].
    - eapply derive_eq; [apply (is_derive_id (K := R_AbsRing))|]. unfold one. cbn. lra.
    - eapply derive_eq; [apply derive_const|lra].
    - eapply derive_eq; [apply derive_const|lra].
    - eapply derive_eq; [apply derive_const|lra].
  Qed.

  Lemma mpow_derive n i j u : (i < d)%nat -> is_derive (fun u => mpow d (P u) n i j) u (rsum n (fun c => mpow d (P u) c i a * mpow d (P u) (n - 1 - c) b j)).
  Proof.
    revert i j. induction n as [|n IH]; intros i j Hi; cbn [mpow].
    - apply derive_const.
    - unfold mmul at 1.
      eapply derive_eq; [apply derive_rsum; intros k Hk; apply derive_mult; [apply pert_derive|apply IH; exact Hk]|]. cbn beta.
      rewrite rsum_plus. rewrite rsum_S. cbn [mpow]. replace (S n - 1 - 0)%nat with n by lia. f_equal.
      + transitivity (rsum d (fun k => (if k =? b then 1 else 0) * ((if i =? a then 1 else 0) * mpow d (P u) n k j))); [apply rsum_ext; intros; ring|]. rewrite rsum_pick by auto. reflexivity.
      + transitivity (rsum d (fun k => rsum n (fun c => P u i k * mpow d (P u) c k a * mpow d (P u) (n - 1 - c) b j))).
        { apply rsum_ext. intros k _. rewrite <- rsum_scal. apply rsum_ext. intros; ring. }
        rewrite rsum_swap. apply rsum_ext. intros c _. replace (S n - 1 - S c)%nat with (n - 1 - c)%nat by lia.
        unfold mmul. rewrite (Rmult_comm (rsum d _)), <- rsum_scal. apply rsum_ext. intros; ring.
  Qed.

  Lemma tr_derive n u : is_derive (fun u => tr d (mpow d (P u) n)) u (INR n * mpow d (P u) (n - 1) b a).
  Proof.
    unfold tr. eapply derive_eq; [apply derive_rsum; intros i Hi; apply mpow_derive; auto|]. cbn beta. rewrite rsum_swap.
    transitivity (rsum n (fun _ => mpow d (P u) (n - 1) b a)); [|unfold rsum; rewrite lsum_const, seq_length; auto].
    apply rsum_ext. intros c Hc. transitivity (mpow d (P u) ((n - 1 - c) + c) b a); [|rewrite Nat.sub_add by lia; reflexivity]. rewrite mpow_add by auto. unfold mmul. apply rsum_ext. intros; ring.
  Qed.

  Lemma abs_bounded : exists M, 0 <= M /\ forall i j, (i < d)%nat -> (j < d)%nat -> Rabs (A i j) <= M.
  Proof. exact (entries_bounded d (fun i j => Rabs (A i j))). Qed.

  Lemma exp_bounded c : ex_series (fun k => c ^ k / INR (fact k)).
  Proof. exists (exp c). apply is_series_Reals. intros e He. destruct (exp_sum c e He) as (N & HN). exists N. intros n Hn. specialize (HN n Hn).
    erewrite sum_eq; [exact HN|]. intros i _. cbn beta. unfold Rdiv. ring. Qed.

  Lemma trace_derive u0 : is_derive (fun u => Series (fun k => tr d (mpow d (P u) k) / INR (fact k))) u0 (Series (fun k => mpow d (P u0) k b a / INR (fact k))).
  Proof.
    destruct abs_bounded as (M0 & HM0 & B0). set (M := M0 + Rabs u0 + 1). assert (HM : 0 <= M) by (unfold M; pose proof (Rabs_pos u0); lra).
    assert (B : forall u, Rabs (u - u0) < 1 -> forall i j, (i < d)%nat -> (j < d)%nat -> Rabs (P u i j) <= M).
    { intros u Hu i j Hi Hj. unfold P, pert, M. destruct ((i =? a) && (j =? b))%bool; [|pose proof (B0 i j Hi Hj); pose proof (Rabs_pos u0); lra].
      replace u with ((u - u0) + u0) by ring. pose proof (Rabs_triang (u - u0) u0). lra. }
    set (g := fun (k : nat) (u : R) => INR k * mpow d (P u) (k - 1) b a / INR (fact k)).
    set (c := INR d * M).
    assert (F0 : forall k, 0 < INR (fact k)) by (intros; apply fact_pos).
    assert (Gs : forall k u, g (S k) u = mpow d (P u) k b a / INR (fact k)).
    { intros k u. unfold g. replace (S k - 1)%nat with k by lia. change (fact (S k)) with (S k * fact k)%nat. rewrite mult_INR. field. split; [apply Rgt_not_eq, F0|apply not_0_INR; lia]. }
    assert (C0 : 0 <= c) by (unfold c; apply Rmult_le_pos; auto; apply pos_INR).
    set (N := fun k => INR d * (c ^ k / INR (fact k)) + match k with O => 0 | S m => c ^ m / INR (fact m) end).
    assert (Nn : forall k, 0 <= c ^ k / INR (fact k)) by (intros k; apply Rdiv_le_0_compat; auto; apply pow_le; auto).
    eapply derive_eq; [apply (series_derive (fun k u => tr d (mpow d (P u) k) / INR (fact k)) g N)|].
    - intros k y. unfold Rdiv. eapply is_derive_ext; [intros; apply Rmult_comm|]. eapply derive_eq; [apply derive_scal, tr_derive|]. unfold g. unfold Rdiv. ring.
    - intros k y. exists (INR k / INR (fact k) * rsum (k - 1) (fun c => mpow d (P y) c b a * mpow d (P y) (k - 1 - 1 - c) b a)).
      apply derive_ext with (fun u => INR k / INR (fact k) * mpow d (P u) (k - 1) b a); [intros t; unfold g, Rdiv; ring|]. apply derive_scal, mpow_derive. auto.
    - unfold N. apply sum_ex; [apply scal_ex, exp_bounded|]. apply ex_series_incr_1. apply exp_bounded.
    - intros k y Hy. unfold N. unfold Rdiv at 1. rewrite Rabs_mult, (Rabs_pos_eq (/ INR (fact k))) by (apply Rlt_le, Rinv_0_lt_compat; auto).
      assert (T : Rabs (tr d (mpow d (P y) k)) <= INR d * c ^ k).
      { unfold tr, rsum. assert (Q : forall l, (forall i, In i l -> (i < d)%nat) -> Rabs (lsum (fun i => mpow d (P y) k i i) l) <= INR (length l) * c ^ k).
        { induction l as [|i l IHl]; intros Hl; [cbn; rewrite Rabs_R0; lra|]. cbn [lsum length]. rewrite S_INR. eapply Rle_trans; [apply Rabs_triang|].
          assert (Rabs (mpow d (P y) k i i) <= c ^ k) by (apply mpow_abs; auto; apply Hl; left; auto). specialize (IHl (fun i Hi => Hl i (or_intror Hi))). lra. }
        specialize (Q (seq 0 d) (fun i Hi => proj1 (in_seq0 d i) Hi)). rewrite seq_length in Q. exact Q. }
      apply Rle_trans with (INR d * c ^ k * / INR (fact k)); [apply Rmult_le_compat_r; auto; apply Rlt_le, Rinv_0_lt_compat; auto|].
      assert (0 <= match k with O => 0 | S m => c ^ m / INR (fact m) end) by (destruct k; [lra|auto]). unfold Rdiv in *. lra.
    - intros k y Hy. unfold N. assert (0 <= INR d * (c ^ k / INR (fact k))) by (apply Rmult_le_pos; auto; apply pos_INR). destruct k as [|k].
      + unfold g. cbn [INR]. rewrite Rmult_0_l. unfold Rdiv at 1. rewrite Rmult_0_l, Rabs_R0. lra.
      + rewrite Gs. unfold Rdiv at 1. rewrite Rabs_mult, (Rabs_pos_eq (/ INR (fact k))) by (apply Rlt_le, Rinv_0_lt_compat; auto).
        assert (Rabs (mpow d (P y) k b a) <= c ^ k) by (apply mpow_abs; auto).
        apply Rle_trans with (c ^ k * / INR (fact k)); [apply Rmult_le_compat_r; auto; apply Rlt_le, Rinv_0_lt_compat; auto|]. unfold Rdiv in *. lra.
    - cbn beta. rewrite Series_incr_1.
      + unfold g at 1. cbn [INR]. unfold Rdiv at 1. rewrite !Rmult_0_l, Rplus_0_l. apply Series_ext. intros k. apply Gs.
      + apply ex_series_incr_1. eapply ex_series_ext; [intros; symmetry; apply Gs|]. apply (ex_series_le (K := R_AbsRing) (V := R_CompleteNormedModule)) with (fun k => c ^ k / INR (fact k)); [|apply exp_bounded].
        intros k. change (norm (mpow d (P u0) k b a / INR (fact k))) with (Rabs (mpow d (P u0) k b a / INR (fact k))). unfold Rdiv. rewrite Rabs_mult, (Rabs_pos_eq (/ INR (fact k))) by (apply Rlt_le, Rinv_0_lt_compat; auto).
        apply Rmult_le_compat_r; [apply Rlt_le, Rinv_0_lt_compat; auto|]. apply mpow_abs; auto. intros i j Hi Hj. apply B; auto. unfold Rminus. rewrite Rplus_opp_r, Rabs_R0. lra.
  Qed.
End Powers.
