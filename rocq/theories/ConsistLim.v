(** * ConsistLim: limits along any family of large sets. *)
From Coq Require Import List Reals Lra Lia.
Import ListNotations.
Local Open Scope R_scope.

Section Lim.
  Context {T : Type} (F : (T -> Prop) -> Prop).
  Context (FT : F (fun _ => True)) (FA : forall P Q, F P -> F Q -> F (fun t => P t /\ Q t)) (FI : forall P Q : T -> Prop, (forall t, P t -> Q t) -> F P -> F Q).

  Definition tends (h : T -> R) (l : R) : Prop := forall eps, 0 < eps -> F (fun t => Rabs (h t - l) < eps).

  Lemma F_all (P : T -> Prop) : (forall t, P t) -> F P.
  Proof. intros H. apply (FI (fun _ => True)); auto. Qed.
  Lemma F_two (P Q W : T -> Prop) : F P -> F Q -> (forall t, P t -> Q t -> W t) -> F W.
  Proof. intros A B H. apply (FI (fun t => P t /\ Q t)); auto. intros t []; auto. Qed.
  Lemma F_list {A} (P : A -> T -> Prop) l : (forall a, In a l -> F (P a)) -> F (fun t => forall a, In a l -> P a t).
  Proof.
    induction l as [|a l IH]; intros H; [apply F_all; intros t a []|].
    apply (F_two (P a) (fun t => forall x, In x l -> P x t)); [apply H; left; auto|apply IH; intros; apply H; right; auto|].
    intros t A1 A2 x [<-|Hx]; auto.
  Qed.

  Lemma tends_const c : tends (fun _ => c) c.
  Proof. intros e He. apply F_all. intros _. replace (c - c) with 0 by ring. rewrite Rabs_R0. auto. Qed.

  Lemma tends_ext h k l : F (fun t => h t = k t) -> tends h l -> tends k l.
  Proof. intros E H e He. apply (F_two _ _ _ E (H e He)). intros t <-. auto. Qed.

  Lemma tends_plus h k l m : tends h l -> tends k m -> tends (fun t => h t + k t) (l + m).
  Proof.
    intros H K e He. apply (F_two _ _ _ (H (e / 2) ltac:(lra)) (K (e / 2) ltac:(lra))). intros t A B.
    replace (h t + k t - (l + m)) with ((h t - l) + (k t - m)) by ring. pose proof (Rabs_triang (h t - l) (k t - m)). lra.
  Qed.

  Lemma tends_mult h k l m : tends h l -> tends k m -> tends (fun t => h t * k t) (l * m).
  Proof.
    intros H K e He. pose proof (Rabs_pos l) as Pl. pose proof (Rabs_pos m) as Pm.
    assert (E1 : 0 < e / (2 * (Rabs m + 1))) by (apply Rdiv_lt_0_compat; lra).
    assert (E2 : 0 < Rmin 1 (e / (2 * (Rabs l + 1)))) by (apply Rmin_glb_lt; [lra|apply Rdiv_lt_0_compat; lra]).
    apply (F_two _ _ _ (H _ E1) (K _ E2)). intros t A B.
    pose proof (Rmin_l 1 (e / (2 * (Rabs l + 1)))) as M1. pose proof (Rmin_r 1 (e / (2 * (Rabs l + 1)))) as M2.
    replace (h t * k t - l * m) with ((h t - l) * k t + l * (k t - m)) by ring.
    eapply Rle_lt_trans; [apply Rabs_triang|]. rewrite !Rabs_mult.
    assert (Bk : Rabs (k t) < Rabs m + 1).
    { replace (k t) with ((k t - m) + m) by ring. pose proof (Rabs_triang (k t - m) m). lra. }
    assert (Q1 : Rabs (h t - l) * Rabs (k t) <= e / 2).
    { apply Rle_trans with (e / (2 * (Rabs m + 1)) * (Rabs m + 1)).
      - apply Rmult_le_compat; try apply Rabs_pos; lra.
      - right. field. lra. }
    assert (Q2 : Rabs l * Rabs (k t - m) < e / 2).
    { apply Rle_lt_trans with (Rabs l * (e / (2 * (Rabs l + 1)))).
      - apply Rmult_le_compat_l; lra.
      - apply Rlt_le_trans with ((Rabs l + 1) * (e / (2 * (Rabs l + 1)))); [|right; field; lra].
        apply Rmult_lt_compat_r; [apply Rdiv_lt_0_compat; lra|lra]. }
    lra.
  Qed.

  Lemma tends_inv h l : l <> 0 -> tends h l -> tends (fun t => / h t) (/ l).
  Proof.
    intros Nz H e He. pose proof (Rabs_pos_lt l Nz) as Pl.
    assert (E1 : 0 < Rmin (Rabs l / 2) (e * (Rabs l * Rabs l) / 2)).
    { apply Rmin_glb_lt; [lra|]. assert (0 < Rabs l * Rabs l) by (apply Rmult_lt_0_compat; auto). assert (0 < e * (Rabs l * Rabs l)) by (apply Rmult_lt_0_compat; auto). lra. }
    refine (FI _ _ _ (H _ E1)). intros t A.
    pose proof (Rmin_l (Rabs l / 2) (e * (Rabs l * Rabs l) / 2)) as M1. pose proof (Rmin_r (Rabs l / 2) (e * (Rabs l * Rabs l) / 2)) as M2.
    assert (Bh : Rabs l / 2 < Rabs (h t)).
    { pose proof (Rabs_triang (h t) (l - h t)) as Tr. replace (h t + (l - h t)) with l in Tr by ring. rewrite (Rabs_minus_sym l (h t)) in Tr. lra. }
    assert (Hn : h t <> 0) by (intros Z; rewrite Z, Rabs_R0 in Bh; lra).
    replace (/ h t - / l) with ((l - h t) * / (h t * l)) by (field; auto).
    rewrite Rabs_mult, (Rabs_minus_sym l), Rabs_Rinv by (apply Rmult_integral_contrapositive; auto). rewrite Rabs_mult.
    assert (D : 0 < Rabs (h t) * Rabs l) by (apply Rmult_lt_0_compat; lra).
    apply (Rmult_lt_reg_r (Rabs (h t) * Rabs l)); auto. rewrite Rmult_assoc, Rinv_l, Rmult_1_r by lra.
    apply Rlt_le_trans with (e * (Rabs l * Rabs l) / 2); [lra|].
    apply Rle_trans with (e * (Rabs l / 2 * Rabs l)); [right; field|]. apply Rmult_le_compat_l; [lra|]. apply Rmult_le_compat_r; lra.
  Qed.

  Lemma tends_div h k l m : m <> 0 -> tends h l -> tends k m -> tends (fun t => h t / k t) (l / m).
  Proof. intros Nz H K. apply (tends_mult h (fun t => / k t)); auto. apply tends_inv; auto. Qed.

  Lemma tends_zero h k : F (fun t => 0 <= h t <= k t) -> tends k 0 -> tends h 0.
  Proof.
    intros B K e He. apply (F_two _ _ _ B (K e He)). intros t [A1 A2] A3. rewrite Rminus_0_r in *.
    rewrite Rabs_pos_eq in * by lra. lra.
  Qed.

  Lemma tends_sum {A} (h : A -> T -> R) (l : A -> R) L : (forall a, In a L -> tends (h a) (l a)) ->
    tends (fun t => fold_right Rplus 0 (map (fun a => h a t) L)) (fold_right Rplus 0 (map l L)).
  Proof.
    induction L as [|a L IH]; intros H; cbn; [apply tends_const|].
    apply tends_plus; [apply H; left; auto|apply IH; intros; apply H; right; auto].
  Qed.

  Lemma tends_pos h l : 0 < l -> tends h l -> F (fun t => 0 < h t).
  Proof. intros P H. refine (FI _ _ _ (H l P)). intros t A. apply Rabs_def2 in A. lra. Qed.
End Lim.
