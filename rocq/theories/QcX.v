(** * QcX: sums of canonical rationals over lists, and a linear arithmetic tactic. *)
From Coq Require Import List Bool Arith ZArith Lia QArith Qcanon Lqa Permutation.
From Verif Require Import Base.
Import ListNotations.
Local Open Scope Qc_scope.

(** Reduce (in)equalities over [Qc] to linear arithmetic over [Q]. *)
Lemma Qc_eq_iff (a b : Qc) : a = b <-> (this a == this b)%Q.
Proof.
  split; [intros ->; reflexivity | apply Qc_is_canon].
Qed.

Ltac qc_hyps :=
  repeat match goal with
         | H : @eq Qc _ _ |- _ => apply Qc_eq_iff in H
         | H : @eq Qc _ _ -> False |- _ => rewrite Qc_eq_iff in H
         | H : ~ (@eq Qc _ _) |- _ => rewrite Qc_eq_iff in H
         end.

Ltac qc_unfold :=
  unfold Qcle, Qclt, Qcplus, Qcminus, Qcopp, Qcmult, Q2Qc in *;
  cbn [this] in *;
  change (Qred 0) with 0%Q in *; change (Qred 1) with 1%Q in *;
  rewrite ?Qred_correct in *;
  repeat match goal with H : context [Qred _] |- _ => rewrite !Qred_correct in H end.

Ltac qlra :=
  try apply Qc_is_canon; qc_hyps; qc_unfold; lra.

Lemma Qcle_refl' (a : Qc) : a <= a.
Proof. qlra. Qed.

Lemma Qc_mul_nonneg (a b : Qc) : 0 <= a -> 0 <= b -> 0 <= a * b.
Proof.
  intros Ha Hb. qc_unfold. apply Qmult_le_0_compat; auto.
Qed.

Lemma Qc_add_nonneg (a b : Qc) : 0 <= a -> 0 <= b -> 0 <= a + b.
Proof. intros. qlra. Qed.

Lemma Qc_add_zero (a b : Qc) : 0 <= a -> 0 <= b -> a + b = 0 -> a = 0 /\ b = 0.
Proof. intros. split; qlra. Qed.

Lemma Qc_eq_bool_iff a b : Qc_eq_bool a b = true <-> a = b.
Proof.
  split.
  - apply Qc_eq_bool_correct.
  - intros ->. unfold Qc_eq_bool. destruct (Qc_eq_dec b b); congruence.
Qed.

Lemma Qc_eq_bool_spec a b : reflect (a = b) (Qc_eq_bool a b).
Proof.
  destruct (Qc_eq_bool a b) eqn:E; constructor.
  - apply Qc_eq_bool_iff; auto.
  - intros H. apply Qc_eq_bool_iff in H. congruence.
Qed.

Lemma Qc_inv_nonneg (a : Qc) : 0 <= a -> 0 <= / a.
Proof.
  unfold Qcle, Qcinv, Q2Qc. cbn [this]. change (Qred 0) with 0%Q. intros H.
  rewrite Qred_correct. apply Qinv_le_0_compat; auto.
Qed.

Lemma Qc_div_nonneg (a b : Qc) : 0 <= a -> 0 <= b -> 0 <= a / b.
Proof. intros. unfold Qcdiv. apply Qc_mul_nonneg; auto. apply Qc_inv_nonneg; auto. Qed.

Lemma Qc_mult_integral (a b : Qc) : a * b = 0 -> a = 0 \/ b = 0.
Proof. apply Qcmult_integral. Qed.

Lemma Qc_inv_0 : / 0 = 0.
Proof. apply Qc_is_canon. reflexivity. Qed.

Lemma Qc_inv_r (a : Qc) : a <> 0 -> a * / a = 1.
Proof. apply Qcmult_inv_r. Qed.

Lemma Qc_1_neq_0 : 1 <> 0.
Proof. intros H. apply Qc_eq_iff in H. discriminate H. Qed.

Lemma Qc_div_self (a : Qc) : a <> 0 -> a / a = 1.
Proof. intros. unfold Qcdiv. apply Qcmult_inv_r; auto. Qed.

(** ** Finite sums *)
Section Sum.
  Context {A : Type}.

  Definition Qsum (f : A -> Qc) (l : list A) : Qc :=
    fold_right (fun x acc => f x + acc) 0 l.

  Lemma Qsum_nil f : Qsum f [] = 0.
  Proof. reflexivity. Qed.

  Lemma Qsum_cons f x l : Qsum f (x :: l) = f x + Qsum f l.
  Proof. reflexivity. Qed.

  Lemma Qsum_ext f g l : (forall x, In x l -> f x = g x) -> Qsum f l = Qsum g l.
  Proof.
    induction l as [|x xs IH]; simpl; intros H; auto.
    rewrite H by auto. rewrite IH; auto.
  Qed.

  Lemma Qsum_app f l1 l2 : Qsum f (l1 ++ l2) = Qsum f l1 + Qsum f l2.
  Proof. induction l1 as [|x xs IH]; simpl; [ring|]. rewrite IH. ring. Qed.

  Lemma Qsum_mul_l c f l : Qsum (fun x => c * f x) l = c * Qsum f l.
  Proof. induction l as [|x xs IH]; simpl; [ring|]. rewrite IH. ring. Qed.

  Lemma Qsum_mul_r c f l : Qsum (fun x => f x * c) l = Qsum f l * c.
  Proof. induction l as [|x xs IH]; simpl; [ring|]. rewrite IH. ring. Qed.

  Lemma Qsum_add f g l : Qsum (fun x => f x + g x) l = Qsum f l + Qsum g l.
  Proof. induction l as [|x xs IH]; simpl; [ring|]. rewrite IH. ring. Qed.

  Lemma Qsum_zero l : Qsum (fun _ => 0) l = 0.
  Proof. induction l as [|x xs IH]; simpl; auto. rewrite IH. ring. Qed.

  Lemma Qsum_all_zero f l : (forall x, In x l -> f x = 0) -> Qsum f l = 0.
  Proof. intros H. rewrite (Qsum_ext f (fun _ => 0)); auto. apply Qsum_zero. Qed.

  Lemma Qsum_perm f l1 l2 : Permutation l1 l2 -> Qsum f l1 = Qsum f l2.
  Proof.
    induction 1; simpl; auto.
    - rewrite IHPermutation; auto.
    - ring.
    - congruence.
  Qed.

  Lemma Qsum_nonneg f l : (forall x, In x l -> 0 <= f x) -> 0 <= Qsum f l.
  Proof.
    induction l as [|x xs IH]; simpl; intros H.
    - apply Qcle_refl.
    - apply Qc_add_nonneg; auto.
  Qed.

  Lemma Qsum_zero_inv f l :
    (forall x, In x l -> 0 <= f x) -> Qsum f l = 0 -> forall x, In x l -> f x = 0.
  Proof.
    induction l as [|y ys IH]; simpl; intros Hn Hz x Hx; [tauto|].
    apply Qc_add_zero in Hz as [H1 H2]; auto.
    - destruct Hx as [->|Hx]; auto.
    - apply Qsum_nonneg; auto.
  Qed.

  Lemma Qsum_filter f p l :
    Qsum f (filter p l) = Qsum (fun x => if p x then f x else 0) l.
  Proof.
    induction l as [|x xs IH]; simpl; auto.
    destruct (p x); simpl; rewrite IH; ring.
  Qed.

  Lemma Qsum_le f g l : (forall x, In x l -> f x <= g x) -> Qsum f l <= Qsum g l.
  Proof.
    induction l as [|x xs IH]; simpl; intros H.
    - apply Qcle_refl.
    - apply Qcplus_le_compat; auto.
  Qed.
End Sum.

Lemma Qsum_map {A B} (g : A -> B) (f : B -> Qc) l : Qsum f (map g l) = Qsum (fun x => f (g x)) l.
Proof. induction l; simpl; auto. rewrite IHl; auto. Qed.

Lemma Qsum_flat_map {A B} (g : A -> list B) (f : B -> Qc) l :
  Qsum f (flat_map g l) = Qsum (fun x => Qsum f (g x)) l.
Proof. induction l; simpl; auto. rewrite Qsum_app, IHl; auto. Qed.

Lemma Qsum_swap {A B} (f : A -> B -> Qc) l m :
  Qsum (fun x => Qsum (fun y => f x y) m) l = Qsum (fun y => Qsum (fun x => f x y) l) m.
Proof.
  induction l as [|x xs IH]; simpl.
  - rewrite Qsum_zero; auto.
  - rewrite IH, Qsum_add. auto.
Qed.

(** Sum of a function that is non-zero at one point only. *)
Lemma Qsum_single {A} (f : A -> Qc) l x :
  NoDup l -> In x l -> (forall y, In y l -> y <> x -> f y = 0) -> Qsum f l = f x.
Proof.
  induction l as [|y ys IH]; simpl; intros ND Hx H; [tauto|].
  inversion ND; subst. destruct Hx as [->|Hx].
  - rewrite Qsum_all_zero; [ring|]. intros z Hz. apply H; auto. intros ->; auto.
  - rewrite IH; auto. rewrite (H y); auto; [ring|]. intros ->; auto.
Qed.

(** ** Finite products *)
Definition Qprod {A} (f : A -> Qc) (l : list A) : Qc :=
  fold_right (fun x acc => f x * acc) 1 l.

Lemma Qprod_ext {A} (f g : A -> Qc) l : (forall x, In x l -> f x = g x) -> Qprod f l = Qprod g l.
Proof.
  induction l as [|x xs IH]; simpl; intros H; auto. rewrite H by auto. rewrite IH; auto.
Qed.

Lemma Qprod_app {A} (f : A -> Qc) l1 l2 : Qprod f (l1 ++ l2) = Qprod f l1 * Qprod f l2.
Proof. induction l1 as [|x xs IH]; simpl; [ring|]. rewrite IH. ring. Qed.

Lemma Qprod_perm {A} (f : A -> Qc) l1 l2 : Permutation l1 l2 -> Qprod f l1 = Qprod f l2.
Proof.
  induction 1; simpl; auto.
  - rewrite IHPermutation; auto.
  - ring.
  - congruence.
Qed.

Lemma Qprod_mul {A} (f g : A -> Qc) l : Qprod (fun x => f x * g x) l = Qprod f l * Qprod g l.
Proof. induction l as [|x xs IH]; simpl; [ring|]. rewrite IH. ring. Qed.

Lemma Qprod_one {A} (l : list A) : Qprod (fun _ => 1) l = 1.
Proof. induction l as [|x xs IH]; simpl; auto. rewrite IH. ring. Qed.

Lemma Qprod_map {A B} (g : A -> B) (f : B -> Qc) l : Qprod f (map g l) = Qprod (fun x => f (g x)) l.
Proof. induction l; simpl; auto. rewrite IHl; auto. Qed.

Lemma Qprod_flat_map {A B} (g : A -> list B) (f : B -> Qc) l :
  Qprod f (flat_map g l) = Qprod (fun x => Qprod f (g x)) l.
Proof. induction l; simpl; auto. rewrite Qprod_app, IHl; auto. Qed.

Lemma Qprod_nonneg {A} (f : A -> Qc) l : (forall x, In x l -> 0 <= f x) -> 0 <= Qprod f l.
Proof.
  induction l as [|x xs IH]; simpl; intros H.
  - discriminate.
  - apply Qc_mul_nonneg; auto.
Qed.

Lemma Qprod_zero {A} (f : A -> Qc) l x : In x l -> f x = 0 -> Qprod f l = 0.
Proof.
  induction l as [|y ys IH]; simpl; intros Hx H; [tauto|].
  destruct Hx as [->|Hx]; [rewrite H; ring|]. rewrite IH; auto. ring.
Qed.

Lemma Qprod_nonzero {A} (f : A -> Qc) l : (forall x, In x l -> f x <> 0) -> Qprod f l <> 0.
Proof.
  induction l as [|x xs IH]; simpl; intros H E.
  - apply Qc_1_neq_0; auto.
  - apply Qc_mult_integral in E as [E|E]; [eapply H; eauto|]. apply IH; auto.
Qed.
