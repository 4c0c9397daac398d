(** * AscentBest: what the augmented Lagrangian method returns when its answers are close to minima. *)
From Coq Require Import List Bool Arith ZArith Lia QArith Qcanon Qreals Reals Lra.
From Coquelicot Require Import Coquelicot.
From Verif Require Import Base QcX NotearsModel AcycModel AcycProofs AcycThms AcycLink ObjProofs FitBound AscentSpec.
Import ListNotations.
Local Open Scope nat_scope.

Section Best.
  Variables (solve : Qc -> Qc -> list Qc -> nat -> list Qc) (pen : list Qc -> Qc -> Prop) (tol limit : Qc).
  Hypothesis Nonneg : forall w x, pen w x -> (0 <= x)%Qc.

  (** [w] is the answer to a subproblem with weight [r] and a multiplier that is not negative. *)
  Definition answers (r : Qc) (w : list Qc) : Prop := exists q s k, (0 <= q)%Qc /\ w = solve r q s k.

  Lemma ten_grows r : (1 <= r)%Qc -> (1 <= r * Q2Qc 10)%Qc.
  Proof. intros Hr. apply Qcle_trans with (1 := Hr). rewrite <- (Qcmult_1_r r) at 1. rewrite (Qcmult_comm r 1), (Qcmult_comm r). apply Qcmult_le_compat_r; [discriminate|]. apply Qcle_trans with (2 := Hr). discriminate. Qed.
  Lemma mult_grows a r x : (0 <= a)%Qc -> (1 <= r)%Qc -> (0 <= x)%Qc -> (0 <= a + r * x)%Qc.
  Proof.
    intros Ha Hr Hx. replace 0%Qc with (0 + 0)%Qc by ring. apply Qcplus_le_compat; auto. replace 0%Qc with (0 * x)%Qc by ring. apply Qcmult_le_compat_r; auto.
    apply Qcle_trans with (2 := Hr). discriminate.
  Qed.

  Lemma method_answer : forall n k r a last from out v, method solve pen tol limit n k r a last from out v -> (1 <= r)%Qc -> (0 <= a)%Qc ->
    exists r' x, (1 <= r')%Qc /\ answers r' out /\ pen out x.
  Proof.
    intros n k r a last from out v M. induction M; intros Hr Ha.
    2,3,4,5: exists weight, x; split; auto; split; auto; exists mult, from, k; auto.
    - apply IHM; auto. apply ten_grows; auto.
    - apply IHM; auto. apply mult_grows; auto. eapply Nonneg; eauto.
  Qed.

  (** The bound of the penalty when the iterations ran out. *)
  Definition left_over (n : nat) (last : option Qc) (first : R) : R := match last with Some y => (realq y / 4 ^ n)%R | None => (first / 4 ^ (n - 1))%R end.

  Lemma method_best first : (forall r w x, (1 <= r)%Qc -> answers r w -> pen w x -> (realq x <= first)%R) ->
    forall n k r a last from out v, method solve pen tol limit n k r a last from out v -> (1 <= r)%Qc -> (0 <= a)%Qc -> (forall y, last = Some y -> (0 <= y)%Qc) ->
    exists r' x, (1 <= r')%Qc /\ answers r' out /\ pen out x /\
      match v with
      | Converged => (x <= tol)%Qc
      | WeightLimit => (tol < x)%Qc /\ (limit <= r' * Q2Qc 10)%Qc
      | OutOfIterations => (tol < x)%Qc /\ (realq x <= left_over n last first)%R
      end.
  Proof.
    intros Hf n k r a last from out v M. induction M as [n k r a last from x out v Px NR Lt M IH|n k r a last from x Px NR Le Cl|n k r a last from x Px NR Le Fa|n k r a last from x Px NR Cl|k r a last from x Px NR Fa|n k r a last from x out v Px NR Fa M IH]; intros Hr Ha Hl.
    - destruct IH as (r' & y & Q); auto. { apply ten_grows; auto. } exists r', y. exact Q.
    - exists r, x. split; auto. split; [exists a, from, k; auto|auto].
    - exists r, x. split; auto. split; [exists a, from, k; auto|auto].
    - exists r, x. split; auto. split; [exists a, from, k; auto|auto].
    - exists r, x. split; auto. assert (A : answers r (solve r a from k)) by (exists a, from, k; auto). split; auto. split; auto. split; auto.
      destruct last as [y|]; cbn [left_over].
      + cbn [not_reduced] in NR. apply Qcnot_lt_le in NR. apply realq_le in NR. fold quarter in NR. rewrite realq_quarter in NR. cbn [pow]. rewrite Rmult_1_r. exact NR.
      + cbn [Nat.sub pow]. rewrite Rdiv_1. exact (Hf r _ x Hr A Px).
    - assert (Hx : (0 <= x)%Qc) by eauto. assert (A : answers r (solve r a from k)) by (exists a, from, k; auto).
      destruct IH as (r' & y & Q1 & Q2 & Q3 & Q4); auto. { apply mult_grows; auto. } { intros z [= <-]. auto. }
      exists r', y. split; auto. split; auto. split; auto. destruct v; auto. destruct Q4 as [Q4 Q5]. split; auto. cbn [left_over] in *. apply Rle_trans with (1 := Q5).
      destruct last as [z|]; cbn [left_over].
      + cbn [not_reduced] in NR. apply Qcnot_lt_le in NR. apply realq_le in NR. fold quarter in NR. rewrite realq_quarter in NR.
        change (4 ^ S (S n))%R with (4 * 4 ^ S n)%R. unfold Rdiv in *. rewrite Rinv_mult, <- Rmult_assoc. apply Rmult_le_compat_r; [left; apply Rinv_0_lt_compat, pow_lt; lra|exact NR].
      + replace (S (S n) - 1) with (S n) by lia. unfold Rdiv. apply Rmult_le_compat_r; [left; apply Rinv_0_lt_compat, pow_lt; lra|]. exact (Hf r _ x Hr A Px).
  Qed.
End Best.

(** The penalties of the answers have what all answers have. *)
Lemma method_and solve pen (C : list Qc -> Prop) tol limit : (forall r a s k, C (solve r a s k)) -> forall n k r a last from out v,
  method solve pen tol limit n k r a last from out v -> method solve (fun w x => pen w x /\ C w) tol limit n k r a last from out v.
Proof. intros H n k r a last from out v M. induction M; [eapply raise|eapply limit_close|eapply limit_far|eapply converged|eapply exhausted|eapply next]; eauto. Qed.
