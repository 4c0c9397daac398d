(** * ObjCycle: the derivative of the acyclicity penalty along a weight vanishes exactly off the cycles. *)
From Coq Require Import List Arith Bool Lia Reals Lra Relations.
From Coquelicot Require Import Coquelicot.
From Verif Require Import AcycModel AcycProofs AcycThms ObjModel ObjProofs ObjGrad.
Import ListNotations.
Local Open Scope R_scope.

Section Exp.
  Variables (d : nat) (A : rmat).
  Hypothesis NN : nonneg_mat d A.

  Lemma term_entry k i j : (i < d)%nat -> (j < d)%nat -> 0 <= mpow d A k i j / INR (fact k).
  Proof. intros Hi Hj. apply Rmult_le_pos; [apply mpow_nonneg; auto|]. left. apply Rinv_0_lt_compat. apply fact_pos. Qed.

  Lemma mexp_sum i j : (i < d)%nat -> (j < d)%nat -> infinite_sum (fun k => mpow d A k i j / INR (fact k)) (mexp d A i j).
  Proof. intros Hi Hj. apply is_series_Reals. apply Series_correct. apply mexp_ex; auto. Qed.

  Lemma mexp_ge k i j : (i < d)%nat -> (j < d)%nat -> mpow d A k i j / INR (fact k) <= mexp d A i j.
  Proof.
    intros Hi Hj. apply Rle_trans with (sum_f_R0 (fun k => mpow d A k i j / INR (fact k)) k).
    - destruct k; cbn [sum_f_R0]; [lra|]. assert (0 <= sum_f_R0 (fun k => mpow d A k i j / INR (fact k)) k); [|lra].
      apply cond_pos_sum. intros n. apply term_entry; auto.
    - apply partial_le; [intros n; apply term_entry; auto|]. apply mexp_sum; auto.
  Qed.

  Lemma path_power i j : clos_trans nat (medge d A) i j -> (i < d)%nat /\ (j < d)%nat /\ exists n, 0 < mpow d A n i j.
  Proof.
    induction 1 as [x y (Hx & Hy & E) | x y z _ (Hx & Hy & n & P) _ (_ & Hz & m & Q)].
    - split; auto. split; auto. exists 1%nat. rewrite mpow_1 by auto. specialize (NN x y Hx Hy). lra.
    - split; auto. split; auto. exists (n + m)%nat. pose proof (mpow_via d A n m x y z NN Hx Hy Hz). pose proof (Rmult_lt_0_compat _ _ P Q). lra.
  Qed.

  Lemma mexp_nonneg i j : (i < d)%nat -> (j < d)%nat -> 0 <= mexp d A i j.
  Proof. intros Hi Hj. apply Rle_trans with (1 := term_entry 0 i j Hi Hj). apply mexp_ge; auto. Qed.

  Lemma mexp_path i j : (i < d)%nat -> (j < d)%nat -> mexp d A i j <> 0 <-> i = j \/ clos_trans nat (medge d A) i j.
  Proof.
    intros Hi Hj. split.
    - intros P. destruct (Nat.eq_dec i j) as [E|Ne]; [auto|right].
      assert (X : exists k, mpow d A k i j <> 0).
      { apply Classical_Pred_Type.not_all_not_ex. intros Z. apply P. unfold mexp.
        rewrite (Series_ext _ (fun _ => 0)) by (intros k; destruct (Req_dec (mpow d A k i j) 0) as [E|N]; [rewrite E; lra|exfalso; exact (Z k N)]).
        apply is_series_unique. apply is_series_Reals. intros eps He. exists 0%nat. intros n _. rewrite (sum_eq_R0 (fun _ => 0)) by auto. unfold R_dist. rewrite Rminus_0_r, Rabs_R0. auto. }
      destruct X as (k & Hk). destruct (mpow_walk d A k i j NN Hi Hj Hk) as (v & W & V0 & Vk).
      destruct k as [|k]; [congruence|]. rewrite <- V0, <- Vk. apply walk_clos; auto. lia.
    - intros H Z. assert (X : exists k, 0 < mpow d A k i j).
      { destruct H as [<-|H]; [exists 0%nat; cbn; unfold mid; rewrite Nat.eqb_refl; lra|]. apply path_power in H. tauto. }
      destruct X as (k & Hk). pose proof (mexp_ge k i j Hi Hj) as G. rewrite Z in G.
      assert (0 < mpow d A k i j / INR (fact k)); [|lra]. apply Rmult_lt_0_compat; auto. apply Rinv_0_lt_compat. apply fact_pos.
  Qed.
End Exp.

(** The edge from [i] to [j] lies on a cycle. *)
Definition on_cycle (d : nat) (W : rmat) (i j : nat) : Prop := W i j <> 0 /\ (j = i \/ clos_trans nat (medge d W) j i).

Lemma squared_path d W i j : clos_trans nat (medge d (squared W)) i j <-> clos_trans nat (medge d W) i j.
Proof. split; apply clos_ext; intros a b; apply squared_edge. Qed.

Theorem penalty_derivative d (H : rmat -> R) (W : rmat) i j : (forall M, exp_penalty d M (H M)) -> (i < d)%nat -> (j < d)%nat ->
  exists g, is_derive (fun x => H (fun a b => if ((a =? i) && (b =? j))%bool then x else W a b)) (W i j) g /\
    (g <> 0 <-> on_cycle d W i j) /\ 0 <= g * W i j.
Proof.
  intros HP Hi Hj. set (Wx := fun x => pert W i j x).
  pose proof (h_derive d Wx W i j (fun y => y) 1 (W i j) Hi Hj (fun _ _ _ _ _ => eq_refl) (is_derive_id _)) as D.
  set (g := 1 * (mexp d (squared (Wx (W i j))) j i * Wx (W i j) i j * 2)) in *.
  assert (Ew : forall a b, Wx (W i j) a b = W a b).
  { intros a b. unfold Wx, pert. destruct (Nat.eqb_spec a i) as [->|]; destruct (Nat.eqb_spec b j) as [->|]; auto. }
  assert (Es : mexp d (squared (Wx (W i j))) j i = mexp d (squared W) j i) by (apply mexp_ext; auto; intros; unfold squared; rewrite Ew; auto).
  assert (Eg : g = 2 * (mexp d (squared W) j i * W i j)) by (unfold g; rewrite Es, Ew; lra).
  exists g. split; [|split].
  - apply derive_ext with (fun y => h_fun d (Wx y)); [|exact D]. intros t. apply (exp_penalty_unique d (Wx t)); [apply h_fun_penalty|apply HP].
  - rewrite Eg. pose proof (mexp_path d (squared W) (squared_nonneg d W) j i Hj Hi) as P. rewrite squared_path in P. unfold on_cycle. rewrite <- P. split.
    + intros G. split; intros Z; apply G; rewrite Z; lra.
    + intros [A B] Z. apply Rmult_integral in Z. destruct Z as [Z|Z]; [lra|]. apply Rmult_integral in Z. tauto.
  - rewrite Eg. pose proof (mexp_nonneg d (squared W) (squared_nonneg d W) j i Hj Hi) as P.
    replace (2 * (mexp d (squared W) j i * W i j) * W i j) with (2 * (mexp d (squared W) j i * (W i j * W i j))) by ring.
    apply Rmult_le_pos; [lra|]. apply Rmult_le_pos; auto. nra.
Qed.

Lemma dag_cycles d W : dag d W <-> forall i j, (i < d)%nat -> (j < d)%nat -> ~ on_cycle d W i j.
Proof.
  split.
  - intros D i j Hi Hj [E [->|P]].
    + apply (D i). apply t_step. repeat split; auto.
    + apply (D i). eapply t_trans; [apply t_step; repeat split; [exact Hi|exact Hj|exact E]|exact P].
  - intros N i C.
    assert (F : forall a b, clos_trans nat (medge d W) a b -> exists c, medge d W a c /\ (c = b \/ clos_trans nat (medge d W) c b)).
    { clear. induction 1 as [x y E|x y z _ (c & E & P) H2 _]; [exists y; auto|]. exists c. split; auto. right. destruct P as [->|P]; auto. eapply t_trans; eauto. }
    destruct (F i i C) as (c & (Hi & Hc & E) & P). apply (N i c Hi Hc). split; auto.
Qed.

Theorem penalty_flat d (H : rmat -> R) (W : rmat) : (forall M, exp_penalty d M (H M)) ->
  (forall i j, (i < d)%nat -> (j < d)%nat -> is_derive (fun x => H (fun a b => if ((a =? i) && (b =? j))%bool then x else W a b)) (W i j) 0) <-> dag d W.
Proof.
  intros HP. rewrite dag_cycles. split.
  - intros F i j Hi Hj C. destruct (penalty_derivative d H W i j HP Hi Hj) as (g & D & G & _). apply G in C. apply C.
    rewrite <- (is_derive_unique _ _ _ D). apply is_derive_unique. apply F; auto.
  - intros N i j Hi Hj. destruct (penalty_derivative d H W i j HP Hi Hj) as (g & D & G & _). eapply derive_eq; [exact D|].
    destruct (Req_dec g 0) as [E|E]; auto. exfalso. apply (N i j Hi Hj). apply G. auto.
Qed.

(** At an acyclic matrix the gradient does not see the penalty. *)
Theorem dag_gradient n d X rho alpha w i j : (i < d)%nat -> (j < d)%nat -> dag d (mat_at 0 d w) ->
  grad n d X rho alpha w (i * d + j)%nat = -1 / INR n * mmul d (mmul n (mT X) X) (msub mid (mat_at 0 d w)) i j.
Proof.
  intros Hi Hj D. unfold grad. rewrite flat_at by auto. set (W := mat_at 0 d w) in *. unfold obj_grad.
  set (E := mexp d (squared W)).
  assert (Z : E j i * W i j = 0).
  { destruct (Req_dec (W i j) 0) as [->|Nw]; [ring|]. destruct (Req_dec (E j i) 0) as [->|Ne]; [ring|]. exfalso.
    rewrite dag_cycles in D. apply (D i j Hi Hj). split; auto.
    apply (mexp_path d (squared W) (squared_nonneg d W) j i Hj Hi) in Ne. rewrite squared_path in Ne. auto. }
  match goal with |- ?a + ?c * E j i * W i j * 2 = _ => replace (c * E j i * W i j * 2) with (c * 2 * (E j i * W i j)) by ring end.
  rewrite Z. ring.
Qed.
