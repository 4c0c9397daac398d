(** * ObjPerm: reordering the variables permutes the objective. *)
From Coq Require Import List Arith Bool Lia Reals Lra Permutation.
From Coquelicot Require Import Coquelicot.
From Verif Require Import AcycModel AcycProofs AcycThms ObjModel ObjProofs ObjGrad ObjLasso.
Import ListNotations.
Local Open Scope R_scope.

Section Perm.
  Variables (d : nat) (s : nat -> nat).
  Hypothesis P : Permutation (map s (seq 0 d)) (seq 0 d).

  Lemma perm_lt i : (i < d)%nat -> (s i < d)%nat.
  Proof. intros H. apply in_seq0. apply (Permutation_in _ P). apply in_map. apply in_seq0. auto. Qed.

  Lemma perm_inj i j : (i < d)%nat -> (j < d)%nat -> s i = s j -> i = j.
  Proof.
    intros Hi Hj E. assert (N : NoDup (map s (seq 0 d))) by (apply (Permutation_NoDup (Permutation_sym P)), seq_NoDup).
    apply in_seq0 in Hi, Hj. revert Hi Hj N. generalize (seq 0 d) as l. induction l as [|x l IH]; intros Hi Hj N; [destruct Hi|].
    cbn in N. inversion N as [|? ? Nx Nl]; subst. destruct Hi as [->|Hi], Hj as [->|Hj]; auto.
    - exfalso. apply Nx. rewrite E. apply in_map. auto.
    - exfalso. apply Nx. rewrite <- E. apply in_map. auto.
  Qed.

  Lemma rsum_reindex (f : nat -> R) : rsum d (fun i => f (s i)) = rsum d f.
  Proof.
    unfold rsum. transitivity (lsum f (map s (seq 0 d))).
    - generalize (seq 0 d) as l. induction l as [|x l IH]; cbn; auto. rewrite IH. auto.
    - apply lsum_perm. exact P.
  Qed.

  Lemma mid_perm i j : (i < d)%nat -> (j < d)%nat -> mid (s i) (s j) = mid i j.
  Proof.
    intros Hi Hj. unfold mid. destruct (Nat.eqb_spec i j) as [->|N]; [rewrite Nat.eqb_refl; auto|].
    destruct (Nat.eqb_spec (s i) (s j)) as [E|]; auto. apply perm_inj in E; auto. tauto.
  Qed.

  Section Matrix.
    Variables (W W' : rmat).
    Hypothesis HW : forall i j, (i < d)%nat -> (j < d)%nat -> W' i j = W (s i) (s j).

    Lemma mpow_perm k : forall i j, (i < d)%nat -> (j < d)%nat -> mpow d (squared W') k i j = mpow d (squared W) k (s i) (s j).
    Proof.
      induction k as [|k IH]; intros i j Hi Hj; cbn [mpow]; [symmetry; apply mid_perm; auto|].
      unfold mmul. rewrite <- (rsum_reindex (fun m => squared W (s i) m * mpow d (squared W) k m (s j))).
      apply rsum_ext. intros m Hm. rewrite IH by auto. unfold squared. rewrite HW by auto. auto.
    Qed.

    Lemma h_perm : h_fun d W' = h_fun d W.
    Proof.
      unfold h_fun, tr. f_equal. rewrite <- (rsum_reindex (fun i => mexp d (squared W) i i)). apply rsum_ext. intros i Hi.
      unfold mexp. apply Series_ext. intros k. rewrite mpow_perm by auto. auto.
    Qed.

    Lemma pred_perm (X X' : rmat) r c : (forall c, (c < d)%nat -> X' r c = X r (s c)) -> (c < d)%nat ->
      mmul d X' (msub mid W') r c = mmul d X (msub mid W) r (s c).
    Proof.
      intros HX Hc. unfold mmul. rewrite <- (rsum_reindex (fun k => X r k * msub mid W k (s c))). apply rsum_ext. intros k Hk.
      rewrite HX by auto. unfold msub. rewrite HW, mid_perm by auto. auto.
    Qed.

    Lemma loss_perm n (X X' : rmat) : (forall r c, (r < n)%nat -> (c < d)%nat -> X' r c = X r (s c)) -> loss n d X' W' = loss n d X W.
    Proof.
      intros HX. unfold loss. f_equal. rewrite !norm2_eq. apply rsum_ext. intros r Hr.
      rewrite <- (rsum_reindex (fun c => mmul d X (msub mid W) r c * mmul d X (msub mid W) r c)). apply rsum_ext. intros c Hc.
      rewrite (pred_perm X X' r c) by auto. auto.
    Qed.
  End Matrix.

  (** Every block of [d * d] numbers of [w'] is that block of [w] with rows and columns reordered. *)
  Definition reordered (blocks : nat) (w w' : rvec) : Prop := forall b i j, (b < blocks)%nat -> (i < d)%nat -> (j < d)%nat ->
    w' (b * (d * d) + (i * d + j))%nat = w (b * (d * d) + (s i * d + s j))%nat.

  Lemma block_sum B w w' : reordered B w w' -> rsum (B * (d * d)) w' = rsum (B * (d * d)) w.
  Proof.
    intros H. rewrite !rsum_blocks. apply rsum_ext. intros b Hb. rewrite !rsum_blocks.
    rewrite <- (rsum_reindex (fun i => rsum d (fun j => w (b * (d * d) + (i * d + j))%nat))). apply rsum_ext. intros i Hi.
    rewrite <- (rsum_reindex (fun j => w (b * (d * d) + (s i * d + j))%nat)). apply rsum_ext. intros j Hj. apply H; auto.
  Qed.

  Lemma reordered_le B B' w w' : (B <= B')%nat -> reordered B' w w' -> reordered B w w'.
  Proof. intros L H b i j Hb. apply H. lia. Qed.

  Lemma plain_perm w w' i j : reordered 1 w w' -> (i < d)%nat -> (j < d)%nat -> mat_at 0 d w' i j = mat_at 0 d w (s i) (s j).
  Proof. intros H Hi Hj. unfold mat_at. specialize (H 0%nat i j ltac:(lia) Hi Hj). exact H. Qed.

  Lemma split_perm w w' i j : reordered 2 w w' -> (i < d)%nat -> (j < d)%nat -> lasso_mat d w' i j = lasso_mat d w (s i) (s j).
  Proof.
    intros H Hi Hj. unfold lasso_mat, msub, mat_at. pose proof (H 0%nat i j ltac:(lia) Hi Hj) as H0. pose proof (H 1%nat i j ltac:(lia) Hi Hj) as H1.
    rewrite !Nat.mul_1_l in H1. rewrite <- !Nat.add_assoc. rewrite H1. cbn [Nat.add Nat.mul] in *. rewrite H0. auto.
  Qed.

  Theorem func_perm n X X' rho alpha w w' : (forall r c, (r < n)%nat -> (c < d)%nat -> X' r c = X r (s c)) -> reordered 1 w w' ->
    func n d X' rho alpha w' = func n d X rho alpha w.
  Proof.
    intros HX Hw. assert (HW : forall i j, (i < d)%nat -> (j < d)%nat -> mat_at 0 d w' i j = mat_at 0 d w (s i) (s j)) by (intros; apply plain_perm; auto).
    unfold func. rewrite (h_perm _ _ HW), (loss_perm _ _ HW n X X' HX). auto.
  Qed.

  Theorem lasso_perm n X X' beta rho alpha w w' : (forall r c, (r < n)%nat -> (c < d)%nat -> X' r c = X r (s c)) -> reordered 2 w w' ->
    lasso_func n d X' beta rho alpha w' = lasso_func n d X beta rho alpha w.
  Proof.
    intros HX Hw. assert (HW : forall i j, (i < d)%nat -> (j < d)%nat -> lasso_mat d w' i j = lasso_mat d w (s i) (s j)) by (intros; apply split_perm; auto).
    unfold lasso_func. rewrite (h_perm _ _ HW), (loss_perm _ _ HW n X X' HX), (block_sum 2 w w' Hw). auto.
  Qed.

  Theorem dyn_perm n p X X' Y Y' lw la rho alpha w w' : (forall r c, (r < n)%nat -> (c < d)%nat -> X' r c = X r (s c)) ->
    (forall r k c, (r < n)%nat -> (k < p)%nat -> (c < d)%nat -> Y' r (k * d + c)%nat = Y r (k * d + s c)%nat) ->
    reordered (2 * (p + 1)) w w' -> dyn_func n d p X' Y' lw la rho alpha w' = dyn_func n d p X Y lw la rho alpha w.
  Proof.
    intros HX HY Hw.
    assert (H2 : reordered 2 w w') by (apply (reordered_le 2 (2 * (p + 1))); auto; lia).
    assert (HW : forall i j, (i < d)%nat -> (j < d)%nat -> dyn_w d w' i j = dyn_w d w (s i) (s j)) by (intros; apply split_perm; auto).
    assert (HA : forall k i j, (k < p)%nat -> (i < d)%nat -> (j < d)%nat -> dyn_a d w' (k * d + i)%nat j = dyn_a d w (k * d + s i)%nat (s j)).
    { intros k i j Hk Hi Hj. rewrite !dyn_a_at by (auto using perm_lt).
      pose proof (Hw (2 + 2 * k)%nat i j ltac:(lia) Hi Hj) as A. pose proof (Hw (2 + 2 * k + 1)%nat i j ltac:(lia) Hi Hj) as B.
      f_equal.
      - replace (2 * (d * d) + (k * (2 * (d * d)) + (i * d + j)))%nat with ((2 + 2 * k) * (d * d) + (i * d + j))%nat by lia. rewrite A. f_equal. lia.
      - replace (2 * (d * d) + (k * (2 * (d * d)) + (d * d + (i * d + j))))%nat with ((2 + 2 * k + 1) * (d * d) + (i * d + j))%nat by lia. rewrite B. f_equal. lia. }
    assert (HR : forall r c, (r < n)%nat -> (c < d)%nat -> dyn_resid d p X' Y' w' r c = dyn_resid d p X Y w r (s c)).
    { intros r c Hr Hc. unfold dyn_resid. unfold msub at 1 3. rewrite (pred_perm _ _ HW X X' r c) by auto. f_equal.
      unfold mmul. rewrite !rsum_blocks. apply rsum_ext. intros k Hk.
      rewrite <- (rsum_reindex (fun i => Y r (k * d + i)%nat * dyn_a d w (k * d + i)%nat (s c))). apply rsum_ext. intros i Hi. rewrite HY, HA by auto. auto. }
    unfold dyn_func. rewrite (h_perm _ _ HW), (block_sum 2 w w' H2).
    assert (HL : rsum (2 * p * (d * d)) (fun q => w' (2 * (d * d) + q)%nat) = rsum (2 * p * (d * d)) (fun q => w (2 * (d * d) + q)%nat)).
    { apply block_sum. intros b i j Hb Hi Hj. pose proof (Hw (2 + b)%nat i j ltac:(lia) Hi Hj) as A.
      replace (2 * (d * d) + (b * (d * d) + (i * d + j)))%nat with ((2 + b) * (d * d) + (i * d + j))%nat by lia. rewrite A. f_equal. lia. }
    rewrite HL.
    assert (HN : norm2 n d (dyn_resid d p X' Y' w') = norm2 n d (dyn_resid d p X Y w)).
    { rewrite !norm2_eq. apply rsum_ext. intros r Hr. rewrite <- (rsum_reindex (fun c => dyn_resid d p X Y w r c * dyn_resid d p X Y w r c)).
      apply rsum_ext. intros c Hc. rewrite HR by auto. auto. }
    rewrite HN. auto.
  Qed.
End Perm.

(** ** Minimisers *)
Section Minimum.
  Variables (d : nat) (s : nat -> nat).
  Hypothesis P : Permutation (map s (seq 0 d)) (seq 0 d).

  Definition back (i : nat) : nat := match find (fun k => s k =? i)%nat (seq 0 d) with Some k => k | None => 0%nat end.

  Lemma s_range i : (i < d)%nat -> (s i < d)%nat.
  Proof. intros H. assert (I : In (s i) (seq 0 d)) by (apply (Permutation_in _ P), in_map, in_seq; lia). apply in_seq in I. lia. Qed.
  Lemma back_spec i : (i < d)%nat -> (back i < d)%nat /\ s (back i) = i.
  Proof.
    intros H. assert (I : In i (map s (seq 0 d))) by (apply (Permutation_in _ (Permutation_sym P)), in_seq; lia).
    apply in_map_iff in I as (k & E & K). unfold back. destruct (find _ (seq 0 d)) as [x|] eqn:F.
    - apply find_some in F as [I X]. apply in_seq in I. apply Nat.eqb_eq in X. split; [lia|auto].
    - exfalso. apply (find_none _ _ F k) in K. apply Nat.eqb_neq in K. auto.
  Qed.
  Lemma s_inj i j : (i < d)%nat -> (j < d)%nat -> s i = s j -> i = j.
  Proof.
    intros Hi Hj E. assert (N : NoDup (map s (seq 0 d))) by (apply (Permutation_NoDup (Permutation_sym P)), seq_NoDup).
    apply (proj1 (NoDup_nth (map s (seq 0 d)) 0%nat) N); rewrite ?map_length, ?seq_length; auto.
    rewrite (nth_indep _ 0%nat (s 0%nat)) by (rewrite map_length, seq_length; auto). rewrite (nth_indep (map s (seq 0 d)) 0%nat (s 0%nat)) by (rewrite map_length, seq_length; auto).
    rewrite !map_nth, !seq_nth by auto. cbn. auto.
  Qed.
  Lemma back_s i : (i < d)%nat -> back (s i) = i.
  Proof. intros H. destruct (back_spec (s i) (s_range i H)) as [A B]. apply s_inj; auto. Qed.

  (** The position of an entry in the other numbering *)
  Definition moved (t : nat -> nat) (q : nat) : nat := (q / (d * d) * (d * d) + (t (q mod (d * d) / d) * d + t (q mod (d * d) mod d)))%nat.

  Lemma moved_at t b i j : (i < d)%nat -> (j < d)%nat -> moved t (b * (d * d) + (i * d + j))%nat = (b * (d * d) + (t i * d + t j))%nat.
  Proof.
    intros Hi Hj. unfold moved. assert (L : (i * d + j < d * d)%nat) by nia.
    replace ((b * (d * d) + (i * d + j)) / (d * d))%nat with b by (symmetry; rewrite Nat.div_add_l by nia; rewrite Nat.div_small; lia).
    replace ((b * (d * d) + (i * d + j)) mod (d * d))%nat with (i * d + j)%nat by (symmetry; rewrite Nat.add_comm, Nat.mod_add by nia; apply Nat.mod_small; auto).
    replace ((i * d + j) / d)%nat with i by (symmetry; rewrite Nat.div_add_l by lia; rewrite Nat.div_small; lia).
    replace ((i * d + j) mod d)%nat with j by (symmetry; rewrite Nat.add_comm, Nat.mod_add by lia; apply Nat.mod_small; auto). auto.
  Qed.

  Lemma entry_split B q : (q < B * (d * d))%nat -> exists b i j, (b < B)%nat /\ (i < d)%nat /\ (j < d)%nat /\ q = (b * (d * d) + (i * d + j))%nat.
  Proof.
    intros H. assert (D : (d <> 0)%nat) by (intros ->; lia). exists (q / (d * d))%nat, (q mod (d * d) / d)%nat, (q mod (d * d) mod d)%nat.
    pose proof (Nat.div_mod q (d * d) ltac:(nia)). pose proof (Nat.mod_upper_bound q (d * d) ltac:(nia)). pose proof (Nat.div_mod (q mod (d * d)) d D). pose proof (Nat.mod_upper_bound (q mod (d * d)) d D).
    repeat split; auto; [apply Nat.div_lt_upper_bound; nia|apply Nat.div_lt_upper_bound; nia|lia].
  Qed.

  Lemma same_minimum B (F F' : rvec -> R) (box box' : nat -> R -> Prop) w w' :
    (forall v v', reordered d s B v v' -> F' v' = F v) ->
    (forall b i j x, (b < B)%nat -> (i < d)%nat -> (j < d)%nat -> box' (b * (d * d) + (i * d + j))%nat x <-> box (b * (d * d) + (s i * d + s j))%nat x) ->
    reordered d s B w w' ->
    ((forall q, (q < B * (d * d))%nat -> box q (w q)) /\ forall v, (forall q, (q < B * (d * d))%nat -> box q (v q)) -> F w <= F v) <->
    ((forall q, (q < B * (d * d))%nat -> box' q (w' q)) /\ forall v, (forall q, (q < B * (d * d))%nat -> box' q (v q)) -> F' w' <= F' v).
  Proof.
    intros HF HB Hw.
    assert (In1 : forall v v', reordered d s B v v' -> (forall q, (q < B * (d * d))%nat -> box q (v q)) <-> (forall q, (q < B * (d * d))%nat -> box' q (v' q))).
    { intros v v' Hv. split; intros H q Hq; destruct (entry_split B q Hq) as (b & i & j & Hb & Hi & Hj & ->).
      - rewrite (Hv b i j Hb Hi Hj). apply HB; auto. apply H. pose proof (s_range i Hi). pose proof (s_range j Hj). nia.
      - destruct (back_spec i Hi) as [A1 A2], (back_spec j Hj) as [B1 B2]. specialize (H (b * (d * d) + (back i * d + back j))%nat ltac:(nia)).
        rewrite (Hv b _ _ Hb A1 B1), A2, B2 in H. apply HB in H; auto. rewrite A2, B2 in H. auto. }
    assert (Fw : forall v, exists v', reordered d s B v v').
    { intros v. exists (fun q => v (moved s q)). intros b i j Hb Hi Hj. rewrite moved_at; auto. }
    assert (Bw : forall v', exists v, reordered d s B v v').
    { intros v'. exists (fun q => v' (moved back q)). intros b i j Hb Hi Hj. rewrite moved_at by (apply s_range; auto). rewrite !back_s by auto. auto. }
    rewrite (HF w w' Hw). split; intros [A M]; (split; [apply (In1 _ _ Hw), A|]).
    - intros v' Hv'. destruct (Bw v') as (v & R'). rewrite (HF v v' R'). apply M. apply (In1 _ _ R'). auto.
    - intros v Hv. destruct (Fw v) as (v' & R'). rewrite <- (HF v v' R'). apply M. apply (In1 _ _ R'). auto.
  Qed.
End Minimum.
