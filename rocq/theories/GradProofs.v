(** * GradProofs: the channels of a color gradient. *)
From Coq Require Import List Bool Arith ZArith Lia String Ascii Reals Lra.
From Flocq Require Import Core BinarySingleNaN.
From Verif Require Import Base Names Float64 PlotModel.
Import ListNotations.
Local Open Scope R_scope.

(** The exact value of a channel of color [i]. *)
Definition exact (f t n i : Z) : R := IZR f + IZR (t - f) * IZR i / IZR n.

Definition eps40 : R := / IZR (2 ^ 40).

Lemma pow2_200 : bpow radix2 (-1074) <= / IZR (2 ^ 200).
Proof. change (/ IZR (2 ^ 200)) with (bpow radix2 (-200)). apply bpow_le. lia. Qed.

Lemma exact_between f t n i : (0 < n)%Z -> (0 <= i <= n)%Z -> IZR (Z.min f t) <= exact f t n i <= IZR (Z.max f t).
Proof.
  intros Hn Hi. unfold exact. assert (0 < IZR n) by (apply IZR_lt; lia). assert (0 <= IZR i <= IZR n) by (split; apply IZR_le; lia).
  set (q := IZR i / IZR n). assert (Q : 0 <= q <= 1).
  { unfold q. split; [apply Rmult_le_pos; [lra|left; apply Rinv_0_lt_compat; auto]|]. apply Rmult_le_reg_r with (IZR n); auto. unfold Rdiv. rewrite Rmult_assoc, Rinv_l; lra. }
  replace (IZR (t - f) * IZR i / IZR n) with (IZR (t - f) * q) by (unfold q; field; lra). rewrite minus_IZR.
  destruct (Z.le_gt_cases f t) as [L|L].
  - rewrite Z.min_l, Z.max_r by lia. apply IZR_le in L. nra.
  - rewrite Z.min_r, Z.max_l by lia. assert (L' : (t <= f)%Z) by lia. apply IZR_le in L'. nra.
Qed.

Section Channel.
  Context (f t n i : Z).
  Context (Hf : (0 <= f <= 255)%Z) (Ht : (0 <= t <= 255)%Z) (Hn : (0 < n < 2 ^ 53)%Z) (Hi : (0 <= i <= n)%Z).

  Let D := IZR (t - f) / IZR n.

  Lemma n_ge_1 : 1 <= IZR n. Proof using Hn. apply IZR_le. lia. Qed.
  Lemma D_le : Rabs D <= 255.
  Proof using Hf Ht Hn.
    unfold D, Rdiv. rewrite Rabs_mult, Rabs_inv. pose proof n_ge_1. rewrite (Rabs_right (IZR n)) by lra.
    assert (Rabs (IZR (t - f)) <= 255) by (rewrite <- abs_IZR; apply IZR_le; lia).
    apply Rmult_le_reg_r with (IZR n); [lra|]. rewrite Rmult_assoc, Rinv_l by lra. rewrite Rmult_1_r. pose proof (Rabs_pos (IZR (t - f))). nra.
  Qed.
  Lemma Di_le : Rabs (D * IZR i) <= 255.
  Proof using Hf Ht Hn Hi.
    pose proof (exact_between f t n i ltac:(lia) Hi) as B. unfold exact in B. pose proof n_ge_1.
    replace (D * IZR i) with (IZR (t - f) * IZR i / IZR n) by (unfold D; field; lra).
    assert (0 <= IZR (Z.min f t)) by (apply IZR_le; lia). assert (IZR (Z.max f t) <= 255) by (apply IZR_le; lia). assert (0 <= IZR f <= 255) by (split; apply IZR_le; lia).
    apply Rabs_le. lra.
  Qed.

  Lemma div_step : B2R (fdiv (of_Z (t - f)) (of_Z n)) = rnd D /\ is_finite (fdiv (of_Z (t - f)) (of_Z n)) = true.
  Proof using Hf Ht Hn.
    destruct (of_Z_exact (t - f)) as [E1 F1]; [lia|]. destruct (of_Z_exact n) as [E2 F2]; [lia|]. pose proof n_ge_1. pose proof D_le.
    unfold D. rewrite <- E1, <- E2. apply (fdiv_correct _ _ 8); auto; try lia.
    - rewrite E2. lra.
    - rewrite E1, E2. change (bpow radix2 8) with 256. fold D. lra.
  Qed.

  Lemma d_error : Rabs (rnd D - D) <= / IZR (2 ^ 53) * Rabs D + / IZR (2 ^ 200).
  Proof using. apply Rle_trans with (1 := rnd_error D). pose proof pow2_200. lra. Qed.

  Lemma di_error : Rabs (rnd D * IZR i - D * IZR i) <= / IZR (2 ^ 45).
  Proof using Hf Ht Hn Hi.
    replace (rnd D * IZR i - D * IZR i) with ((rnd D - D) * IZR i) by ring. rewrite Rabs_mult. pose proof d_error as E. pose proof Di_le as B.
    rewrite Rabs_mult in B. assert (Pi : 0 <= Rabs (IZR i)) by apply Rabs_pos.
    assert (Hib : Rabs (IZR i) <= IZR (2 ^ 53)) by (rewrite <- abs_IZR; apply IZR_le; lia).
    apply Rle_trans with ((/ IZR (2 ^ 53) * Rabs D + / IZR (2 ^ 200)) * Rabs (IZR i)); [apply Rmult_le_compat_r; auto|].
    rewrite Rmult_plus_distr_r, Rmult_assoc. apply Rle_trans with (/ IZR (2 ^ 53) * 255 + / IZR (2 ^ 200) * IZR (2 ^ 53)); [|lra].
    apply Rplus_le_compat; apply Rmult_le_compat_l; auto; lra.
  Qed.

  Lemma mul_step : B2R (fmul (fdiv (of_Z (t - f)) (of_Z n)) (of_Z i)) = rnd (rnd D * IZR i) /\ is_finite (fmul (fdiv (of_Z (t - f)) (of_Z n)) (of_Z i)) = true.
  Proof using Hf Ht Hn Hi.
    destruct div_step as [E1 F1]. destruct (of_Z_exact i) as [E2 F2]; [lia|]. rewrite <- E1, <- E2. apply (fmul_correct _ _ 9); auto; try lia.
    rewrite E1, E2. pose proof di_error as E. pose proof Di_le as B. change (bpow radix2 9) with 512.
    apply Rle_trans with (Rabs (rnd D * IZR i - D * IZR i) + Rabs (D * IZR i)); [|lra].
    apply Rle_trans with (2 := Rabs_triang _ _). apply Req_le. f_equal. ring.
  Qed.

  Lemma p_error : Rabs (rnd (rnd D * IZR i) - D * IZR i) <= / IZR (2 ^ 43).
  Proof using Hf Ht Hn Hi.
    pose proof (rnd_error (rnd D * IZR i)) as E. pose proof di_error as E1. pose proof Di_le as B. pose proof pow2_200.
    assert (Rabs (rnd D * IZR i) <= 256).
    { apply Rle_trans with (Rabs (rnd D * IZR i - D * IZR i) + Rabs (D * IZR i)); [|lra]. apply Rle_trans with (2 := Rabs_triang _ _). apply Req_le. f_equal. ring. }
    replace (rnd (rnd D * IZR i) - D * IZR i) with ((rnd (rnd D * IZR i) - rnd D * IZR i) + (rnd D * IZR i - D * IZR i)) by ring.
    apply Rle_trans with (1 := Rabs_triang _ _). lra.
  Qed.

  Let P := rnd (rnd D * IZR i).

  Lemma add_step : B2R (fplus (of_Z f) (fmul (fdiv (of_Z (t - f)) (of_Z n)) (of_Z i))) = rnd (IZR f + P).
  Proof using Hf Ht Hn Hi.
    destruct mul_step as [E1 F1]. destruct (of_Z_exact f) as [E2 F2]; [lia|]. unfold P. rewrite <- E1, <- E2. apply (fplus_correct _ _ 10); auto; try lia.
    rewrite E1, E2. pose proof p_error as E. pose proof Di_le as B. change (bpow radix2 10) with 1024. assert (0 <= IZR f <= 255) by (split; apply IZR_le; lia).
    apply Rabs_le_inv in E. apply Rabs_le. apply Rabs_le_inv in B. lra.
  Qed.

  Lemma sum_error : Rabs (rnd (IZR f + P) - exact f t n i) <= eps40.
  Proof using Hf Ht Hn Hi.
    pose proof (rnd_error (IZR f + P)) as E. pose proof p_error as E1. fold P in E1. pose proof Di_le as B. pose proof pow2_200. pose proof n_ge_1.
    assert (0 <= IZR f <= 255) by (split; apply IZR_le; lia).
    replace (exact f t n i) with (IZR f + D * IZR i) by (unfold exact, D; field; lra).
    assert (Rabs (IZR f + P) <= 1024) by (apply Rabs_le_inv in E1; apply Rabs_le; apply Rabs_le_inv in B; lra).
    replace (rnd (IZR f + P) - (IZR f + D * IZR i)) with ((rnd (IZR f + P) - (IZR f + P)) + (P - D * IZR i)) by ring.
    apply Rle_trans with (1 := Rabs_triang _ _). unfold eps40. lra.
  Qed.

  Lemma trunc_bounds s x : 0 <= x <= 255 -> Rabs (s - x) <= eps40 -> (0 <= Ztrunc s <= 255)%Z /\ x - 1 - eps40 <= IZR (Ztrunc s) <= x + eps40.
  Proof using.
    intros Hx E. unfold eps40 in *. apply Rabs_le_inv in E. destruct (Rle_lt_dec 0 s) as [P0|P0].
    - rewrite Ztrunc_floor by auto. pose proof (Zfloor_lb s) as L. pose proof (Zfloor_ub s) as U. split; [|lra].
      split; [apply Zfloor_lub; auto|]. apply Z.lt_succ_r. apply lt_IZR. apply Rle_lt_trans with s; auto. change (Z.succ 255) with 256%Z. lra.
    - rewrite Ztrunc_ceil by lra. assert (Z0 : Zceil s = 0%Z).
      { apply Zceil_imp. cbn. lra. }
      rewrite Z0. split; [lia|]. lra.
  Qed.

  Lemma exact_range : 0 <= exact f t n i <= 255.
  Proof using Hf Ht Hn Hi.
    pose proof (exact_between f t n i ltac:(lia) Hi) as B. assert (0 <= IZR (Z.min f t)) by (apply IZR_le; lia). assert (IZR (Z.max f t) <= 255) by (apply IZR_le; lia). lra.
  Qed.

  Theorem channel_bounds : let c := channel f (fdiv (of_Z (t - f)) (of_Z n)) i in
    (0 <= c <= 255)%Z /\ exact f t n i - 1 - eps40 <= IZR c <= exact f t n i + eps40 /\ (Z.min f t - 1 <= c <= Z.max f t)%Z.
  Proof using Hf Ht Hn Hi.
    intros c. unfold c, channel. rewrite ftrunc_correct, add_step. pose proof (trunc_bounds _ _ exact_range sum_error) as [T1 T2].
    split; auto. split; auto. pose proof (exact_between f t n i ltac:(lia) Hi) as B. unfold eps40 in T2. split.
    - apply Z.lt_succ_r. apply lt_IZR. replace (Z.succ (Ztrunc (rnd (IZR f + P)))) with (Ztrunc (rnd (IZR f + P)) + 1)%Z by lia. rewrite plus_IZR, minus_IZR. lra.
    - apply Z.lt_succ_r. apply lt_IZR. replace (Z.succ (Z.max f t)) with (Z.max f t + 1)%Z by lia. rewrite plus_IZR. lra.
  Qed.

  Theorem channel_power k : n = (2 ^ k)%Z -> (0 <= k <= 44)%Z -> channel f (fdiv (of_Z (t - f)) (of_Z n)) i = Zfloor (exact f t n i).
  Proof using Hf Ht Hn Hi.
    intros Ek Hk. assert (Bn : IZR n = bpow radix2 k) by (rewrite Ek; apply (IZR_Zpower radix2); lia). pose proof n_ge_1.
    assert (N44 : (n <= 2 ^ 44)%Z) by (rewrite Ek; apply Z.pow_le_mono_r; lia).
    unfold channel. rewrite ftrunc_correct, add_step. unfold P.
    assert (R1 : rnd D = D) by (unfold D; rewrite Bn; apply rnd_exact; lia). rewrite R1.
    assert (R2 : rnd (D * IZR i) = D * IZR i).
    { replace (D * IZR i) with (IZR ((t - f) * i) / bpow radix2 k) by (unfold D; rewrite Bn, mult_IZR; field; rewrite <- Bn; lra). apply rnd_exact; [|lia]. nia. }
    rewrite R2. assert (R3 : IZR f + D * IZR i = exact f t n i) by (unfold exact, D; field; lra). rewrite R3.
    assert (R4 : rnd (exact f t n i) = exact f t n i).
    { replace (exact f t n i) with (IZR (f * n + (t - f) * i) / bpow radix2 k) by (unfold exact; rewrite <- Bn, plus_IZR, !mult_IZR; field; lra). apply rnd_exact; [|lia]. nia. }
    rewrite R4. apply Ztrunc_floor. apply exact_range.
  Qed.

  Theorem channel_first : channel f (fdiv (of_Z (t - f)) (of_Z n)) 0 = f.
  Proof using Hf Ht Hn.
    destruct div_step as [E1 F1]. destruct (of_Z_exact 0) as [E0 F0]; [lia|]. destruct (of_Z_exact f) as [E2 F2]; [lia|].
    destruct (fmul_correct (fdiv (of_Z (t - f)) (of_Z n)) (of_Z 0) 0) as [E3 F3]; auto; try lia.
    { rewrite E0, Rmult_0_r, Rabs_R0. cbn. lra. }
    rewrite E0, Rmult_0_r, round_0 in E3 by auto with typeclass_instances.
    assert (0 <= IZR f <= 255) by (split; apply IZR_le; lia).
    destruct (fplus_correct (of_Z f) (fmul (fdiv (of_Z (t - f)) (of_Z n)) (of_Z 0)) 8) as [E4 F4]; auto; try lia.
    { rewrite E2, E3, Rplus_0_r. change (bpow radix2 8) with 256. apply Rabs_le. lra. }
    rewrite E2, E3, Rplus_0_r in E4. unfold channel. rewrite ftrunc_correct, E4.
    pose proof (rnd_exact f 0 ltac:(lia) ltac:(lia)) as R. cbn [bpow] in R. unfold Rdiv in R. rewrite Rinv_1, Rmult_1_r in R. rewrite R. apply Ztrunc_IZR.
  Qed.
End Channel.
