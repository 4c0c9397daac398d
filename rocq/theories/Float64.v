(** * Float64: IEEE 754 double precision arithmetic, as computed by Python's floats. *)
From Coq Require Import ZArith Lia Reals Lra Bool.
From Flocq Require Import Core BinarySingleNaN Relative.
Local Open Scope R_scope.

Definition prec := 53%Z.
Definition emax := 1024%Z.
Lemma prec_pos : (0 < prec)%Z. Proof. reflexivity. Qed.
Lemma prec_emax : (prec < emax)%Z. Proof. reflexivity. Qed.
#[global] Instance prec_pos_inst : Prec_gt_0 prec := prec_pos.
#[global] Instance prec_emax_inst : Prec_lt_emax prec emax := prec_emax.

Definition f64 := binary_float prec emax.

(** [float(z)] *)
Definition of_Z (z : Z) : f64 := binary_normalize prec emax _ _ mode_NE z 0 false.
Definition fdiv : f64 -> f64 -> f64 := Bdiv mode_NE.
Definition fmul : f64 -> f64 -> f64 := Bmult mode_NE.
Definition fplus : f64 -> f64 -> f64 := Bplus mode_NE.
Definition fminus : f64 -> f64 -> f64 := Bminus mode_NE.
(** [int(x)] for a finite float *)
Definition ftrunc : f64 -> Z := Btrunc.

Notation fexp := (SpecFloat.fexp prec emax).
Notation rnd := (round radix2 fexp ZnearestE).

Lemma fexp_flt : fexp = FLT_exp (-1074) 53.
Proof. reflexivity. Qed.

#[global] Instance valid_fexp : Valid_exp fexp.
Proof. rewrite fexp_flt. apply FLT_exp_valid. reflexivity. Qed.

Lemma rnd_small x b : Rabs x <= bpow radix2 b -> (b < 1024)%Z -> (-1074 < b)%Z -> Rlt_bool (Rabs (rnd x)) (bpow radix2 emax) = true.
Proof.
  intros H Hb Hl. apply Rlt_bool_true. apply Rle_lt_trans with (bpow radix2 b); [|apply bpow_lt; exact Hb].
  apply abs_round_le_generic; [auto with typeclass_instances|auto with typeclass_instances| |auto].
  apply generic_format_bpow. unfold SpecFloat.fexp, SpecFloat.emin, prec, emax. lia.
Qed.

(** Integers up to 2^53 over a power of two are floats. *)
Lemma rnd_exact m k : (Z.abs m <= 2 ^ 53)%Z -> (0 <= k <= 1000)%Z -> rnd (IZR m / bpow radix2 k) = IZR m / bpow radix2 k.
Proof.
  intros Hm Hk. apply round_generic; [auto with typeclass_instances|].
  assert (E : IZR m / bpow radix2 k = F2R (Float radix2 m (- k))) by (unfold F2R; cbn [Fnum Fexp]; rewrite bpow_opp; reflexivity).
  rewrite E. destruct (Z.eq_dec (Z.abs m) (2 ^ 53)) as [Q|Q].
  - assert (B : exists s, (s = 1 \/ s = -1)%Z /\ m = (s * 2 ^ 53)%Z) by (destruct (Z.abs_spec m) as [[? A]|[? A]]; [exists 1%Z|exists (-1)%Z]; lia).
    destruct B as (s & Hs & ->). assert (F : F2R (Float radix2 (s * 2 ^ 53) (- k)) = IZR s * bpow radix2 (53 - k)).
    { unfold F2R. cbn [Fnum Fexp]. rewrite mult_IZR. replace (53 - k)%Z with (53 + - k)%Z by lia. rewrite bpow_plus. change (IZR (2 ^ 53)) with (bpow radix2 53). ring. }
    rewrite F. assert (G : generic_format radix2 fexp (bpow radix2 (53 - k))) by (apply generic_format_bpow; unfold SpecFloat.fexp, SpecFloat.emin, prec, emax; lia).
    destruct Hs as [-> | ->]; [rewrite Rmult_1_l; auto|]. replace (-1 * bpow radix2 (53 - k)) with (- bpow radix2 (53 - k)) by ring. apply generic_format_opp; auto.
  - rewrite fexp_flt. apply generic_format_FLT. exists (Float radix2 m (- k)); auto; cbn [Fnum Fexp]; [change (radix2 ^ 53)%Z with (2 ^ 53)%Z; lia|lia].
Qed.

Lemma of_Z_exact z : (Z.abs z <= 2 ^ 53)%Z -> B2R (of_Z z) = IZR z /\ is_finite (of_Z z) = true.
Proof.
  intros H. pose proof (binary_normalize_correct prec emax _ _ mode_NE z 0 false) as C. cbv zeta in C.
  assert (E : F2R (Float radix2 z 0) = IZR z) by (unfold F2R; cbn; ring). rewrite E in C. cbn [round_mode] in C.
  assert (R : rnd (IZR z) = IZR z) by (pose proof (rnd_exact z 0 H) as Q; cbn [bpow] in Q; unfold Rdiv in Q; rewrite Rinv_1, Rmult_1_r in Q; apply Q; lia).
  rewrite (rnd_small (IZR z) 53) in C; [|rewrite <- abs_IZR; change (bpow radix2 53) with (IZR (2 ^ 53)); apply IZR_le; lia|lia|lia].
  rewrite R in C. destruct C as (C1 & C2 & _). split; auto.
Qed.

Lemma fdiv_correct x y b : is_finite x = true -> B2R y <> 0 -> Rabs (B2R x / B2R y) <= bpow radix2 b -> (b < 1024)%Z -> (-1074 < b)%Z ->
  B2R (fdiv x y) = rnd (B2R x / B2R y) /\ is_finite (fdiv x y) = true.
Proof.
  intros Fx Ny Hb H1 H2. pose proof (Bdiv_correct prec emax _ _ mode_NE x y Ny) as C. cbn [round_mode] in C. rewrite (rnd_small _ b Hb H1 H2) in C.
  destruct C as (C1 & C2 & _). rewrite Fx in C2. auto.
Qed.
Lemma fmul_correct x y b : is_finite x = true -> is_finite y = true -> Rabs (B2R x * B2R y) <= bpow radix2 b -> (b < 1024)%Z -> (-1074 < b)%Z ->
  B2R (fmul x y) = rnd (B2R x * B2R y) /\ is_finite (fmul x y) = true.
Proof.
  intros Fx Fy Hb H1 H2. pose proof (Bmult_correct prec emax _ _ mode_NE x y) as C. cbn [round_mode] in C. rewrite (rnd_small _ b Hb H1 H2) in C.
  destruct C as (C1 & C2 & _). rewrite Fx, Fy in C2. auto.
Qed.
Lemma fplus_correct x y b : is_finite x = true -> is_finite y = true -> Rabs (B2R x + B2R y) <= bpow radix2 b -> (b < 1024)%Z -> (-1074 < b)%Z ->
  B2R (fplus x y) = rnd (B2R x + B2R y) /\ is_finite (fplus x y) = true.
Proof.
  intros Fx Fy Hb H1 H2. pose proof (Bplus_correct prec emax _ _ mode_NE x y Fx Fy) as C. cbn [round_mode] in C. rewrite (rnd_small _ b Hb H1 H2) in C.
  destruct C as (C1 & C2 & _). auto.
Qed.
Lemma ftrunc_correct x : ftrunc x = Ztrunc (B2R x).
Proof.
  apply eq_IZR. unfold ftrunc. rewrite (Btrunc_correct prec emax _ x). unfold round, F2R, scaled_mantissa, cexp, FIX_exp. cbn [Fnum Fexp].
  change (bpow radix2 (- 0)) with 1. change (bpow radix2 0) with 1. rewrite !Rmult_1_r. reflexivity.
Qed.

(** The rounding error. *)
Lemma rnd_error x : Rabs (rnd x - x) <= / IZR (2 ^ 53) * Rabs x + bpow radix2 (-1074).
Proof.
  destruct (error_N_FLT radix2 (-1074) 53 eq_refl (fun z => negb (Z.even z)) x) as (eps & eta & He & Ht & _ & E).
  change (rnd x) with (round radix2 (FLT_exp (-1074) 53) ZnearestE x). rewrite E.
  replace (x * (1 + eps) + eta - x) with (x * eps + eta) by ring. apply Rle_trans with (1 := Rabs_triang _ _). rewrite Rabs_mult.
  apply Rplus_le_compat.
  - rewrite Rmult_comm. apply Rmult_le_compat_r; [apply Rabs_pos|]. apply Rle_trans with (1 := He). change (bpow radix2 (- (53) + 1)) with (/ IZR (2 ^ 52)).
    apply Req_le. change (IZR (2 ^ 53)) with (IZR (2 * 2 ^ 52)). rewrite mult_IZR. rewrite Rinv_mult. reflexivity.
  - apply Rle_trans with (1 := Ht). pose proof (bpow_ge_0 radix2 (-1074)). lra.
Qed.
