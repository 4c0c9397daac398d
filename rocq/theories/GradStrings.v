(** * GradStrings: what a gradient string says. *)
From Coq Require Import List Bool Arith ZArith Lia String Ascii Reals Lra.
From Flocq Require Import Core BinarySingleNaN.
From Verif Require Import Base Names Float64 PlotModel GradProofs.
Import ListNotations.
Local Open Scope string_scope.

(** ** Specification: colors written as hexadecimal digits *)

Definition digit_value (c : ascii) (k : nat) : Prop := String.get k "0123456789abcdef" = Some c \/ String.get k "0123456789ABCDEF" = Some c.

Definition byte_text (s : string) (v : Z) : Prop :=
  exists a b x y, s = String a (String b EmptyString) /\ digit_value a x /\ digit_value b y /\ v = (16 * Z.of_nat x + Z.of_nat y)%Z.

(** Red, green, blue and alpha. *)
Record rgba := mkRgba { red : Z; green : Z; blue : Z; alpha : Z }.

Definition color_text (s : string) (c : rgba) : Prop :=
  exists r g b a, s = "#" ++ r ++ g ++ b ++ a /\ byte_text r (red c) /\ byte_text g (green c) /\ byte_text b (blue c) /\ byte_text a (alpha c).

(** A weight: zero point two digits. *)
Definition weight_text (s : string) (h : Z) : Prop :=
  exists a b x y, s = "0." ++ String a (String b EmptyString) /\ String.get x "0123456789" = Some a /\ String.get y "0123456789" = Some b /\ h = (10 * Z.of_nat x + Z.of_nat y)%Z.

(** ** Reading *)

Lemma get_16 s k c : String.length s = 16%nat -> String.get k s = Some c -> (k < 16)%nat.
Proof.
  intros <-. revert k. induction s as [|a s IH]; intros k H; destruct k; cbn in *; try discriminate; try lia. apply IH in H. lia.
Qed.

Lemma digit_lt c k : digit_value c k -> (k < 16)%nat.
Proof. intros [H|H]; apply get_16 in H; auto. Qed.

Lemma digit_hex_val c k : digit_value c k -> hex_val c = Some (Z.of_nat k).
Proof.
  intros H. pose proof (digit_lt _ _ H) as L. destruct H as [H|H];
  do 16 (destruct k as [|k]; [cbn in H; injection H as <-; reflexivity|]); lia.
Qed.

Lemma byte_group s v r : byte_text s v -> hex_group (s ++ r) = Some (v, r).
Proof.
  intros (a & b & x & y & -> & Ha & Hb & ->). cbn. rewrite (digit_hex_val _ _ Ha), (digit_hex_val _ _ Hb). auto.
Qed.

Lemma byte_range s v : byte_text s v -> (0 <= v <= 255)%Z.
Proof. intros (a & b & x & y & -> & Ha & Hb & ->). apply digit_lt in Ha, Hb. lia. Qed.

Lemma byte_last s v : byte_text s v -> last_group s None = Some v.
Proof.
  intros (a & b & x & y & -> & Ha & Hb & ->). cbn. rewrite (digit_hex_val _ _ Ha), (digit_hex_val _ _ Hb). auto.
Qed.

Lemma color_matched s c : color_text s c -> match_color s = Ok [red c; green c; blue c; alpha c].
Proof.
  intros (r & g & b & a & -> & Hr & Hg & Hb & Ha). cbn [append match_color]. rewrite Ascii.eqb_refl.
  rewrite (byte_group r _ _ Hr), (byte_group g _ _ Hg), (byte_group b _ _ Hb), (byte_last _ _ Ha). auto.
Qed.

Lemma no_alpha_matched r g b x y z : byte_text r x -> byte_text g y -> byte_text b z -> match_color ("#" ++ r ++ g ++ b) = Ok [x; y; z; 0%Z].
Proof.
  intros Hr Hg Hb. cbn [append match_color]. rewrite Ascii.eqb_refl. rewrite (byte_group r _ _ Hr), (byte_group g _ _ Hg).
  replace b with (b ++ "") by (clear; induction b; cbn; congruence). rewrite (byte_group b _ _ Hb). auto.
Qed.

(** ** Writing *)

Lemma hex_char_digit z : (0 <= z < 16)%Z -> digit_value (hex_char z) (Z.to_nat z).
Proof.
  intros H. left. assert (E : In z (map Z.of_nat (seq 0 16))).
  { apply in_map_iff. exists (Z.to_nat z). split; [lia|]. apply in_seq. lia. }
  cbn in E. repeat (destruct E as [<-|E]; [reflexivity|]). contradiction.
Qed.

Lemma format02x_text z : (0 <= z <= 255)%Z -> byte_text (format02x z) z.
Proof.
  intros H. exists (hex_char (z / 16)), (hex_char (z mod 16)), (Z.to_nat (z / 16)), (Z.to_nat (z mod 16)). split; [auto|].
  assert (0 <= z / 16 < 16)%Z by (split; [apply Z.div_pos; lia|apply Z.div_lt_upper_bound; lia]). pose proof (Z.mod_pos_bound z 16 ltac:(lia)).
  split; [apply hex_char_digit; lia|]. split; [apply hex_char_digit; lia|]. rewrite !Z2Nat.id by lia. apply Z.div_mod. lia.
Qed.

Lemma dec_char_digit z : (0 <= z < 10)%Z -> String.get (Z.to_nat z) "0123456789" = Some (hex_char z).
Proof.
  intros H. assert (E : In z (map Z.of_nat (seq 0 10))).
  { apply in_map_iff. exists (Z.to_nat z). split; [lia|]. apply in_seq. lia. }
  cbn in E. repeat (destruct E as [<-|E]; [reflexivity|]). contradiction.
Qed.

Lemma format2f_text x : (0 <= hundredths x < 100)%Z -> weight_text (format2f x) (hundredths x).
Proof.
  intros H. unfold format2f. set (h := hundredths x) in *. exists (hex_char (h mod 100 / 10)), (hex_char (h mod 10)), (Z.to_nat (h mod 100 / 10)), (Z.to_nat (h mod 10)).
  rewrite Z.div_small by lia. rewrite (Z.mod_small h 100) by lia.
  assert (0 <= h / 10 < 10)%Z by (split; [apply Z.div_pos; lia|apply Z.div_lt_upper_bound; lia]). pose proof (Z.mod_pos_bound h 10 ltac:(lia)).
  split; [reflexivity|]. split; [apply dec_char_digit; lia|]. split; [apply dec_char_digit; lia|]. rewrite !Z2Nat.id by lia. apply Z.div_mod. lia.
Qed.

Local Open Scope R_scope.

(** Hundredths are rounded to nearest. *)
Lemma hundredths_error x : 0 <= B2R x -> is_finite x = true -> Rabs (IZR (hundredths x) - 100 * B2R x) <= 1 / 2 /\ (0 <= hundredths x)%Z.
Proof.
  intros P F. destruct x as [s|s| |s m e B]; try discriminate.
  - cbn. rewrite Rmult_0_r, Rminus_0_r, Rabs_R0. split; [lra|lia].
  - assert (S0 : s = false).
    { destruct s; auto. exfalso. assert (B2R (B754_finite true m e B) < 0); [|lra]. apply F2R_lt_0. reflexivity. }
    subst s. cbn [hundredths B2R]. cbn [cond_Zopp]. destruct (0 <=? e)%Z eqn:E.
    + apply Z.leb_le in E. unfold F2R; cbn [Fnum Fexp]. rewrite <- (IZR_Zpower radix2) by lia. change (radix_val radix2) with 2%Z. rewrite !mult_IZR.
      match goal with |- Rabs ?a <= _ /\ _ => replace a with 0 by ring end. rewrite Rabs_R0. split; [lra|]. pose proof (Z.pow_nonneg 2 e). lia.
    + apply Z.leb_gt in E. set (den := (2 ^ (- e))%Z). assert (Pd : (0 < den)%Z) by (apply Z.pow_pos_nonneg; lia).
      assert (V : F2R (Float radix2 (Z.pos m) e) = IZR (Z.pos m) / IZR den).
      { unfold F2R; cbn [Fnum Fexp]. unfold den. change 2%Z with (radix_val radix2). rewrite (IZR_Zpower radix2) by lia. unfold Rdiv. rewrite <- bpow_opp, Z.opp_involutive. auto. }
      rewrite V. pose proof (Z.div_mod (Z.pos m * 100) den ltac:(lia)) as DM. pose proof (Z.mod_pos_bound (Z.pos m * 100) den Pd) as MB.
      set (q := (Z.pos m * 100 / den)%Z) in *. set (r := (Z.pos m * 100 mod den)%Z) in *.
      assert (Q0 : (0 <= q)%Z) by (apply Z.div_pos; lia). assert (PdR : 0 < IZR den) by (apply IZR_lt; auto).
      assert (X : 100 * (IZR (Z.pos m) / IZR den) = IZR q + IZR r / IZR den).
      { apply (f_equal IZR) in DM. rewrite plus_IZR, !mult_IZR in DM. field_simplify_eq; [|lra]. rewrite <- DM. ring. }
      rewrite X. assert (R1 : 0 <= IZR r / IZR den < 1).
      { split; [apply Rmult_le_pos; [apply IZR_le; lia|left; apply Rinv_0_lt_compat; auto]|]. apply Rmult_lt_reg_r with (IZR den); auto. unfold Rdiv. rewrite Rmult_assoc, Rinv_l, Rmult_1_r, Rmult_1_l by lra. apply IZR_lt. lia. }
      assert (Cmp : forall h : R, (IZR r / IZR den <= h <-> IZR r <= h * IZR den) /\ (h <= IZR r / IZR den <-> h * IZR den <= IZR r)).
      { intros h. assert (Eq : IZR r = IZR r / IZR den * IZR den) by (field; lra). split; split; intros I.
        - rewrite Eq. apply Rmult_le_compat_r; lra.
        - rewrite Eq in I. apply Rmult_le_reg_r with (IZR den); auto.
        - rewrite Eq. apply Rmult_le_compat_r; lra.
        - rewrite Eq in I. apply Rmult_le_reg_r with (IZR den); auto. }
      destruct (Cmp (1/2)) as [C1 C2]. clear Cmp.
      destruct (Z.compare_spec (2 * r) den) as [Eq|Lt|Gt].
      * apply (f_equal IZR) in Eq. rewrite mult_IZR in Eq. assert (IZR r / IZR den = 1/2) by (apply Rle_antisym; [apply C1|apply C2]; lra).
        destruct (Z.even q); rewrite ?plus_IZR; split; try lia; apply Rabs_le; lra.
      * apply IZR_lt in Lt. rewrite mult_IZR in Lt. assert (IZR r / IZR den <= 1/2) by (apply C1; lra). split; [|lia]. apply Rabs_le. lra.
      * apply IZR_lt in Gt. rewrite mult_IZR in Gt. assert (1/2 <= IZR r / IZR den) by (apply C2; lra). rewrite plus_IZR. split; [|lia]. apply Rabs_le. lra.
Qed.

Lemma weight_ok n : (1 <= n < 2 ^ 53)%Z -> let h := hundredths (fdiv (of_Z 1) (of_Z (n + 1))) in
  weight_text (format2f (fdiv (of_Z 1) (of_Z (n + 1)))) h /\ Rabs (IZR h - 100 / (IZR n + 1)) <= 1 / 2 + eps40.
Proof.
  intros Hn h. destruct (of_Z_exact 1) as [E1 F1]; [lia|]. destruct (of_Z_exact (n + 1)) as [E2 F2]; [lia|].
  assert (N2 : 2 <= IZR n + 1) by (assert (1 <= IZR n) by (apply IZR_le; lia); lra).
  assert (D : 0 <= 1 / (IZR n + 1) <= 1/2).
  { split; [apply Rmult_le_pos; [lra|left; apply Rinv_0_lt_compat; lra]|]. apply Rmult_le_reg_r with (IZR n + 1); [lra|]. unfold Rdiv. rewrite Rmult_assoc, Rinv_l by lra. lra. }
  destruct (fdiv_correct (of_Z 1) (of_Z (n + 1)) 0) as [E F]; auto; try lia.
  { rewrite E2, plus_IZR. lra. }
  { rewrite E1, E2, plus_IZR. cbn [bpow]. rewrite Rabs_right by lra. lra. }
  rewrite E1, E2, plus_IZR in E. set (x := fdiv (of_Z 1) (of_Z (n + 1))) in *.
  assert (P : 0 <= B2R x).
  { rewrite E. rewrite <- (round_0 radix2 fexp ZnearestE) at 1. apply round_le; auto with typeclass_instances. lra. }
  destruct (hundredths_error x P F) as [H0 H1]. fold h in H0, H1.
  pose proof (rnd_error (1 / (IZR n + 1))) as R. fold x in R. rewrite <- E in R. rewrite (Rabs_right (1 / (IZR n + 1))) in R by lra. pose proof pow2_200.
  assert (R' : Rabs (B2R x - 1 / (IZR n + 1)) <= / IZR (2 ^ 52)) by lra. apply Rabs_le_inv in R'. apply Rabs_le_inv in H0.
  split.
  - apply format2f_text. fold h. split; auto. apply lt_IZR. lra.
  - unfold eps40. replace (100 / (IZR n + 1)) with (100 * (1 / (IZR n + 1))) by (field; lra). apply Rabs_le. lra.
Qed.

(** ** The whole string *)

Definition color_of (f t : rgba) (n i : Z) : rgba :=
  let ch a b := channel a (fdiv (of_Z (b - a)) (of_Z n)) i in
  mkRgba (ch (red f) (red t)) (ch (green f) (green t)) (ch (blue f) (blue t)) (ch (alpha f) (alpha t)).

Definition segment (f t : rgba) (n i : Z) : string :=
  (("#" ++ format02x (red (color_of f t n i)) ++ format02x (green (color_of f t n i)) ++ format02x (blue (color_of f t n i)) ++ format02x (alpha (color_of f t n i)))
   ++ ";" ++ format2f (fdiv (of_Z 1) (of_Z (n + 1))))%string.

Lemma zrange_length n : List.length (zrange n) = Z.to_nat n.
Proof. unfold zrange. rewrite map_length, seq_length. auto. Qed.

Lemma nth_zrange_map {A} (g : Z -> A) n i d : In i (zrange n) -> nth (Z.to_nat i) (map g (zrange n)) d = g i.
Proof.
  unfold zrange. intros H. apply in_map_iff in H as (k & <- & K). apply in_seq in K. rewrite Nat2Z.id, map_map.
  rewrite nth_indep with (d' := g (Z.of_nat 0)) by (rewrite map_length, seq_length; lia).
  rewrite (map_nth (fun x => g (Z.of_nat x)) (seq 0 (Z.to_nat n)) 0%nat k). rewrite seq_nth by lia. auto.
Qed.

Lemma in_zrange i n : In i (zrange n) <-> (0 <= i < n)%Z.
Proof.
  unfold zrange. rewrite in_map_iff. split.
  - intros (k & <- & K). apply in_seq in K. lia.
  - intros H. exists (Z.to_nat i). split; [lia|]. apply in_seq. lia.
Qed.

Lemma gradient_string_is from to f t n : color_text from f -> color_text to t -> (1 <= n)%Z ->
  color_gradient_string from to n = Ok (String.concat ":" (map (segment f t n) (zrange (n + 1)))).
Proof.
  intros Hf Ht Hn. unfold color_gradient_string. rewrite (color_matched _ _ Hf), (color_matched _ _ Ht). cbn [bind].
  destruct (Z.eqb_spec n 0) as [?|_]; [lia|]. f_equal. f_equal. apply map_ext_in. intros i Hi.
  rewrite (nth_zrange_map _ _ _ _ Hi). unfold segment. cbn [combine map fst snd]. cbn [String.concat]. reflexivity.
Qed.

Definition in_range (c : rgba) : Prop := (0 <= red c <= 255 /\ 0 <= green c <= 255 /\ 0 <= blue c <= 255 /\ 0 <= alpha c <= 255)%Z.

Lemma color_range s c : color_text s c -> in_range c.
Proof. intros (r & g & b & a & -> & Hr & Hg & Hb & Ha). repeat split; eapply byte_range; eauto. Qed.

Lemma color_of_range f t n i : in_range f -> in_range t -> (0 < n < 2 ^ 53)%Z -> (0 <= i <= n)%Z -> in_range (color_of f t n i).
Proof.
  intros (? & ? & ? & ?) (? & ? & ? & ?) Hn Hi. unfold in_range, color_of; cbn [red green blue alpha].
  repeat split; match goal with |- context [channel ?a (fdiv (of_Z (?b - ?a)) _) _] => pose proof (channel_bounds a b n i ltac:(auto) ltac:(auto) Hn Hi) as [B _]; lia end.
Qed.

(** A segment: the text of a color, a semicolon and a weight. *)
Definition segment_text (s : string) (c : rgba) (h : Z) : Prop :=
  exists x w, s = (x ++ ";" ++ w)%string /\ color_text x c /\ weight_text w h.

Lemma segment_says f t n i : in_range f -> in_range t -> (0 < n < 2 ^ 53)%Z -> (0 <= i <= n)%Z ->
  segment_text (segment f t n i) (color_of f t n i) (hundredths (fdiv (of_Z 1) (of_Z (n + 1)))).
Proof.
  intros Hf Ht Hn Hi. pose proof (color_of_range f t n i Hf Ht Hn Hi) as (A & B & C & D). unfold segment. do 2 eexists. split; [reflexivity|]. split.
  - do 4 eexists. split; [reflexivity|]. repeat split; apply format02x_text; auto.
  - apply weight_ok. lia.
Qed.

Lemma Forall2_map_l {A B} (P : A -> B -> Prop) (g : B -> A) l : (forall x, In x l -> P (g x) x) -> Forall2 P (map g l) l.
Proof. induction l; cbn; intros H; constructor; auto. Qed.

Lemma Forall2_map_r {A B C} (P : A -> C -> Prop) (g : B -> C) la lb : Forall2 (fun a b => P a (g b)) la lb -> Forall2 P la (map g lb).
Proof. induction 1; cbn; constructor; auto. Qed.

(** Every number of steps: [steps + 1] colors, the first is [from], and every channel of every color is at most
    one (and a rounding error) below the exact value. *)
Definition near (f t n i c : Z) : Prop :=
  (0 <= c <= 255)%Z /\ exact f t n i - 1 - eps40 <= IZR c <= exact f t n i + eps40 /\ (Z.min f t - 1 <= c <= Z.max f t)%Z.

Definition each (P : Z -> Z -> Z -> Prop) (f t c : rgba) : Prop :=
  P (red f) (red t) (red c) /\ P (green f) (green t) (green c) /\ P (blue f) (blue t) (blue c) /\ P (alpha f) (alpha t) (alpha c).

Theorem gradient_says from to f t n : color_text from f -> color_text to t -> (1 <= n < 2 ^ 53)%Z ->
  exists segs colors h,
    color_gradient_string from to n = Ok (String.concat ":" segs) /\
    Z.of_nat (List.length colors) = (n + 1)%Z /\
    Forall2 (fun s c => segment_text s c h) segs colors /\
    Rabs (IZR h - 100 / (IZR n + 1)) <= 1 / 2 + eps40 /\
    nth_error colors 0 = Some f /\
    (forall i c, nth_error colors i = Some c -> each (fun a b x => near a b n (Z.of_nat i) x) f t c).
Proof.
  intros Hf Ht Hn. exists (map (segment f t n) (zrange (n + 1))), (map (color_of f t n) (zrange (n + 1))), (hundredths (fdiv (of_Z 1) (of_Z (n + 1)))).
  pose proof (color_range _ _ Hf) as Rf. pose proof (color_range _ _ Ht) as Rt. split; [apply gradient_string_is; auto; lia|].
  split; [rewrite map_length, zrange_length; lia|]. split.
  { apply Forall2_map_r. apply Forall2_map_l. intros i Hi. apply in_zrange in Hi. apply segment_says; auto; lia. }
  split; [apply weight_ok; lia|].
  assert (N : forall i c, nth_error (map (color_of f t n) (zrange (n + 1))) i = Some c -> c = color_of f t n (Z.of_nat i) /\ (Z.of_nat i <= n)%Z).
  { intros i c H. unfold zrange in H. rewrite map_map in H. rewrite nth_error_map in H. destruct (nth_error (seq 0 (Z.to_nat (n + 1))) i) as [k|] eqn:K; [|discriminate].
    injection H as <-. assert (L : (i < Z.to_nat (n + 1))%nat) by (rewrite <- (seq_length (Z.to_nat (n + 1)) 0); apply nth_error_Some; congruence).
    apply nth_error_nth with (d := 0%nat) in K. rewrite seq_nth in K by auto. cbn in K. subst k. split; auto. lia. }
  destruct Rf as (? & ? & ? & ?). destruct Rt as (? & ? & ? & ?). split.
  - unfold zrange. replace (Z.to_nat (n + 1)) with (S (Z.to_nat n)) by lia. cbn [seq map nth_error]. f_equal. unfold color_of. change (Z.of_nat 0) with 0%Z.
    rewrite !channel_first by (auto; lia). destruct f; auto.
  - intros i c H'. apply N in H' as [-> L]. unfold each, color_of; cbn [red green blue alpha]. repeat split; match goal with |- context [channel ?a (fdiv (of_Z (?b - ?a)) _) ?j] => pose proof (channel_bounds a b n j ltac:(auto) ltac:(auto) ltac:(lia) ltac:(lia)) as B; cbv zeta in B; intuition end.
Qed.

Lemma floor_between lo hi x : IZR lo <= x <= IZR hi -> (lo <= Zfloor x <= hi)%Z.
Proof.
  intros H. split; [apply Zfloor_lub; lra|]. apply Z.lt_succ_r. apply lt_IZR. apply Rle_lt_trans with x; [apply Zfloor_lb|]. unfold Z.succ. rewrite plus_IZR. lra.
Qed.

(** A power of two of steps: nothing is rounded, the ends are exact and every channel is between its ends. *)
Theorem gradient_power from to f t k : color_text from f -> color_text to t -> (0 <= k <= 44)%Z ->
  exists segs colors h,
    color_gradient_string from to (2 ^ k) = Ok (String.concat ":" segs) /\
    Z.of_nat (List.length colors) = (2 ^ k + 1)%Z /\
    Forall2 (fun s c => segment_text s c h) segs colors /\
    nth_error colors 0 = Some f /\ nth_error colors (Z.to_nat (2 ^ k)) = Some t /\
    (forall i c, nth_error colors i = Some c -> each (fun a b x => x = Zfloor (exact a b (2 ^ k) (Z.of_nat i)) /\ (Z.min a b <= x <= Z.max a b)%Z) f t c).
Proof.
  intros Hf Ht Hk. set (n := (2 ^ k)%Z). assert (Hn : (1 <= n < 2 ^ 53)%Z).
  { unfold n. split; [change 1%Z with (2 ^ 0)%Z; apply Z.pow_le_mono_r; lia|apply Z.pow_lt_mono_r; lia]. }
  exists (map (segment f t n) (zrange (n + 1))), (map (color_of f t n) (zrange (n + 1))), (hundredths (fdiv (of_Z 1) (of_Z (n + 1)))).
  pose proof (color_range _ _ Hf) as Rf. pose proof (color_range _ _ Ht) as Rt. split; [apply gradient_string_is; auto; lia|].
  split; [rewrite map_length, zrange_length; lia|]. split.
  { apply Forall2_map_r. apply Forall2_map_l. intros i Hi. apply in_zrange in Hi. apply segment_says; auto; lia. }
  assert (N : forall i, (i <= Z.to_nat n)%nat -> nth_error (map (color_of f t n) (zrange (n + 1))) i = Some (color_of f t n (Z.of_nat i))).
  { intros i H. unfold zrange. rewrite map_map, nth_error_map. replace (nth_error (seq 0 (Z.to_nat (n + 1))) i) with (Some i); auto.
    symmetry. rewrite nth_error_nth' with (d := 0%nat) by (rewrite seq_length; lia). rewrite seq_nth by lia. auto. }
  destruct Rf as (? & ? & ? & ?). destruct Rt as (? & ? & ? & ?).
  assert (C : forall a b i, (0 <= a <= 255)%Z -> (0 <= b <= 255)%Z -> (0 <= i <= n)%Z -> channel a (fdiv (of_Z (b - a)) (of_Z n)) i = Zfloor (exact a b n i)).
  { intros. apply channel_power with k; auto. lia. }
  split; [|split].
  - rewrite N by lia. f_equal. unfold color_of. change (Z.of_nat 0) with 0%Z. rewrite !channel_first by (auto; lia). destruct f; auto.
  - rewrite N by lia. rewrite Z2Nat.id by lia. f_equal. unfold color_of. rewrite !C by (auto; lia).
    assert (E : forall a b, Zfloor (exact a b n n) = b).
    { intros a b. replace (exact a b n n) with (IZR b); [apply Zfloor_IZR|]. unfold exact. rewrite minus_IZR. field. assert (1 <= IZR n) by (apply IZR_le; lia). lra. }
    rewrite !E. destruct t; auto.
  - intros i c H'. assert (L : (i <= Z.to_nat n)%nat).
    { assert (i < List.length (map (color_of f t n) (zrange (n + 1))))%nat by (apply nth_error_Some; congruence). rewrite map_length, zrange_length in *. lia. }
    rewrite N in H' by auto. injection H' as <-. unfold each, color_of; cbn [red green blue alpha].
    repeat split; rewrite ?C by (auto; lia); auto; match goal with |- context [Zfloor (exact ?a ?b _ _)] => pose proof (floor_between _ _ _ (exact_between a b n (Z.of_nat i) ltac:(lia) ltac:(lia))); lia end.
Qed.

(** Without its alpha channel a color counts as fully transparent. *)
Theorem no_alpha r g b x y z : byte_text r x -> byte_text g y -> byte_text b z ->
  match_color ("#" ++ r ++ g ++ b) = match_color ("#" ++ r ++ g ++ b ++ "00").
Proof.
  intros Hr Hg Hb. rewrite (no_alpha_matched _ _ _ _ _ _ Hr Hg Hb). rewrite (color_matched ("#" ++ r ++ g ++ b ++ "00") (mkRgba x y z 0)); auto.
  exists r, g, b, "00". repeat split; auto. exists "0"%char, "0"%char, 0%nat, 0%nat. repeat split; left; auto.
Qed.
