(** * FitBound: what the learners return when the answers of the optimiser are close to minima, whatever the bans. *)
From Coq Require Import List Bool Arith ZArith Lia String QArith Qcanon Qreals Reals Lra Relations.
From Coquelicot Require Import Coquelicot.
From Verif Require Import Base QcX Digraph SmModel SmProofs NotearsModel NotearsProofs NotearsThms AcycModel AcycProofs AcycThms AcycLink.
From Verif Require Import ObjModel ObjProofs ObjGrad ObjLasso PropsObj ObjUnits PropsObjMore ObjFit FitLink OrdProofs.
Import ListNotations.
Local Open Scope list_scope.
Local Open Scope nat_scope.

(** ** Powers of ten and orders *)
Lemma realq_ten e : realq (Qcpower ten e) = (10 ^ e)%R.
Proof.
  induction e as [|e IH]; cbn [Qcpower pow]; [unfold realq, Q2R; cbn; lra|]. rewrite realq_mult, IH. f_equal. unfold realq, Q2R. cbn. lra.
Qed.
Lemma ten_pos e : (0 < Qcpower ten e)%Qc.
Proof. unfold Qclt. apply Rlt_Qlt. change (realq 0 < realq (Qcpower ten e))%R. rewrite realq_0, realq_ten. apply pow_lt. lra. Qed.
Lemma realq_nonneg x : (0 <= x)%Qc -> (0 <= realq x)%R.
Proof. intros H. apply realq_le in H. rewrite realq_0 in H. exact H. Qed.
Lemma realq_quarter x : realq (quarter * x) = (realq x / 4)%R.
Proof. rewrite realq_mult. replace (realq quarter) with (/ 4)%R; [lra|]. unfold realq, Q2R. cbn. lra. Qed.

Lemma square_bound r h B : (0 < r)%R -> (0 <= h)%R -> (0 <= B)%R -> (r / 2 * h ^ 2 <= B)%R -> (h <= sqrt (2 * B / r))%R.
Proof.
  intros Hr Hh HB H. rewrite <- (sqrt_pow2 h Hh). apply sqrt_le_1.
  - apply pow2_ge_0.
  - apply Rmult_le_pos; [lra|]. left. apply Rinv_0_lt_compat. auto.
  - apply Rmult_le_reg_l with (r / 2)%R; [lra|]. replace (r / 2 * (2 * B / r))%R with B by (field; lra). exact H.
Qed.

(** ** The dual ascent *)
Section Bounded.
  Variables (hf : list Qc -> fl) (opt : optimiser) (bnds : list bound) (L H : list Qc -> R) (B delta : R).
  Hypothesis Ask : forall r q x k, (0 < r)%Qc -> (0 <= q)%Qc -> let w := opt bnds r (Fin q) x k in
    (exists h, hf w = Fin h /\ (0 <= h)%Qc /\ (realq h <= H w + delta)%R) /\ (0 <= H w)%R /\ (0 <= L w)%R /\
    (L w + realq r / 2 * H w ^ 2 + realq q * H w <= B)%R.

  (** [w] is an answer of the optimiser, asked with a positive rho and a nonnegative alpha. *)
  Definition asked (w : list Qc) : Prop := exists r q x k, (0 < r)%Qc /\ (0 <= q)%Qc /\ w = opt bnds r (Fin q) x k.

  Definition last_penalty : R := (sqrt (2 * B / 10 ^ 19) + delta)%R.
  Definition first_penalty : R := (sqrt (2 * B) + delta)%R.

  (** The state after some calls: the multipliers are nonnegative, the penalty is that of the current answer and
      is small once rho is at its maximum. *)
  Definition sound (s : st) (e : nat) (h : Qc) : Prop :=
    rho s = Qcpower ten e /\ e <= 20 /\ (exists q, alpha s = Fin q /\ (0 <= q)%Qc) /\ h_new s = Fin h /\ (0 <= h)%Qc /\
    (asked (w_new s) /\ hf (w_new s) = Fin h) /\ (e = 20 -> (realq h <= last_penalty)%R).

  Lemma ask_bound e q x k : e < 20 -> (0 <= q)%Qc -> exists h, hf (opt bnds (Qcpower ten e) (Fin q) x k) = Fin h /\ (0 <= h)%Qc /\
    asked (opt bnds (Qcpower ten e) (Fin q) x k) /\ (realq h <= first_penalty)%R /\ (e = 19 -> (realq h <= last_penalty)%R).
  Proof.
    intros He Hq. destruct (Ask (Qcpower ten e) q x k (ten_pos e) Hq) as ((h & Eh & Hh & Hd) & H0 & L0 & LB).
    set (w := opt bnds _ _ x k) in *. exists h. split; [exact Eh|]. split; [exact Hh|].
    rewrite realq_ten in LB. pose proof (realq_nonneg q Hq) as Q0. assert (P10 : (1 <= 10 ^ e)%R) by (apply pow_R1_Rle; lra).
    assert (S : (0 <= realq q * H w)%R) by (apply Rmult_le_pos; auto). assert (T : (0 <= H w ^ 2)%R) by apply pow2_ge_0.
    assert (T2 : (1 / 2 * H w ^ 2 <= 10 ^ e / 2 * H w ^ 2)%R) by (apply Rmult_le_compat_r; lra).
    assert (B0 : (0 <= B)%R) by lra.
    split; [exists (Qcpower ten e), q, x, k; split; [apply ten_pos|auto]|]. split.
    - unfold first_penalty. apply Rle_trans with (1 := Hd). apply Rplus_le_compat_r.
      replace (2 * B)%R with (2 * B / 1)%R by field. apply square_bound; lra.
    - intros ->. unfold last_penalty. apply Rle_trans with (1 := Hd). apply Rplus_le_compat_r. apply square_bound; try lra; apply pow_lt; lra.
  Qed.

  Lemma inner_sound fuel : forall s s' e h c, sound s e h -> h_cur s = Fin c -> inner fuel hf opt bnds s = Ok s' ->
    exists e' h', sound s' e' h' /\ h_cur s' = Fin c /\ ((realq h' <= realq c / 4)%R \/ (realq h' <= last_penalty)%R).
  Proof.
    induction fuel as [|f IH]; intros s s' e h c S Hc E; pose proof S as S0; destruct S as (Er & He & (q & Eq & Hq) & Eh & Hh & HL & Hm); cbn [inner] in E;
    rewrite Er, Hc, Eh in E; cbn [is_pinf fscale flt] in E; rewrite orb_false_r in E;
    (destruct (qlt (Qcpower ten e) rho_max) eqn:Q1; cbn [andb] in E;
     [apply qlt_iff in Q1; unfold rho_max in Q1; apply ten_pow_lt in Q1; destruct (qlt (quarter * c) h) eqn:Q2
     |assert (e = 20) by (destruct (Nat.eq_dec e 20); auto; exfalso; assert (Z : qlt (Qcpower ten e) rho_max = true) by (apply qlt_iff, ten_pow_lt; lia); congruence)]); try discriminate.
    - injection E as <-. exists e, h. split; [exact S0|]. split; [exact Hc|]. left. apply qlt_false in Q2. apply realq_le in Q2. rewrite realq_quarter in Q2. exact Q2.
    - injection E as <-. exists e, h. split; [exact S0|]. split; [exact Hc|]. right. auto.
    - rewrite Eq in E. destruct (ask_bound e q (w_est s) (calls s) Q1 Hq) as (h1 & Eh1 & Hh1 & HL1 & _ & Hl1). rewrite Eh1 in E. cbn [flt] in E.
      destruct (qlt (quarter * c) h1) eqn:Q3.
      + apply (IH _ _ (S e) h1 c) in E; [exact E| |reflexivity]. split; [cbn [rho Qcpower]; ring|]. split; [lia|]. split; [exists q; split; auto; reflexivity|].
        split; [reflexivity|]. split; [exact Hh1|]. split; [split; [exact HL1|exact Eh1]|]. intros E20. apply Hl1. lia.
      + apply (IH _ _ e h1 c) in E; [exact E| |reflexivity]. split; [reflexivity|]. split; [lia|]. split; [exists q; split; auto; reflexivity|].
        split; [reflexivity|]. split; [exact Hh1|]. split; [split; [exact HL1|exact Eh1]|]. lia.
    - injection E as <-. exists e, h. split; [exact S0|]. split; [exact Hc|]. left. apply qlt_false in Q2. apply realq_le in Q2. rewrite realq_quarter in Q2. exact Q2.
    - injection E as <-. exists e, h. split; [exact S0|]. split; [exact Hc|]. right. auto.
  Qed.

  Lemma next_sound s e h : sound s e h ->
    sound (mkSt (rho s) (fadd (alpha s) (fscale (rho s) (h_new s))) (h_new s) (h_new s) (w_new s) (w_new s) (calls s)) e h.
  Proof.
    intros (Er & He & (q & Eq & Hq) & Eh & Hh & HL & Hm). split; [exact Er|]. split; [exact He|]. split.
    - exists (q + Qcpower ten e * h)%Qc. cbn [alpha]. rewrite Eq, Er, Eh. split; [reflexivity|].
      apply Qcle_trans with (q + 0)%Qc; [rewrite Qcplus_0_r; exact Hq|]. apply Qcplus_le_compat; [apply Qcle_refl|].
      replace 0%Qc with (0 * h)%Qc by ring. apply Qcmult_le_compat_r; auto. apply Qclt_le_weak, ten_pos.
    - split; [exact Eh|]. split; [exact Hh|]. split; [exact HL|exact Hm].
  Qed.

  Lemma outer_sound n : forall fuel tol s s' b e h, sound s e h -> h_cur s = Fin h -> outer (S n) fuel hf opt bnds tol s = Ok (s', b) ->
    exists h', h_cur s' = Fin h' /\ (asked (w_est s') /\ hf (w_est s') = Fin h') /\ b = flt (Fin tol) (Fin h') /\
      ((realq h' <= realq tol)%R \/ (realq h' <= last_penalty)%R \/ (realq h' <= realq h / 4 ^ S n)%R).
  Proof.
    induction n as [|n IH]; intros fuel tol s s' b e h S Hc E; cbn [outer] in E; apply bind_ok in E; destruct E as (s1 & E1 & E);
    destruct (inner_sound fuel s s1 e h h S Hc E1) as (e1 & h1 & S1 & Hc1 & Alt); pose proof (next_sound s1 e1 h1 S1) as S2;
    pose proof S1 as (_ & _ & _ & Eh & Hh & HL & _);
    set (s2 := mkSt (rho s1) (fadd (alpha s1) (fscale (rho s1) (h_new s1))) (h_new s1) (h_new s1) (w_new s1) (w_new s1) (calls s1)) in *;
    assert (C2 : h_cur s2 = Fin h1) by exact Eh; rewrite C2 in E; cbn [fle] in E; destruct (qle h1 tol) eqn:Q.
    - injection E as <- <-. exists h1. split; [exact C2|]. split; [exact HL|]. apply qle_iff in Q. split; [cbn; symmetry; destruct (qlt tol h1) eqn:Q'; auto; apply qlt_iff in Q'; exfalso; apply (Qclt_not_le _ _ Q'); auto|]. left. apply realq_le. auto.
    - injection E as <- <-. exists h1. split; [exact C2|]. split; [exact HL|]. split; [reflexivity|]. right. destruct Alt as [A|A]; [right|left]; auto. cbn [pow]. rewrite Rmult_1_r. exact A.
    - injection E as <- <-. exists h1. split; [exact C2|]. split; [exact HL|]. apply qle_iff in Q. split; [cbn; symmetry; destruct (qlt tol h1) eqn:Q'; auto; apply qlt_iff in Q'; exfalso; apply (Qclt_not_le _ _ Q'); auto|]. left. apply realq_le. auto.
    - destruct (IH fuel tol s2 s' b e1 h1 S2 C2 E) as (h' & Ec & EL & Eb & Alt'). exists h'. split; [exact Ec|]. split; [exact EL|]. split; [exact Eb|].
      destruct Alt' as [A'|[A'|A']]; [auto|auto|]. right.
      assert (P : (1 <= 4 ^ Datatypes.S n)%R) by (apply pow_R1_Rle; lra). apply realq_nonneg in Hh.
      destruct Alt as [A|A]; [right|left].
      + apply Rle_trans with (1 := A'). change (4 ^ Datatypes.S (Datatypes.S n))%R with (4 * 4 ^ Datatypes.S n)%R. unfold Rdiv. rewrite Rinv_mult, <- Rmult_assoc.
        apply Rmult_le_compat_r; [left; apply Rinv_0_lt_compat; lra|exact A].
      + apply Rle_trans with (1 := A'). apply Rle_trans with (2 := A). apply Rmult_le_reg_r with (4 ^ Datatypes.S n)%R; [lra|]. unfold Rdiv. rewrite Rmult_assoc, Rinv_l by lra.
        apply Rmult_le_compat_l; auto.
  Qed.

  Theorem ascent_sound fuel n len tol s b : 0 < n -> dual_ascent fuel n len hf opt bnds tol = Ok (s, b) ->
    exists h, h_cur s = Fin h /\ (asked (w_est s) /\ hf (w_est s) = Fin h) /\ b = flt (Fin tol) (Fin h) /\
      ((realq h <= realq tol)%R \/ (realq h <= last_penalty)%R \/ (realq h <= first_penalty / 4 ^ (n - 1))%R).
  Proof.
    intros Hn E. destruct n as [|n]; [lia|]. replace (S n - 1) with n by lia. unfold dual_ascent in E.
    assert (St : forall s1, inner fuel hf opt bnds (start len) = Ok s1 -> exists h, sound s1 0 h /\ (realq h <= first_penalty)%R).
    { intros s1 E1. destruct fuel as [|f]; cbn [inner start rho h_cur h_new alpha w_est calls fscale is_pinf] in E1; rewrite orb_true_r, andb_true_r in E1;
      replace (qlt 1 rho_max) with true in E1 by (symmetry; apply qlt_iff; apply (ten_pow_lt 0 20); lia); [discriminate|].
      destruct (ask_bound 0 0%Qc (repeat 0%Qc len) 0 ltac:(lia) (Qcle_refl 0)) as (h & Eh & Hh & HL & Hf & _).
      change (Qcpower ten 0) with 1%Qc in *. rewrite Eh in E1. cbn [flt] in E1. exists h. split; [|exact Hf].
      assert (F : forall s0, h_cur s0 = PInf -> h_new s0 = Fin h -> inner f hf opt bnds s0 = Ok s0).
      { intros s0 C N. destruct f; cbn [inner]; rewrite C, N; cbn [fscale flt is_pinf orb]; rewrite andb_false_r; reflexivity. }
      rewrite F in E1 by reflexivity. injection E1 as <-. split; [reflexivity|]. split; [lia|]. split; [exists 0%Qc; split; [reflexivity|apply Qcle_refl]|]. split; [reflexivity|]. split; [exact Hh|]. split; [split; [exact HL|exact Eh]|]. lia. }
    cbn [outer] in E. apply bind_ok in E. destruct E as (s1 & E1 & E). destruct (St s1 E1) as (h1 & S1 & F1). pose proof (next_sound s1 0 h1 S1) as S2.
    pose proof S1 as (_ & _ & _ & Eh & Hh & HL & _).
    set (s2 := mkSt (rho s1) (fadd (alpha s1) (fscale (rho s1) (h_new s1))) (h_new s1) (h_new s1) (w_new s1) (w_new s1) (calls s1)) in *.
    assert (C2 : h_cur s2 = Fin h1) by exact Eh. rewrite C2 in E. cbn [fle] in E. destruct (qle h1 tol) eqn:Q.
    - injection E as <- <-. exists h1. split; [exact C2|]. split; [exact HL|]. apply qle_iff in Q. split; [cbn; symmetry; destruct (qlt tol h1) eqn:Q'; auto; apply qlt_iff in Q'; exfalso; apply (Qclt_not_le _ _ Q'); auto|]. left. apply realq_le. auto.
    - destruct n as [|n].
      + injection E as <- <-. exists h1. split; [exact C2|]. split; [exact HL|]. split; [reflexivity|]. right. right. cbn [pow]. lra.
      + destruct (outer_sound n fuel tol s2 s b 0 h1 S2 C2 E) as (h' & Ec & EL & Eb & Alt). exists h'. split; [exact Ec|]. split; [exact EL|]. split; [exact Eb|].
        destruct Alt as [A|[A|A]]; auto. right. right. apply Rle_trans with (1 := A). apply Rmult_le_compat_r; [|exact F1]. left. apply Rinv_0_lt_compat. apply pow_lt. lra.
  Qed.

  (** With a tolerance above these bounds the ascent ends without the warning. *)
  Theorem ascent_converges fuel n len tol s b : 0 < n -> dual_ascent fuel n len hf opt bnds tol = Ok (s, b) ->
    (last_penalty <= realq tol)%R -> (first_penalty <= 4 ^ (n - 1) * realq tol)%R -> b = false.
  Proof.
    intros Hn E T1 T2. destruct (ascent_sound _ _ _ _ _ _ Hn E) as (h & _ & _ & -> & Alt). cbn.
    assert (A : (realq h <= realq tol)%R).
    { destruct Alt as [A|[A|A]]; [auto|lra|]. apply Rle_trans with (1 := A). assert (P : (0 < 4 ^ (n - 1))%R) by (apply pow_lt; lra).
      apply Rmult_le_reg_r with (4 ^ (n - 1))%R; [auto|]. unfold Rdiv. rewrite Rmult_assoc, Rinv_l by lra. lra. }
    destruct (qlt tol h) eqn:Q; auto. apply qlt_iff in Q. apply Qlt_Rlt in Q. unfold realq in A. lra.
  Qed.
End Bounded.
