(** * PropsPois: count sampling of the data generators. *)
From Coq Require Import List Arith ZArith Reals Lra Lia.
From Verif Require Import Base PoisModel PoisProofs.
Import ListNotations.
Local Open Scope nat_scope.

(** C50: for all expected counts that are not negative and all draws of [0, 1) the sampler ends and gives every
    element the smallest count whose probability of at most that many events (the sum [cdf] of the probabilities
    exp(-lam) lam^k / k!) exceeds the draw, or max_count if there is no smaller one. *)
Theorem C50_inverse_cdf : forall max_count lus,
  Forall (fun lu => (0 <= fst lu)%R /\ (0 <= snd lu)%R /\ (snd lu < 1)%R) lus ->
  exists cs, sample_poisson max_count lus = Ok cs /\
    Forall2 (fun lu c => c <= max_count /\ (forall k, k < c -> (cdf (fst lu) k <= snd lu)%R) /\ ((snd lu < cdf (fst lu) c)%R \/ c = max_count)) lus cs.
Proof. exact poisson_inverse. Qed.
Print Assumptions C50_inverse_cdf.

(** C50, for one element below the bound: the draws that give the count [c] form an interval as long as the
    probability of [c]. *)
Theorem C50_probability : forall max_count lam u c, (0 <= lam)%R -> (0 <= u)%R -> (u < 1)%R -> c < max_count ->
  sample_poisson max_count [(lam, u)] = Ok [c] <->
  ((cdf lam c - exp (- lam) * (lam ^ c / INR (fact c)) <= u)%R /\ (u < cdf lam c)%R).
Proof. exact poisson_interval. Qed.
Print Assumptions C50_probability.

(** The default bound; an expected count of one and a draw of one half give one event. *)
Example C50_met : sample_poisson (Z.to_nat 5000) [(1%R, (1 / 2)%R)] = Ok [1].
Proof.
  apply C50_probability; try lra; [lia|]. cbn [cdf]. rewrite !pmf_0. unfold pmf. cbn [pow fact Nat.mul Nat.add INR].
  assert (E : (exp (-(1)) = / exp 1)%R) by (rewrite exp_Ropp; reflexivity). rewrite E. pose proof (exp_pos 1) as P. pose proof exp_le_3 as U. pose proof (exp_ineq1 1 ltac:(lra)) as L.
  assert (A : (/ exp 1 <= 1 / 2)%R). { unfold Rdiv. rewrite Rmult_1_l. apply Rinv_le_contravar; lra. }
  assert (B : (/ 3 <= / exp 1)%R) by (apply Rinv_le_contravar; lra). split; lra.
Qed.
