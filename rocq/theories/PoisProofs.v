(** * PoisProofs: _sample_poisson inverts the distribution function of the Poisson distribution. *)
From Coq Require Import List Bool Arith Lia Reals Lra.
From Verif Require Import Base NetModel PoisModel.
Import ListNotations.
Local Open Scope nat_scope.

(** ** Specification: the probability of at most [k] events. *)
Definition pmf (lam : R) (k : nat) : R := (exp (- lam) * (lam ^ k / INR (fact k)))%R.
Fixpoint cdf (lam : R) (k : nat) : R := match k with O => pmf lam 0 | S k' => (cdf lam k' + pmf lam k)%R end.

Lemma pmf_nonneg lam k : (0 <= lam)%R -> (0 <= pmf lam k)%R.
Proof.
  intros H. unfold pmf. apply Rmult_le_pos; [left; apply exp_pos|]. apply Rmult_le_pos; [apply pow_le; auto|]. left. apply Rinv_0_lt_compat, INR_fact_lt_0.
Qed.
Lemma pmf_pos lam k : (0 < lam)%R -> (0 < pmf lam k)%R.
Proof. intros H. unfold pmf. apply Rmult_lt_0_compat; [apply exp_pos|]. apply Rmult_lt_0_compat; [apply pow_lt; auto|]. apply Rinv_0_lt_compat, INR_fact_lt_0. Qed.
Lemma pmf_0 lam : pmf lam 0 = exp (- lam).
Proof. unfold pmf. cbn. field. Qed.
Lemma pmf_S lam k : (pmf lam (S k) = pmf lam k * (lam / INR (S k)))%R.
Proof.
  unfold pmf. change (fact (S k)) with (S k * fact k). rewrite mult_INR. cbn [pow]. field. split; [apply not_0_INR; lia|apply INR_fact_neq_0].
Qed.
Lemma cdf_pos lam k : (0 <= lam)%R -> (0 < cdf lam k)%R.
Proof. intros H. induction k as [|k IH]; cbn [cdf]; [rewrite pmf_0; apply exp_pos|]. pose proof (pmf_nonneg lam (S k) H). lra. Qed.

(** ** One element *)
Record inv (c : cell) : Prop := mkInv {
  i_lam : (0 <= c_lam c)%R; i_u0 : (0 <= c_uni c)%R; i_u1 : (c_uni c < 1)%R;
  i_lib : c_lib c = ln (cdf (c_lam c) (c_cnt c));
  i_lci : (0 < c_lam c)%R -> c_lci c = ln (pmf (c_lam c) (c_cnt c));
  i_zero : c_cnt c = 0 \/ (0 < c_lam c)%R;
  i_low : forall k, k < c_cnt c -> (cdf (c_lam c) k <= c_uni c)%R }.

Lemma inv_init lam u : (0 <= lam)%R -> (0 <= u)%R -> (u < 1)%R -> inv (cell_init lam u).
Proof.
  intros. constructor; cbn [cell_init c_lam c_uni c_lci c_lib c_cnt cdf]; auto; try lia; intros; rewrite pmf_0, ln_exp; auto.
Qed.

Lemma mask_spec c : inv c -> mask c = true <-> (cdf (c_lam c) (c_cnt c) <= c_uni c)%R.
Proof.
  intros I. pose proof (cdf_pos (c_lam c) (c_cnt c) (i_lam c I)) as P. unfold mask, rlt, rle. rewrite (i_lib c I). destruct (Rlt_dec 0 (c_uni c)) as [U|U]; cbn [andb].
  - destruct (Rle_dec _ _) as [L|L]; split; auto; try discriminate.
    + intros _. destruct L as [L|L]; [left; apply ln_lt_inv; auto|right; apply ln_inv; auto].
    + intros Q. exfalso. apply L. destruct Q as [Q|Q]; [left; apply ln_increasing; auto|right; rewrite Q; auto].
  - split; [discriminate|]. intros Q. exfalso. lra.
Qed.

Lemma step_inv c : inv c -> inv (cell_step c).
Proof.
  intros I. unfold cell_step. destruct (mask c) eqn:M; auto. apply (mask_spec c I) in M. destruct I as [L U0 U1 Eb Ec Z Lo]. cbv zeta.
  assert (Lp : (0 < c_lam c)%R). { destruct Z as [Z|]; auto. destruct L as [L|L]; auto. exfalso. rewrite Z, <- L in M. cbn [cdf] in M. rewrite pmf_0, Ropp_0, exp_0 in M. lra. }
  assert (Pc : (c_lci c + ln (c_lam c / INR (S (c_cnt c))) = ln (pmf (c_lam c) (S (c_cnt c))))%R).
  { rewrite (Ec Lp), <- ln_mult, <- pmf_S; auto; [apply pmf_pos; auto|]. apply Rmult_lt_0_compat; auto. apply Rinv_0_lt_compat, lt_0_INR. lia. }
  constructor; cbn [c_lam c_uni c_lci c_lib c_cnt]; auto.
  - rewrite Pc, Eb, exp_ln, exp_ln; auto; [apply pmf_pos; auto|apply cdf_pos; auto].
  - intros k Hk. destruct (Nat.eq_dec k (c_cnt c)) as [->|]; auto. apply Lo. lia.
Qed.

Lemma step_args c : c_lam (cell_step c) = c_lam c /\ c_uni (cell_step c) = c_uni c.
Proof. unfold cell_step. destruct (mask c); auto. Qed.

(** ** The loop *)
Definition active (i : nat) (c : cell) : Prop := c_cnt c <= i /\ (mask c = true -> c_cnt c = i).

Lemma step_active i c : active i c -> active (S i) (cell_step c).
Proof.
  intros [L H]. unfold cell_step. destruct (mask c) eqn:M; [|split; [lia|congruence]]. rewrite H by auto. split; cbn [c_cnt]; auto.
Qed.

Lemma list_max_ge l x : In x l -> x <= list_max l.
Proof. intros H. assert (F : Forall (fun k => k <= list_max l) l) by (apply list_max_le; auto). rewrite Forall_forall in F. auto. Qed.

Lemma loop_spec max_count : forall fuel i any cs, Forall inv cs -> Forall (active i) cs -> i <= max_count -> (any = false -> existsb mask cs = false) -> max_count - i + 1 <= fuel ->
  exists r, poisson_loop fuel max_count any cs = Ok r /\ Forall inv r /\ map (fun c => (c_lam c, c_uni c)) r = map (fun c => (c_lam c, c_uni c)) cs /\
    Forall (fun c => c_cnt c <= max_count /\ (mask c = false \/ c_cnt c = max_count)) r.
Proof.
  assert (D : forall any cs, any = false \/ max_count <= list_max (map c_cnt cs) -> any && (list_max (map c_cnt cs) <? max_count) = false).
  { intros any cs [->|H]; auto. apply Nat.ltb_ge in H. rewrite H, andb_false_r. auto. }
  assert (Stop : forall cs, existsb mask cs = false -> forall c, In c cs -> mask c = false).
  { intros cs H c Hc. destruct (mask c) eqn:M; auto. exfalso. assert (Q : existsb mask cs = true) by (apply existsb_exists; eauto). congruence. }
  induction fuel as [|fuel IH]; intros i any cs I A Hi Hany Hf; [lia|]. cbn [poisson_loop].
  destruct any; cbn [andb].
  - destruct (Nat.ltb_spec (list_max (map c_cnt cs)) max_count) as [L|L].
    + destruct (existsb mask cs) eqn:M.
      * (* some element goes on *)
        assert (Hlt : i < max_count).
        { apply existsb_exists in M. destruct M as (c & Hc & M). rewrite Forall_forall in A. destruct (A c Hc) as [_ Q]. specialize (Q M). pose proof (list_max_ge (map c_cnt cs) (c_cnt c) (in_map _ _ _ Hc)). lia. }
        destruct (IH (S i) true (map cell_step cs)) as (r & E & Ir & Er & Fr); auto; try lia.
        -- apply Forall_map; eapply Forall_impl; [|exact I]. apply step_inv.
        -- apply Forall_map. eapply Forall_impl; [|exact A]. apply step_active.
        -- exists r. split; auto. split; auto. split; auto. rewrite Er, map_map. apply map_ext. intros c. destruct (step_args c) as [-> ->]. auto.
      * (* one idle round *)
        assert (Em : map cell_step cs = cs).
        { transitivity (map (fun c : cell => c) cs); [|apply map_id]. apply map_ext_in. intros c Hc. unfold cell_step. rewrite (Stop cs M c Hc). auto. }
        rewrite Em. exists cs. assert (E : poisson_loop fuel max_count false cs = Ok cs) by (destruct fuel; reflexivity). split; auto. split; auto. split; auto.
        rewrite Forall_forall in *. intros c Hc. split; [destruct (A c Hc); lia|]. left. apply (Stop cs M); auto.
    + exists cs. split; auto. split; auto. split; auto. assert (Hm : i = max_count).
      { assert (list_max (map c_cnt cs) <= i); [|lia]. apply list_max_le. apply Forall_map. eapply Forall_impl; [|exact A]. intros c [? _]. auto. }
      subst i. eapply Forall_impl; [|exact A]. intros c [Hc M]. split; auto. destruct (mask c); auto.
  - exists cs. split; auto. split; auto. split; auto. rewrite Forall_forall in *. intros c Hc. split; [destruct (A c Hc); lia|]. left. apply (Stop cs (Hany eq_refl)). auto.
Qed.

(** For every element the smallest count whose probability of at most that many events exceeds the draw. *)
Definition smallest_count (max_count : nat) (lam u : R) (c : nat) : Prop :=
  c <= max_count /\ (forall k, k < c -> (cdf lam k <= u)%R) /\ ((u < cdf lam c)%R \/ c = max_count).

Theorem poisson_inverse max_count lus : Forall (fun lu => (0 <= fst lu)%R /\ (0 <= snd lu)%R /\ (snd lu < 1)%R) lus ->
  exists cs, sample_poisson max_count lus = Ok cs /\ Forall2 (fun lu c => smallest_count max_count (fst lu) (snd lu) c) lus cs.
Proof.
  intros H. unfold sample_poisson. set (cs := map (fun lu => cell_init (fst lu) (snd lu)) lus).
  destruct (loop_spec max_count (S (S max_count)) 0 (existsb mask cs) cs) as (r & E & I & Er & F); auto; try lia.
  - unfold cs. apply Forall_map. eapply Forall_impl; [|exact H]. cbn. intros lu (? & ? & ?). apply inv_init; auto.
  - unfold cs. apply Forall_map. apply Forall_forall. intros lu _. split; cbn; auto.
  - rewrite E. cbn [bind]. eexists. split; [reflexivity|]. unfold cs in Er. rewrite map_map in Er. cbn [cell_init c_lam c_uni] in Er. clear - I Er F.
    revert lus Er. induction r as [|c r IH]; intros [|lu lus] Er; try discriminate; cbn [map]; constructor.
    + injection Er as E1 E2 _. inversion I as [|? ? Ic _]; inversion F as [|? ? [Fm Fc] _]; subst. rewrite <- E1, <- E2. split; auto. split; [apply (i_low c Ic)|].
      destruct Fc as [Fc|Fc]; auto. left. apply Rnot_le_lt. intros Q. apply (mask_spec c Ic) in Q. congruence.
    + injection Er as _ _ Er. inversion I; inversion F; subst. apply IH; auto.
Qed.

Lemma cdf_mono lam a b : (0 <= lam)%R -> a <= b -> (cdf lam a <= cdf lam b)%R.
Proof. intros H L. induction L as [|b L IH]; [lra|]. cbn [cdf]. pose proof (pmf_nonneg lam (S b) H). lra. Qed.

Lemma smallest_unique m lam u c c' : smallest_count m lam u c -> smallest_count m lam u c' -> c = c'.
Proof.
  assert (W : forall a b, smallest_count m lam u a -> smallest_count m lam u b -> ~ a < b).
  { intros a b (_ & _ & [A|A]) (B1 & B & _) L; [specialize (B a L); lra|lia]. }
  intros A B. pose proof (W _ _ A B). pose proof (W _ _ B A). lia.
Qed.

(** The draws that give the count [c] are those of an interval as long as its probability. *)
Theorem poisson_interval m lam u c : (0 <= lam)%R -> (0 <= u)%R -> (u < 1)%R -> c < m ->
  sample_poisson m [(lam, u)] = Ok [c] <-> ((cdf lam c - pmf lam c <= u)%R /\ (u < cdf lam c)%R).
Proof.
  intros L U0 U1 Hm. destruct (poisson_inverse m [(lam, u)]) as (cs & E & F); [apply Forall_cons; [cbn; auto|apply Forall_nil]|]. inversion F as [|? c' ? ? S N]; subst. inversion N; subst. cbn [fst snd] in S. rewrite E.
  assert (Q : smallest_count m lam u c <-> ((cdf lam c - pmf lam c <= u)%R /\ (u < cdf lam c)%R)).
  { split.
    - intros (_ & A & [B|B]); [|lia]. split; auto. destruct c as [|c]; cbn [cdf]; [lra|]. specialize (A c (Nat.lt_succ_diag_r c)). lra.
    - intros [A B]. split; [lia|]. split; [|left; auto]. intros k Hk. destruct c as [|c]; [lia|]. cbn [cdf] in A. pose proof (cdf_mono lam k c L ltac:(lia)). lra. }
  split.
  - intros H. injection H as ->. apply Q. auto.
  - intros H. apply Q in H. f_equal. f_equal. eapply smallest_unique; eauto.
Qed.
