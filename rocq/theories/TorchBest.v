(** * TorchBest: the parameters found by the torch version fit at least as well as any allowed network without cycles. *)
From Coq Require Import List Bool Arith ZArith Lia String QArith Qcanon Qreals Permutation Reals Lra Relations.
From Coquelicot Require Import Coquelicot.
From Verif Require Import Base Names Digraph SmModel SmProofs SmBuild QcX NotearsModel NotearsProofs NotearsThms AcycModel AcycProofs AcycThms AcycLink
  TorchModel TorchSpec TorchProofs TorchThms TorchGraph TorchResult TorchAcyc TorchExact LossModel ObjProofs OrdProofs FitBound AscentSpec AscentApi AscentBest.
Import ListNotations.
Local Open Scope string_scope.
Local Open Scope list_scope.
Local Open Scope nat_scope.

(** ** Specification *)

(** The weight of column [i] in unit [u] of column [j] *)
Definition first_weight (d m : nat) (v : list Qc) (i j u : nat) : Qc := nth ((j * m + u) * d + i) v 0%Qc.

(** Columns that may not act have no weight. *)
Definition keeps_bans (d m : nat) (may : nat -> nat -> Prop) (v : list Qc) : Prop :=
  forall i j u, i < d -> j < d -> u < m -> ~ may i j -> first_weight d m v i j u = 0%Qc.

(** Variable [a] acts on variable [b] : some column of [a] has a weight in some unit of a column of [b]. *)
Definition acts (L : list (nat * list nat)) (n d m : nat) (v : list Qc) (a b : nat) : Prop :=
  a < n /\ b < n /\ exists x y u, In x (columns_of L a) /\ In y (columns_of L b) /\ u < m /\ first_weight d m v x y u <> 0%Qc.
Definition no_cycles (L : list (nat * list nat)) (n d m : nat) (v : list Qc) : Prop := forall a, ~ clos_trans nat (acts L n d m v) a a.

(** For the bounds of [torch_question] the optimiser answers with parameters within the bounds whose objective [F weight
    multiplier] is at most [eps] above that of any parameters within the bounds. *)
Definition near_torch (d m size : nat) (may : nat -> nat -> Prop) (F : R -> R -> list Qc -> res R) (eps : R) (opt : optimiser) : Prop :=
  forall bs, torch_question d m size may bs -> forall r q s k, (0 < r)%Qc -> (0 <= q)%Qc -> let w := opt bs r (Fin q) s k in
    List.length w = size /\ keeps_bans d m may w /\
    forall u b, List.length u = size -> keeps_bans d m may u -> F (realq r) (realq q) u = Ok b -> exists a, F (realq r) (realq q) w = Ok a /\ (a <= b + eps)%R.

(** The penalty of the parameters [v] is computed up to [delta] and is not negative. *)
Definition torch_close (delta : R) (eh : tpenalty) (dts : list dtype) (d m : nat) (v : list Qc) : Prop :=
  exists x, eh (h_size dts) (h_matrix dts d m v) = Fin x /\ (0 <= x)%Qc /\
    (Rabs (realq x - poly_penalty (h_size dts) (fun i j => realq (h_matrix dts d m v i j))) <= delta)%R.

(** ** The objective *)
Section Objective.
  Variables (act : activation) (ub : bool) (dims : list nat) (dts : list dtype) (odds : nat -> list R) (X' : data) (lasso ridge : R).
  Notation F := (torch_func act ub dims dts odds X' lasso ridge).
  Definition hval (v : list Qc) : R := poly_penalty (h_size dts) (fun i j => realq (h_matrix dts (width X') (nth 1 dims 0) v i j)).

  Lemma func_split r q v b : F r q v = Ok b <-> exists c, F 0%R 0%R v = Ok c /\ b = (c + r / 2 * hval v ^ 2 + q * hval v)%R.
  Proof.
    unfold torch_func. cbv zeta. fold (hval v). destruct (total_loss _ _ _ _) as [loss|e]; cbn [bind].
    - split; [intros [= <-]|intros (c & [= <-] & ->)].
      + eexists. split; [reflexivity|]. lra.
      + f_equal. lra.
    - split; [discriminate|intros (c & [=] & _)].
  Qed.
End Objective.

Lemma h_matrix_nonneg dts d m v : (exists X ks t X' t', facts X ks t dts X' t') -> forall i j, (0 <= realq (h_matrix dts d m v i j))%R.
Proof.
  intros (X & ks & t & X' & t' & F) i j. rewrite <- realq_0. apply realq_le. unfold h_matrix. rewrite modify_collapse, (facts_collapse _ _ _ _ _ _ _ i j F).
  unfold block_sum. apply Qsum_nonneg. intros x _. apply Qsum_nonneg. intros y _. unfold square_mat. apply Qsum_nonneg. intros u _. apply Qc_square_nonneg.
Qed.

Lemma h_matrix_acts X ks t dts X' t' d m v a b : facts X ks t dts X' t' ->
  h_matrix dts d m v a b <> 0%Qc <-> exists x y u, In x (columns_of (expanded X ks) a) /\ In y (columns_of (expanded X ks) b) /\ u < m /\ first_weight d m v x y u <> 0%Qc.
Proof.
  intros F. unfold h_matrix. rewrite modify_collapse, (facts_collapse _ _ _ _ _ _ _ a b F).
  assert (P : forall x y, (0 <= square_mat d m v x y)%Qc) by (intros; unfold square_mat; apply Qsum_nonneg; intros; apply Qc_square_nonneg).
  split.
  - intros N. destruct (Qc_eq_dec (block_sum (square_mat d m v) (columns_of (expanded X ks) a) (columns_of (expanded X ks) b)) 0) as [Z|_]; [contradiction|].
    apply block_nonzero in N; auto. destruct N as (x & y & Hx & Hy & N). unfold square_mat in N.
    assert (Q : ~ forall u, In u (seq 0 m) -> dag_w d m v y u x = 0%Qc).
    { intros Z. apply N. apply Qsum_all_zero. intros u Hu. rewrite (Z u Hu). ring. }
    assert (D : exists u, In u (seq 0 m) /\ dag_w d m v y u x <> 0%Qc).
    { clear - Q. induction (seq 0 m) as [|u l IH]; [exfalso; apply Q; intros u []|]. destruct (Qc_eq_dec (dag_w d m v y u x) 0) as [Z|Z]; [|exists u; split; [left|]; auto].
      destruct IH as (u' & I & N); [intros A; apply Q; intros u' [<-|I]; auto|]. exists u'. split; [right|]; auto. }
    destruct D as (u & I & Nu). apply in_seq in I. exists x, y, u. split; auto. split; auto. split; [lia|]. exact Nu.
  - intros (x & y & u & Hx & Hy & Hu & N) Z. apply N. unfold first_weight. change (dag_w d m v y u x = 0%Qc).
    assert (L : (dag_w d m v y u x * dag_w d m v y u x <= 0)%Qc).
    { rewrite <- Z. apply Qcle_trans with (square_mat d m v x y); [|apply block_ge; auto]. unfold square_mat. apply (Qsum_ge_one (fun u => dag_w d m v y u x * dag_w d m v y u x)%Qc); [intros; apply Qc_square_nonneg|]. apply in_seq. lia. }
    pose proof (Qc_square_nonneg (dag_w d m v y u x)) as G. assert (S : (dag_w d m v y u x * dag_w d m v y u x = 0)%Qc) by (apply Qcle_antisym; auto).
    destruct (Qc_eq_dec (dag_w d m v y u x) 0) as [|Ne]; auto. apply Qcmult_integral in S. destruct S; auto.
Qed.

Lemma no_cycles_dag X ks t dts X' t' d m v : facts X ks t dts X' t' -> no_cycles (expanded X ks) (m_cols X) d m v -> dag (m_cols X) (fun i j => realq (h_matrix dts d m v i j)).
Proof.
  intros F N a C. apply (N a). clear N. revert C. generalize a at 2 4. intros b C. induction C as [a b (Ha & Hb & E)|]; [apply t_step|eapply t_trans; eauto].
  split; auto. split; auto. apply (h_matrix_acts _ _ _ _ _ _ d m v a b F). intros Z. apply E. rewrite Z. apply realq_0.
Qed.

Lemma realq_tol : realq torch_h_tol = (/ 10 ^ 8)%R.
Proof. unfold realq, torch_h_tol, Q2R. cbn. lra. Qed.

Lemma limit_weight r : (torch_rho_max <= r * Q2Qc 10)%Qc -> (10 ^ 15 <= realq r)%R.
Proof.
  intros H. apply realq_le in H. change torch_rho_max with (Qcpower ten 16) in H. rewrite realq_ten, realq_mult in H. change (Q2Qc 10) with ten in H.
  assert (T : realq ten = 10%R) by (unfold realq, Q2R, ten; cbn; lra). rewrite T in H. change (10 ^ 16)%R with (10 * 10 ^ 15)%R in H. lra.
Qed.

Section Learned.
  Variables (fuel : nat) (opt : optimiser) (eh : tpenalty) (act : activation) (grad : autograd) (rnd : list Qc) (X : mat) (schema : option (list (nat * string)))
    (p : tparams) (t : tabu Z) (l : learned) (ks : list (nat * kind)) (dts : list dtype) (X' : data) (t' : tabu Z) (odds : nat -> list R) (lasso ridge eps delta : R).
  Hypotheses (Rect : rectangular X) (Ns : forall s, schema = Some s -> NoDup (map fst s)) (Ek : schema_kinds (m_cols X) schema = Ok ks)
    (Ep : prepare ks (start_data X) t = Ok (dts, X', t')) (Wi : tabu_within (m_cols X) t) (Hm : 0 < tp_max_iter p)
    (E : torch_numpy fuel opt eh act grad rnd X schema p t = Ok l).
  Let d := nth 0 (l_dims l) 0.
  Let m := nth 1 (l_dims l) 0.
  Let size := n_params d (tp_bias p) (l_dims l).
  Let may := open_column (expanded X ks) (m_cols X) t.
  Let F := torch_func act (l_use_bias l) (l_dims l) (l_dtypes l) odds X' lasso ridge.
  Let cost := F 0%R 0%R.
  Hypotheses (Near : near_torch d m size may F eps opt) (Close : forall bs r q s k, torch_close delta eh (l_dtypes l) d m (opt bs r (Fin q) s k)).

  Let H (v : list Qc) : R := poly_penalty (h_size (l_dtypes l)) (fun i j => realq (h_matrix (l_dtypes l) d m v i j)).

  Lemma learned_facts : facts X ks t (l_dtypes l) X' t' /\ width X' = d /\ 0 < m_cols X.
  Proof.
    pose proof (prepare_facts _ _ _ _ _ _ _ Rect Ns Ek Ep) as Fa.
    destruct (torch_numpy_inv _ _ _ _ _ _ _ _ _ _ _ E) as (ks' & dts' & X2 & t2 & Ek' & Ep' & O). rewrite Ek in Ek'. injection Ek' as <-. rewrite Ep in Ep'. injection Ep' as <- <- <-.
    rewrite (oc_dtypes _ _ _ _ _ _ _ _ _ _ _ _ _ O). split; [exact Fa|]. split; [unfold d; rewrite (oc_dims _ _ _ _ _ _ _ _ _ _ _ _ _ O); symmetry; apply net_dims_0|].
    apply size_pos. unfold torch_numpy in E. destruct (m_size X =? 0); [discriminate|auto].
  Qed.

  Lemma H_nonneg v : (0 <= H v)%R.
  Proof.
    destruct learned_facts as (Fa & _ & Hd). unfold H. apply poly_nonneg.
    - intros i j _ _. apply h_matrix_nonneg. exists X, ks, t, X', t'. exact Fa.
    - rewrite (h_size_cols _ _ _ _ _ _ Fa); auto.
  Qed.

  Lemma H_zero v : no_cycles (expanded X ks) (m_cols X) d m v -> H v = 0%R.
  Proof.
    destruct learned_facts as (Fa & _ & Hd). intros N. unfold H. rewrite (h_size_cols _ _ _ _ _ _ Fa Hd). apply poly_zero; auto.
    - intros i j _ _. apply h_matrix_nonneg. exists X, ks, t, X', t'. exact Fa.
    - apply (no_cycles_dag _ _ _ _ _ _ d m v Fa N).
  Qed.

  Lemma F_split r q v b : F r q v = Ok b <-> exists c, cost v = Ok c /\ b = (c + r / 2 * H v ^ 2 + q * H v)%R.
  Proof.
    destruct learned_facts as (_ & Ew & _). unfold F, cost, H. rewrite func_split. unfold hval. rewrite Ew. reflexivity.
  Qed.

  Let zeros := repeat 0%Qc size.
  Lemma zeros_weight x y u : first_weight d m zeros x y u = 0%Qc.
  Proof. unfold first_weight, zeros. destruct (Nat.lt_ge_cases ((y * m + u) * d + x) size); [apply nth_repeat|apply nth_overflow; rewrite repeat_length; auto]. Qed.
  Lemma zeros_fine : List.length zeros = size /\ keeps_bans d m may zeros /\ no_cycles (expanded X ks) (m_cols X) d m zeros.
  Proof.
    split; [apply repeat_length|]. split; [intros i j u _ _ _ _; apply zeros_weight|]. intros a C. generalize C. generalize a at 2. intros b C'. clear C.
    induction C' as [x y (_ & _ & z & w & u & _ & _ & _ & N)|]; auto. apply N, zeros_weight.
  Qed.

  (** The answers of the optimiser *)
  Lemma answer_best bs r q s k : torch_question d m size may bs -> (0 < r)%Qc -> (0 <= q)%Qc -> let w := opt bs r (Fin q) s k in
    List.length w = size /\ keeps_bans d m may w /\
    forall u b, List.length u = size -> keeps_bans d m may u -> no_cycles (expanded X ks) (m_cols X) d m u -> cost u = Ok b ->
      exists a, cost w = Ok a /\ (a + realq r / 2 * H w ^ 2 + realq q * H w <= b + eps)%R.
  Proof.
    intros Q Hr Hq w. destruct (Near bs Q r q s k Hr Hq) as (L & K & Op). split; auto. split; auto. intros u b Lu Ku Nu Cu.
    destruct (Op u b Lu Ku) as (a & Ea & Le).
    { apply F_split. exists b. split; auto. rewrite (H_zero u Nu). lra. }
    apply F_split in Ea. destruct Ea as (c & Ec & ->). exists c. split; auto.
  Qed.

  Lemma close_le v : torch_close delta eh (l_dtypes l) d m v -> exists x, eh (h_size (l_dtypes l)) (h_matrix (l_dtypes l) d m v) = Fin x /\ (0 <= x)%Qc /\ (realq x <= H v + delta)%R.
  Proof. intros (x & Ex & Px & Cx). exists x. split; auto. split; auto. fold (H v) in Cx. unfold Rabs in Cx. destruct (Rcase_abs _) in Cx; lra. Qed.

  Theorem torch_best :
    List.length (l_params l) = size /\ (keeps_bans d m may (l_params l) /\ torch_close delta eh (l_dtypes l) d m (l_params l)) /\
    (forall u b, List.length u = size -> keeps_bans d m may u -> no_cycles (expanded X ks) (m_cols X) d m u -> cost u = Ok b ->
       exists a, cost (l_params l) = Ok a /\ (a <= b + eps)%R) /\
    (forall f0 c, cost zeros = Ok f0 -> (forall v a, cost v = Ok a -> (c <= a)%R) -> let range := (f0 + eps - c)%R in
       exists x, eh (h_size (l_dtypes l)) (h_matrix (l_dtypes l) d m (l_params l)) = Fin x /\
         (l_warned l = false -> (realq x <= / 10 ^ 8)%R \/ (realq x <= sqrt (2 * range / 10 ^ 15) + delta)%R) /\
         ((sqrt (2 * range) + delta <= 4 ^ (tp_max_iter p - 1) * / 10 ^ 8)%R -> l_warned l = false)).
  Proof.
    destruct (run_torch fuel opt eh act grad rnd X schema p t l Hm E) as (bs & As & Run). fold d m in Run. specialize (As ks Rect Ns Ek Wi). cbv zeta in As. fold d m size may in As.
    destruct Run as (v & M & Wn). { intros r q s k. destruct (close_le _ (Close bs r q s k)) as (x & Ex & _). exists x. exact Ex. }
    unfold runs in M. set (P := fun v x => eh (h_size (l_dtypes l)) (h_matrix (l_dtypes l) d m v) = Fin x) in *.
    set (solve := fun r q s k => opt bs r (Fin q) s k) in *.
    set (P' := fun w x => P w x /\ torch_close delta eh (l_dtypes l) d m w).
    assert (Nn : forall w x, P' w x -> (0 <= x)%Qc).
    { intros w x [Px Cx]. destruct (close_le w Cx) as (y & Ey & Hy & _). unfold P in Px. rewrite Px in Ey. injection Ey as ->. exact Hy. }
    assert (M' : method solve P' torch_h_tol torch_rho_max (tp_max_iter p) 0 1%Qc 0%Qc None (repeat 0%Qc (d * m * d + (if tp_bias p then d * m else 0)) ++ rnd) (l_params l) v).
    { apply (method_and solve P); [intros; apply Close|exact M]. }
    assert (Pos : forall r, (1 <= r)%Qc -> (0 < r)%Qc) by (intros r Hr; apply Qclt_le_trans with (2 := Hr); reflexivity).
    assert (Any : exists r x, (1 <= r)%Qc /\ answers solve r (l_params l) /\ P' (l_params l) x).
    { apply (method_answer solve P' torch_h_tol torch_rho_max Nn _ _ _ _ _ _ _ _ M'); discriminate. }
    destruct Any as (r0 & x0 & Hr0 & (q0 & s0 & k0 & Hq0 & Eo) & [Px0 Cx0]).
    destruct (answer_best bs r0 q0 s0 k0 As (Pos _ Hr0) Hq0) as (Ll & Kl & Bl). fold (solve r0 q0 s0 k0) in Ll, Kl, Bl. rewrite <- Eo in Ll, Kl, Bl.
    split; [exact Ll|]. split; [split; [exact Kl|exact Cx0]|]. split.
    - intros u b Lu Ku Nu Cu. destruct (Bl u b Lu Ku Nu Cu) as (a & Ea & Le). exists a. split; auto.
      pose proof (H_nonneg (l_params l)) as H0. apply Pos, Qclt_le_weak, realq_nonneg in Hr0. apply realq_nonneg in Hq0.
      assert (0 <= realq r0 / 2 * H (l_params l) ^ 2)%R by (apply Rmult_le_pos; [lra|apply pow2_ge_0]). assert (0 <= realq q0 * H (l_params l))%R by (apply Rmult_le_pos; auto). lra.
    - intros f0 c C0 Lc range. destruct zeros_fine as (Z1 & Z2 & Z3).
      assert (Ans : forall r w, (1 <= r)%Qc -> answers solve r w -> (0 <= range)%R /\ (H w <= sqrt (2 * range / realq r))%R /\ (H w <= sqrt (2 * range))%R).
      { intros r w Hr (q & s & k & Hq & Ew). destruct (answer_best bs r q s k As (Pos _ Hr) Hq) as (_ & _ & Bw). fold (solve r q s k) in Bw. rewrite <- Ew in Bw.
        destruct (Bw zeros f0 Z1 Z2 Z3 C0) as (a & Ea & Le). pose proof (Lc _ _ Ea) as La. pose proof (H_nonneg w) as H0. apply realq_nonneg in Hq. apply realq_le in Hr.
        replace (realq 1) with 1%R in Hr by (unfold realq, Q2R; cbn; lra).
        assert (T1 : (0 <= realq q * H w)%R) by (apply Rmult_le_pos; auto). assert (T2 : (0 <= H w ^ 2)%R) by apply pow2_ge_0.
        assert (T3 : (1 / 2 * H w ^ 2 <= realq r / 2 * H w ^ 2)%R) by (apply Rmult_le_compat_r; lra). assert (R0 : (0 <= range)%R) by (unfold range; lra).
        split; [exact R0|]. split; [apply square_bound; unfold range in *; lra|]. replace (2 * range)%R with (2 * range / 1)%R by field. apply square_bound; unfold range in *; lra. }
      assert (First : forall r w x, (1 <= r)%Qc -> answers solve r w -> P' w x -> (realq x <= sqrt (2 * range) + delta)%R).
      { intros r w x Hr A [Px Cx]. destruct (close_le w Cx) as (y & Ey & _ & Le). unfold P in Px. rewrite Px in Ey. injection Ey as <-. destruct (Ans r w Hr A) as (_ & _ & Hs). lra. }
      destruct (method_best solve P' torch_h_tol torch_rho_max Nn _ First _ _ _ _ _ _ _ _ M') as (r & x & Hr & A & [Px Cx] & V); try discriminate.
      exists x. split; [exact Px|]. destruct (close_le (l_params l) Cx) as (y & Ey & _ & Le). unfold P in Px. rewrite Px in Ey. injection Ey as <-.
      destruct (Ans r (l_params l) Hr A) as (R0 & Hs & _).
      assert (Big : (10 ^ 15 <= realq r)%R -> (realq x <= sqrt (2 * range / 10 ^ 15) + delta)%R).
      { intros Hb. apply Rle_trans with (1 := Le). apply Rplus_le_compat_r. apply Rle_trans with (1 := Hs). apply sqrt_le_1_alt. unfold Rdiv. apply Rmult_le_compat_l; [lra|].
        apply Rinv_le_contravar; [apply pow_lt; lra|exact Hb]. }
      destruct v.
      + apply realq_le in V. rewrite realq_tol in V. split; [auto|]. intros _. destruct (l_warned l); auto. discriminate (proj1 Wn eq_refl).
      + destruct V as [V1 V2]. split; [intros Nw; rewrite (proj2 Wn eq_refl) in Nw; discriminate|]. intros T2. exfalso. cbn [left_over] in V2.
        assert (V3 : (/ 10 ^ 8 < realq x)%R) by (rewrite <- realq_tol; unfold realq; apply Qlt_Rlt; exact V1).
        assert (P4 : (0 < 4 ^ (tp_max_iter p - 1))%R) by (apply pow_lt; lra).
        apply (Rmult_le_compat_r (/ 4 ^ (tp_max_iter p - 1))) in T2; [|left; apply Rinv_0_lt_compat; exact P4].
        assert (Si : forall a b : R, (0 < a)%R -> (a * b * / a)%R = b) by (intros a0 b0 Ha0; field; lra). rewrite (Si _ _ P4) in T2. unfold Rdiv in V2. lra.
      + destruct V as [V1 V2]. apply limit_weight in V2. apply Big in V2. split; [auto|]. intros _. destruct (l_warned l); auto. discriminate (proj1 Wn eq_refl).
  Qed.
End Learned.
