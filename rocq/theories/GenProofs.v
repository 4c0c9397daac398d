(** * GenProofs: what generate_structure returns. *)
From Coq Require Import List Bool Arith ZArith Lia Lra Lqa String QArith Qround Qcanon Permutation.
From Verif Require Import Base Digraph SmModel SmProofs QcX NotearsModel NotearsProofs NotearsThms TorchModel TorchSpec TorchProofs TorchThms TorchGraph SmThms GenModel.
Import ListNotations.
Local Open Scope string_scope.
Local Open Scope list_scope.
Local Open Scope nat_scope.

(** ** Permuting a matrix *)
Section Perm.
  Variables (n : nat) (s : list nat).
  Hypothesis P : Permutation s (seq 0 n).
  Let sg (i : nat) : nat := nth i s n.

  Lemma perm_length : List.length s = n.
  Proof. rewrite (Permutation_length P). apply seq_length. Qed.
  Lemma perm_inj i j : i < n -> j < n -> sg i = sg j -> i = j.
  Proof.
    intros Hi Hj E. assert (N : NoDup s) by (apply (Permutation_NoDup (Permutation_sym P)), seq_NoDup).
    apply (proj1 (NoDup_nth s n) N); rewrite ?perm_length; auto.
  Qed.
  Lemma perm_lt i : i < n -> sg i < n.
  Proof. intros H. assert (I : In (sg i) (seq 0 n)) by (apply (Permutation_in _ P), nth_In; rewrite perm_length; auto). apply in_seq in I. lia. Qed.
  Lemma perm_onto a : a < n -> exists i, i < n /\ sg i = a.
  Proof.
    intros H. assert (I : In a s) by (apply (Permutation_in _ (Permutation_sym P)), in_seq; lia).
    destruct (In_nth _ _ n I) as (i & L & E). rewrite perm_length in L. exists i. auto.
  Qed.

  Definition pmat : qmat := fun i a => indicator (sg i =? a).

  Lemma sum_pick f j : j < n -> Qsum (fun k => (f k * pmat k (sg j))%Qc) (seq 0 n) = f j.
  Proof.
    intros H. rewrite (Qsum_single _ _ j); [|apply seq_NoDup|apply in_seq; lia|].
    - unfold pmat. rewrite Nat.eqb_refl. cbn. ring.
    - intros k I N. apply in_seq in I. unfold pmat. destruct (sg k =? sg j) eqn:E; [|cbn; ring]. apply Nat.eqb_eq in E. apply perm_inj in E; lia.
  Qed.

  Lemma permuted F i j : i < n -> j < n -> matmul n (matmul n (transpose pmat) F) pmat (sg i) (sg j) = F i j.
  Proof.
    intros Hi Hj. unfold matmul at 1. rewrite (sum_pick (fun k => matmul n (transpose pmat) F (sg i) k) j Hj). unfold matmul, transpose.
    transitivity (Qsum (fun k => (F k j * pmat k (sg i))%Qc) (seq 0 n)); [apply Qsum_ext; intros; ring|]. apply (sum_pick (fun k => F k j)). auto.
  Qed.
End Perm.

(** ** Flags *)
Definition lower (F : qmat) : Prop := forall i j, F i j <> 0%Qc -> j < i.

Lemma tril_lower M : lower (tril M).
Proof. intros i j H. unfold tril in H. destruct (j <? i) eqn:E; [apply Nat.ltb_lt; auto|congruence]. Qed.

Lemma upd_row dest i : forall F a b, fold_left (fun F j => upd F i j 1%Qc) dest F a b = if (a =? i) && existsb (Nat.eqb b) dest then 1%Qc else F a b.
Proof.
  induction dest as [|j dest IH]; intros F a b; cbn [fold_left existsb]; [rewrite andb_false_r; auto|]. rewrite IH. unfold upd.
  destruct (a =? i), (b =? j), (existsb (Nat.eqb b) dest); auto.
Qed.

Section Ba.
  Variables (rn : draws) (m : nat).
  Definition ba_step (s : qmat * list nat) (i : nat) : qmat * list nat :=
    let dest := choice rn i m (snd s) in (fold_left (fun F j => upd F i j 1%Qc) dest (fst s), snd s ++ [i] ++ dest).

  Lemma choice_in i bag : bag <> [] -> forall j, In j (choice rn i m bag) -> In j bag.
  Proof.
    intros N j H. unfold choice in H. apply in_map_iff in H. destruct H as (k & <- & _). apply nth_In, Nat.mod_upper_bound. destruct bag; cbn; congruence.
  Qed.

  (** Each node but the first chooses [m] nodes before it. *)
  Lemma ba_spec k : exists dests : nat -> list nat,
    (forall i, 1 <= i <= k -> List.length (dests i) = m /\ forall j, In j (dests i) -> j < i) /\
    let s := fold_left ba_step (seq 1 k) (fun _ _ => 0%Qc, [0]) in
    (forall a b, fst s a b = indicator ((1 <=? a) && (a <=? k) && existsb (Nat.eqb b) (dests a))) /\ snd s <> [] /\ forall j, In j (snd s) -> j <= k.
  Proof.
    induction k as [|k (dests & Hd & Hf & Hb & Hk)].
    - exists (fun _ => []). split; [intros; lia|]. cbn. split; [|split; [congruence|lia]]. intros a b. rewrite andb_false_r. auto.
    - set (s := fold_left ba_step (seq 1 k) (fun _ _ => 0%Qc, [0])) in *. set (dest := choice rn (S k) m (snd s)).
      exists (fun i => if i =? S k then dest else dests i). split.
      + intros i Hi. destruct (Nat.eqb_spec i (S k)) as [->|N]; [|apply Hd; lia]. split; [unfold dest, choice; rewrite map_length, seq_length; auto|].
        intros j Hj. apply choice_in in Hj; [|assumption]. apply Hk in Hj. lia.
      + cbv zeta. rewrite seq_S, fold_left_app. fold s. cbn [fold_left]. replace (1 + k) with (S k) by lia. unfold ba_step. cbn [fst snd]. fold dest. split; [|split].
        * intros a b. rewrite upd_row. destruct (Nat.eqb_spec a (S k)) as [->|N].
          -- cbn [andb]. replace (1 <=? S k) with true by (symmetry; apply Nat.leb_le; lia). rewrite Nat.leb_refl. cbn [andb].
             destruct (existsb (Nat.eqb b) dest); auto. rewrite Hf. replace (S k <=? k) with false by (symmetry; apply Nat.leb_gt; lia). reflexivity.
          -- cbn [andb]. rewrite Hf. do 3 f_equal. apply eq_true_iff_eq. rewrite !Nat.leb_le. lia.
        * destruct (snd s); discriminate.
        * intros j Hj. apply in_app_iff in Hj. destruct Hj as [Hj|Hj]; [apply Hk in Hj; lia|]. cbn in Hj. destruct Hj as [<-|Hj]; [lia|]. apply choice_in in Hj; [|assumption]. apply Hk in Hj. lia.
  Qed.
End Ba.

Lemma ba_flags rn n m : exists dests : nat -> list nat,
  (forall i, 1 <= i < n -> List.length (dests i) = m /\ forall j, In j (dests i) -> j < i) /\
  forall a b, barabasi_albert rn n m a b <> 0%Qc <-> 1 <= a < n /\ In b (dests a).
Proof.
  destruct (ba_spec rn m (n - 1)) as (dests & Hd & Hf & _). exists dests. split; [intros i Hi; apply Hd; lia|]. intros a b.
  change (barabasi_albert rn n m a b) with (fst (fold_left (ba_step rn m) (seq 1 (n - 1)) (fun _ _ => 0%Qc, [0])) a b). rewrite Hf.
  transitivity ((1 <=? a) && (a <=? n - 1) && existsb (Nat.eqb b) (dests a) = true).
  - unfold indicator. destruct (_ && existsb _ _); split; try congruence. intros _. intros Q. apply (f_equal this) in Q. discriminate.
  - rewrite !andb_true_iff, !Nat.leb_le, existsb_exists. split.
    + intros [[? ?] (x & I & E)]. apply Nat.eqb_eq in E. subst. split; auto. lia.
    + intros [? I]. split; [split; lia|]. exists b. split; auto. apply Nat.eqb_refl.
Qed.

Lemma ba_lower rn n m : lower (barabasi_albert rn n m).
Proof. intros i j H. destruct (ba_flags rn n m) as (dests & Hd & Hf). apply Hf in H. destruct H as [Hi Hj]. apply (Hd i Hi). auto. Qed.

(** ** The result *)
Definition gen_flags (rn : draws) (n : nat) (degree : Qc) (t : string) : res qmat :=
  if String.eqb t "erdos-renyi" then Ok (erdos_renyi rn n degree)
  else if String.eqb t "barabasi-albert" then
    let m := round_even (degree / Q2Qc 2)%Qc in if (m <? 0)%Z then Err ValueError else Ok (barabasi_albert rn n (Z.to_nat m))
  else if String.eqb t "full" then Ok (tril (fun _ _ => 1%Qc)) else Err ValueError.

Lemma gen_flags_lower rn n degree t F : gen_flags rn n degree t = Ok F -> lower F.
Proof.
  unfold gen_flags. destruct (String.eqb _ _); [intros [= <-]; apply tril_lower|]. destruct (String.eqb _ _); [cbv zeta; destruct (_ <? _)%Z; [discriminate|]; intros [= <-]; apply ba_lower|].
  destruct (String.eqb _ _); [intros [= <-]; apply tril_lower|discriminate].
Qed.

(** What the random numbers of numpy satisfy: a permutation of the rows and numbers between 0 and 1. *)
Definition wf_draws (n : nat) (rn : draws) : Prop :=
  Permutation (dr_perm rn) (seq 0 n) /\ (forall i j, (0 <= dr_weight rn i j /\ dr_weight rn i j <= 1)%Qc) /\ (forall i j, (0 <= dr_edge rn i j /\ dr_edge rn i j < 1)%Qc).

Lemma Qcabs_pos z : (0 <= z)%Qc -> Qcabs z = z.
Proof. intros H. unfold Qcabs. destruct (Qclt_le_dec z 0) as [C|]; auto. exfalso. apply (Qclt_not_le _ _ C H). Qed.
Lemma Qcabs_neg z : (0 <= z)%Qc -> Qcabs (z * - (1)) = z.
Proof.
  intros H. unfold Qcabs. destruct (Qclt_le_dec _ 0) as [C|C]; [ring|]. assert (N : (z <= 0)%Qc) by (apply Qcle_minus_iff; replace (0 + - z)%Qc with (z * - (1))%Qc by ring; auto).
  rewrite (Qcle_antisym _ _ N H). ring.
Qed.

Lemma weight_range lo hi u : (0 <= lo /\ lo <= hi -> 0 <= u /\ u <= 1 -> lo <= lo + (hi - lo) * u /\ lo + (hi - lo) * u <= hi)%Qc.
Proof.
  intros [L0 L] [U0 U]. apply Qcle_minus_iff in L, U. assert (H : (0 <= (hi - lo) * u)%Qc) by (apply Qc_mul_nonneg; auto). assert (H' : (0 <= (hi - lo) * (1 - u))%Qc) by (apply Qc_mul_nonneg; auto).
  split; apply Qcle_minus_iff; [replace (lo + (hi - lo) * u + - lo)%Qc with ((hi - lo) * u)%Qc by ring|replace (hi + - (lo + (hi - lo) * u))%Qc with ((hi - lo) * (1 - u))%Qc by ring]; auto.
Qed.

Lemma generate_inv rn num degree t w_min w_max g : generate_structure rn num degree t w_min w_max = Ok g -> wf_draws (Z.to_nat num) rn ->
  let n := Z.to_nat num in let sg i := nth i (dr_perm rn) n in exists F w, (2 <= num)%Z /\ gen_flags rn n degree t = Ok F /\ lower F /\
  (forall a b, (Qcabs w_min <= Qcabs (w a b) /\ Qcabs (w a b) <= Qcabs w_max)%Qc) /\ wf g /\ nodes g = map node (seq 0 n) /\
  forall u v a, edge_attrs g u v = Some a <-> exists i j, i < n /\ j < n /\ u = node (sg i) /\ v = node (sg j) /\ F i j <> 0%Qc /\ w (sg i) (sg j) <> 0%Qc /\ a = weight_attrs "unknown" (w (sg i) (sg j)).
Proof.
  intros E (P & Hw & _) n sg. unfold generate_structure in E. destruct (num <? 2)%Z eqn:En; [discriminate|]. apply Z.ltb_ge in En. cbv zeta in E. fold n in E.
  destruct (qlt (Qcabs w_max) (Qcabs w_min)) eqn:El; [discriminate|].
  change (bind (gen_flags rn n degree t) (fun flags => sm_of_matrix n (flatten n (fun i j => (indicator (qnz (matmul n (matmul n (transpose (pmat n (dr_perm rn))) flags) (pmat n (dr_perm rn)) i j)) *
    (if qlt (dr_sign rn i j) half then (Qcabs w_min + (Qcabs w_max - Qcabs w_min) * dr_weight rn i j) * - (1) else Qcabs w_min + (Qcabs w_max - Qcabs w_min) * dr_weight rn i j))%Qc))) = Ok g) in E.
  destruct (gen_flags rn n degree t) as [F|] eqn:EF; [|discriminate]. cbn [bind] in E.
  exists F. set (w := fun i j => (if qlt (dr_sign rn i j) half then (Qcabs w_min + (Qcabs w_max - Qcabs w_min) * dr_weight rn i j) * - (1) else Qcabs w_min + (Qcabs w_max - Qcabs w_min) * dr_weight rn i j)%Qc) in *.
  exists w. split; auto. split; auto. split; [eapply gen_flags_lower; eauto|]. split.
  - intros a b. assert (R : (Qcabs w_min <= Qcabs w_min + (Qcabs w_max - Qcabs w_min) * dr_weight rn a b /\ Qcabs w_min + (Qcabs w_max - Qcabs w_min) * dr_weight rn a b <= Qcabs w_max)%Qc).
    { apply weight_range; auto. split; [apply Qcabs_nonneg|]. unfold qlt in El. destruct (Qclt_le_dec _ _); [discriminate|auto]. }
    pose proof (Qcabs_nonneg w_min) as N0. unfold w. cbv beta. set (z := (Qcabs w_min + (Qcabs w_max - Qcabs w_min) * dr_weight rn a b)%Qc) in *. clearbody z.
    assert (Z : (0 <= z)%Qc) by (apply (Qcle_trans _ _ _ N0), R). destruct (qlt (dr_sign rn a b) half); [rewrite (Qcabs_neg z Z)|rewrite (Qcabs_pos z Z)]; auto.
  - destruct (matrix_graph_fun n (fun i j => (indicator (qnz (matmul n (matmul n (transpose (pmat n (dr_perm rn))) F) (pmat n (dr_perm rn)) i j)) * w i j)%Qc)) as (g' & E' & W & N & A).
    assert (Q : Ok g = Ok g') by (rewrite <- E'; symmetry; exact E). injection Q as <-. split; auto. split; auto. intros u v a. rewrite A. split.
    + intros (a0 & b0 & Ha & Hb & -> & -> & Nz & ->). destruct (perm_onto n (dr_perm rn) P a0 Ha) as (i & Hi & <-). destruct (perm_onto n (dr_perm rn) P b0 Hb) as (j & Hj & <-).
      rewrite (permuted n (dr_perm rn) P F i j Hi Hj) in *. exists i, j. unfold sg. destruct (qnz (F i j)) eqn:Eq; [|exfalso; apply Nz; cbn; ring].
      replace (indicator true * w (nth i (dr_perm rn) n) (nth j (dr_perm rn) n))%Qc with (w (nth i (dr_perm rn) n) (nth j (dr_perm rn) n)) in * by (cbn; ring). repeat (split; auto).
      intros Q. rewrite Q in Eq. discriminate.
    + intros (i & j & Hi & Hj & -> & -> & Nf & Nw & ->). exists (sg i), (sg j). split; [apply perm_lt; auto|]. split; [apply perm_lt; auto|]. split; auto. split; auto.
      unfold sg. rewrite (permuted n (dr_perm rn) P F i j Hi Hj). assert (Eq : qnz (F i j) = true). { unfold qnz. destruct (Qc_eq_bool_spec (F i j) 0%Qc); [contradiction|auto]. }
      rewrite Eq. replace (indicator true * w (nth i (dr_perm rn) n) (nth j (dr_perm rn) n))%Qc with (w (nth i (dr_perm rn) n) (nth j (dr_perm rn) n)) by (cbn; ring). split; auto.
Qed.

(** ** Consequences *)
Section Result.
  Variables (rn : draws) (num : Z) (degree : Qc) (t : string) (w_min w_max : Qc) (g : graph).
  Hypothesis E : generate_structure rn num degree t w_min w_max = Ok g.
  Hypothesis W : wf_draws (Z.to_nat num) rn.
  Let n := Z.to_nat num.
  Let sg (i : nat) : nat := nth i (dr_perm rn) n.

  Lemma edge_flags : exists F, gen_flags rn n degree t = Ok F /\ lower F /\ wf g /\ nodes g = map node (seq 0 n) /\
    (forall u v, In (u, v) (edges g) -> exists i j, i < n /\ j < n /\ u = node (sg i) /\ v = node (sg j) /\ F i j <> 0%Qc) /\
    (w_min <> 0%Qc -> forall i j, i < n -> j < n -> F i j <> 0%Qc -> In (node (sg i), node (sg j)) (edges g)).
  Proof.
    destruct (generate_inv _ _ _ _ _ _ _ E W) as (F & w & _ & EF & LF & Rw & Wg & Ng & A). exists F. split; auto. split; auto. split; auto. split; auto. split.
    - intros u v H. apply edges_In in H; auto. destruct H as (a & Ha). apply A in Ha. destruct Ha as (i & j & Hi & Hj & Eu & Ev & Nf & _). exists i, j. auto.
    - intros Nw i j Hi Hj Nf. apply edges_In; auto. eexists. apply A. exists i, j. fold n sg. repeat (split; auto). intros Q. destruct (Rw (sg i) (sg j)) as [L _]. fold n in Q. unfold sg in Q, L. fold n in L. rewrite Q in L.
      assert (Z : Qcabs w_min = 0%Qc). { apply Qcle_antisym; [rewrite <- Qcabs_0; exact L|apply Qcabs_nonneg]. }
      apply Nw. unfold Qcabs in Z. destruct (Qclt_le_dec w_min 0); auto. replace w_min with (- (- w_min))%Qc by ring. rewrite Z. ring.
  Qed.

  Lemma node_inj a b : node a = node b -> a = b.
  Proof. intros [= H]. apply Nat2Z.inj in H. auto. Qed.

  Lemma sg_inj i j : i < n -> j < n -> node (sg i) = node (sg j) -> i = j.
  Proof. intros Hi Hj H. apply node_inj in H. apply (perm_inj n (dr_perm rn) (proj1 W)) in H; auto. Qed.

  Lemma generated_acyclic : acyclic (edges g).
  Proof.
    destruct edge_flags as (F & _ & LF & _ & _ & HE & _).
    assert (R : forall u v, path (edges g) u v -> exists i j, i < n /\ j < n /\ u = node (sg i) /\ v = node (sg j) /\ j < i).
    { induction 1 as [u v H|u v x H _ (i & j & Hi & Hj & Eu & Ev & L)].
      - destruct (HE _ _ H) as (i & j & Hi & Hj & Eu & Ev & N). exists i, j. repeat (split; auto).
      - destruct (HE _ _ H) as (i' & j' & Hi' & Hj' & Eu' & Ev' & N). apply LF in N. rewrite Eu in Ev'. apply sg_inj in Ev'; auto. subst j'. exists i', j. repeat (split; auto). lia. }
    intros u P. destruct (R u u P) as (i & j & Hi & Hj & Eu & Ev & L). rewrite Eu in Ev. apply sg_inj in Ev; auto. lia.
  Qed.

  Lemma generated_weights u v a : edge_attrs g u v = Some a -> exists w, aget a "weight" = Some (ANum w) /\ aget a "origin" = Some (AStr "unknown") /\ w <> 0%Qc /\ (Qcabs w_min <= Qcabs w)%Qc /\ (Qcabs w <= Qcabs w_max)%Qc.
  Proof.
    intros H. destruct (generate_inv _ _ _ _ _ _ _ E W) as (F & w & _ & EF & LF & Rw & Wg & Ng & A). apply A in H. destruct H as (i & j & Hi & Hj & Eu & Ev & Nf & Nw & ->).
    eexists. split; [reflexivity|]. split; [reflexivity|]. split; [exact Nw|]. apply Rw.
  Qed.

  (** Every two nodes have one edge. *)
  Definition tournament (n : nat) (es : list (label * label)) : Prop :=
    forall a b, a < n -> b < n -> a <> b -> (In (node a, node b) es /\ ~ In (node b, node a) es) \/ (In (node b, node a) es /\ ~ In (node a, node b) es).

  Lemma flags_tournament F : gen_flags rn n degree t = Ok F -> w_min <> 0%Qc -> (forall i j, i < n -> j < i -> F i j <> 0%Qc) -> tournament n (edges g).
  Proof.
    intros EF Nw HF a b Ha Hb N. destruct edge_flags as (F' & EF' & _ & _ & _ & _ & HE). rewrite EF in EF'. injection EF' as <-. specialize (HE Nw).
    destruct (perm_onto n (dr_perm rn) (proj1 W) a Ha) as (i & Hi & Ei). destruct (perm_onto n (dr_perm rn) (proj1 W) b Hb) as (j & Hj & Ej). fold sg in HE.
    assert (AC : forall x y, In (x, y) (edges g) -> ~ In (y, x) (edges g)) by (intros x y H1 H2; apply (generated_acyclic x); eapply path_step; [exact H1|apply path_one; exact H2]).
    assert (D : i < j \/ j < i) by (destruct (Nat.lt_total i j) as [?|[?|?]]; auto; subst; congruence). rewrite <- Ei, <- Ej. destruct D as [D|D]; [right|left]; (split; [apply HE; auto|apply AC, HE; auto]).
  Qed.

  Lemma full_tournament : t = "full" -> w_min <> 0%Qc -> tournament n (edges g).
  Proof. intros Et Nw. eapply flags_tournament; [unfold gen_flags; rewrite Et; reflexivity|auto|]. intros i j Hi Hj. unfold tril. apply Nat.ltb_lt in Hj. rewrite Hj. intros Q. apply (f_equal this) in Q. discriminate. Qed.

  Lemma dense_tournament : t = "erdos-renyi" -> w_min <> 0%Qc -> (Q2Qc (inject_Z (num - 1)) <= degree)%Qc -> tournament n (edges g).
  Proof.
    intros Et Nw Hd. destruct (generate_inv _ _ _ _ _ _ _ E W) as (_ & _ & Hn & _).
    eapply flags_tournament; [unfold gen_flags; rewrite Et; reflexivity|auto|]. intros i j Hi Hj. unfold erdos_renyi, tril. apply Nat.ltb_lt in Hj. rewrite Hj.
    replace (qlt _ _) with true; [intros Q; apply (f_equal this) in Q; discriminate|]. symmetry. unfold qlt. destruct (Qclt_le_dec _ _) as [|C]; auto. exfalso.
    destruct W as (_ & _ & We). specialize (We i j). destruct We as [_ U]. unfold n in C. rewrite Z2Nat.id in C by lia. set (k := Q2Qc (inject_Z (num - 1))) in *.
    assert (K : (0 < k)%Qc). { unfold Qclt, k, Q2Qc. cbn [this]. rewrite !Qred_correct. change 0%Q with (inject_Z 0). rewrite <- Zlt_Qlt. lia. }
    assert (D : (1 <= degree / k)%Qc).
    { apply Qcle_minus_iff in Hd. apply Qcle_minus_iff. replace (degree / k + - (1))%Qc with ((degree + - k) * / k)%Qc by (field; intros Q; rewrite Q in K; apply (Qclt_not_le _ _ K), Qcle_refl).
      apply Qc_mul_nonneg; auto. apply Qc_inv_nonneg. apply Qclt_le_weak. auto. }
    apply (Qclt_not_le _ _ U). apply (Qcle_trans _ _ _ D C).
  Qed.

  Lemma sparse_empty : t = "erdos-renyi" -> (degree <= 0)%Qc -> edges g = [].
  Proof.
    intros Et Hd. destruct (generate_inv _ _ _ _ _ _ _ E W) as (_ & _ & Hn & _). destruct edge_flags as (F & EF & _ & _ & _ & HE & _). unfold gen_flags in EF. rewrite Et in EF. injection EF as <-.
    destruct (edges g) as [|[u v] es]; auto. exfalso. destruct (HE u v (or_introl eq_refl)) as (i & j & Hi & Hj & _ & _ & N). apply N. unfold erdos_renyi, tril. destruct (j <? i); auto.
    replace (qlt _ _) with false; auto. symmetry. unfold qlt. destruct (Qclt_le_dec _ _) as [C|]; auto. exfalso. destruct W as (_ & _ & We). specialize (We i j). destruct We as [U _].
    unfold n in C. rewrite Z2Nat.id in C by lia. apply (Qclt_not_le _ _ C). apply (Qcle_trans _ 0%Qc); auto. apply Qcle_minus_iff in Hd. apply Qcle_minus_iff.
    replace (0 + - (degree / Q2Qc (inject_Z (num - 1))))%Qc with ((0 + - degree) * / Q2Qc (inject_Z (num - 1)))%Qc by (unfold Qcdiv; ring).
    apply Qc_mul_nonneg; auto. apply Qc_inv_nonneg. unfold Qcle, Q2Qc. cbn [this]. rewrite !Qred_correct. change 0%Q with (inject_Z 0). rewrite <- Zle_Qle. lia.
  Qed.

  (** Connected if directions are ignored. *)
  Definition joined (es : list (label * label)) (u v : label) : Prop := path (es ++ map (fun e => (snd e, fst e)) es) u v.

  Section BaGraph.
    Variable m : nat.
    Hypothesis (Et : t = "barabasi-albert") (Em : round_even (degree / Q2Qc 2)%Qc = Z.of_nat m).

    Lemma ba_dests : exists dests : nat -> list nat, (forall i, 1 <= i < n -> List.length (dests i) = m /\ forall j, In j (dests i) -> j < i) /\
      (forall u v, In (u, v) (edges g) -> exists i j, 1 <= i < n /\ In j (dests i) /\ u = node (sg i) /\ v = node (sg j)) /\
      (w_min <> 0%Qc -> forall i j, 1 <= i < n -> In j (dests i) -> In (node (sg i), node (sg j)) (edges g)).
    Proof.
      destruct edge_flags as (F & EF & _ & _ & _ & HE & HE'). unfold gen_flags in EF. rewrite Et in EF. cbn [String.eqb Ascii.eqb Bool.eqb] in EF. cbv zeta in EF. rewrite Em in EF.
      replace (Z.of_nat m <? 0)%Z with false in EF by (symmetry; apply Z.ltb_ge; lia). rewrite Nat2Z.id in EF. injection EF as <-.
      destruct (ba_flags rn n m) as (dests & Hd & Hf). exists dests. split; auto. split.
      - intros u v H. destruct (HE u v H) as (i & j & Hi & Hj & Eu & Ev & N). apply Hf in N. destruct N. exists i, j. auto.
      - intros Nw i j Hi Hj. apply HE'; auto; [lia| |apply Hf; auto]. apply Hd in Hj; lia.
    Qed.

    Lemma ba_connected : 1 <= m -> w_min <> 0%Qc -> forall a b, a < n -> b < n -> a <> b -> joined (edges g) (node a) (node b).
    Proof.
      intros Hm Nw. destruct ba_dests as (dests & Hd & _ & HE). specialize (HE Nw).
      assert (J : forall k i, i < k -> 1 <= i < n -> joined (edges g) (node (sg i)) (node (sg 0)) /\ joined (edges g) (node (sg 0)) (node (sg i))).
      { induction k as [|k IH]; [lia|]. intros i Hk Hi. destruct (Hd i Hi) as [L B]. destruct (dests i) as [|j ds] eqn:Ed; [cbn in L; lia|]. specialize (B j (or_introl eq_refl)).
        assert (I : In (node (sg i), node (sg j)) (edges g)) by (apply HE; auto; rewrite Ed; cbn; auto).
        assert (I1 : In (node (sg i), node (sg j)) (edges g ++ map (fun e => (snd e, fst e)) (edges g))) by (apply in_app_iff; auto).
        assert (I2 : In (node (sg j), node (sg i)) (edges g ++ map (fun e => (snd e, fst e)) (edges g))) by (apply in_app_iff; right; apply in_map_iff; exists (node (sg i), node (sg j)); auto).
        destruct (Nat.eq_dec j 0) as [->|Nj]; [split; apply path_one; auto|]. destruct (IH j) as [J1 J2]; [lia|lia|]. split.
        - eapply path_step; [exact I1|exact J1].
        - eapply path_trans; [exact J2|apply path_one; exact I2]. }
      intros a b Ha Hb N. destruct (perm_onto n (dr_perm rn) (proj1 W) a Ha) as (i & Hi & Ei). destruct (perm_onto n (dr_perm rn) (proj1 W) b Hb) as (j & Hj & Ej). fold (sg i) in Ei. fold (sg j) in Ej. rewrite <- Ei, <- Ej.
      destruct (Nat.eq_dec i 0) as [->|Ni].
      - apply (J (S j)); [lia|]. split; [|auto]. destruct j; [congruence|lia].
      - destruct (Nat.eq_dec j 0) as [->|Nj]; [apply (J (S i)); lia|]. eapply path_trans; [apply (J (S i)); lia|apply (J (S j)); lia].
    Qed.

    Lemma ba_children a : a < n -> forall vs, NoDup vs -> (forall v, In v vs -> In (node a, v) (edges g)) -> List.length vs <= m.
    Proof.
      intros Ha vs Nd H. destruct ba_dests as (dests & Hd & HE & _). destruct (perm_onto n (dr_perm rn) (proj1 W) a Ha) as (i & Hi & Ei). fold (sg i) in Ei.
      destruct vs as [|v0 vs0] eqn:Ev; [cbn; lia|]. rewrite <- Ev in *. assert (Hi1 : 1 <= i).
      { destruct (HE (node a) v0) as (i' & j' & Hi' & _ & Eu & _); [apply H; rewrite Ev; cbn; auto|]. rewrite <- Ei in Eu. apply sg_inj in Eu; lia. }
      transitivity (List.length (map (fun j => node (sg j)) (dests i))); [|rewrite map_length; destruct (Hd i) as [-> _]; lia].
      apply NoDup_incl_length; auto. intros v Hv. destruct (HE _ _ (H v Hv)) as (i' & j' & Hi' & Hj' & Eu & ->). rewrite <- Ei in Eu. apply sg_inj in Eu; [|lia|lia]. subst i'. apply in_map_iff. exists j'. auto.
    Qed.
  End BaGraph.
End Result.

(** Which arguments are accepted. *)
Definition accepted (num : Z) (degree : Qc) (t : string) (w_min w_max : Qc) : Prop :=
  (2 <= num)%Z /\ (Qcabs w_min <= Qcabs w_max)%Qc /\ (t = "erdos-renyi" \/ t = "full" \/ t = "barabasi-albert" /\ (- (1) <= degree)%Qc).

Lemma round_half_neg degree : (round_even (degree / Q2Qc 2)%Qc < 0)%Z <-> (degree < - (1))%Qc.
Proof.
  unfold round_even. set (q := (degree / Q2Qc 2)%Qc). assert (Ed : degree = (q + q)%Qc) by (unfold q, Qcdiv; replace (degree * / Q2Qc 2 + degree * / Q2Qc 2)%Qc with (degree * (/ Q2Qc 2 + / Q2Qc 2))%Qc by ring; replace (/ Q2Qc 2 + / Q2Qc 2)%Qc with 1%Qc by (apply Qc_is_canon; reflexivity); ring). clearbody q. subst degree. cbv zeta.
  set (f := Qfloor (this q)). assert (Hf : (inject_Z f <= this q)%Q /\ (this q < inject_Z (f + 1))%Q) by (split; [apply Qfloor_le|apply Qlt_floor]).
  rewrite inject_Z_plus in Hf. change (inject_Z 1) with 1%Q in Hf.
  assert (Hz : forall z k : Z, (z < k)%Z -> (inject_Z z + 1 <= inject_Z k)%Q).
  { intros z k H. change 1%Q with (inject_Z 1). rewrite <- inject_Z_plus. rewrite <- Zle_Qle. lia. }
  assert (Hd : (f < -1)%Z \/ f = (-1)%Z \/ (0 <= f)%Z) by lia.
  unfold qlt, half, Qclt. destruct (Qclt_le_dec (q - Q2Qc (inject_Z f)) (Q2Qc (1 # 2))) as [A|A].
  - unfold Qclt, Qcminus, Qcplus, Qcopp, Q2Qc in *. cbn [this] in *. rewrite !Qred_correct in *. change (Qred 1) with 1%Q.
    destruct Hd as [Hd|[->|Hd]].
    + pose proof (Hz _ _ Hd) as Hd'. split; [intros _|lia]. change (inject_Z (-1)) with (-1)%Q in Hd'. lra.
    + split; [intros _|lia]. change (inject_Z (-1)) with (-1)%Q in *. lra.
    + split; [lia|]. assert (inject_Z 0 <= inject_Z f)%Q by (rewrite <- Zle_Qle; auto). change (inject_Z 0) with 0%Q in *. intros. exfalso. lra.
  - destruct (Qclt_le_dec (Q2Qc (1 # 2)) (q - Q2Qc (inject_Z f))) as [B|B].
    + unfold Qclt, Qcle, Qcminus, Qcplus, Qcopp, Q2Qc in *. cbn [this] in *. rewrite !Qred_correct in *. change (Qred 1) with 1%Q.
      destruct Hd as [Hd|[->|Hd]].
      * pose proof (Hz _ _ Hd) as Hd'. split; [intros _|lia]. change (inject_Z (-1)) with (-1)%Q in Hd'. lra.
      * split; [lia|]. change (inject_Z (-1)) with (-1)%Q in *. intros. exfalso. lra.
      * split; [lia|]. assert (inject_Z 0 <= inject_Z f)%Q by (rewrite <- Zle_Qle; auto). change (inject_Z 0) with 0%Q in *. intros. exfalso. lra.
    + unfold Qclt, Qcle, Qcminus, Qcplus, Qcopp, Q2Qc in *. cbn [this] in *. rewrite !Qred_correct in *. change (Qred 1) with 1%Q.
      destruct Hd as [Hd|[->|Hd]].
      * pose proof (Hz _ _ Hd) as Hd'. split; [intros _|destruct (Z.even f); lia]. change (inject_Z (-1)) with (-1)%Q in Hd'. lra.
      * change (if Z.even (-1) then (-1)%Z else (-1 + 1)%Z) with 0%Z. split; [lia|]. change (inject_Z (-1)) with (-1)%Q in *. intros. exfalso. lra.
      * split; [destruct (Z.even f); lia|]. assert (inject_Z 0 <= inject_Z f)%Q by (rewrite <- Zle_Qle; auto). change (inject_Z 0) with 0%Q in *. intros. exfalso. lra.
Qed.

Lemma generate_outcome rn num degree t w_min w_max :
  (accepted num degree t w_min w_max /\ exists g, generate_structure rn num degree t w_min w_max = Ok g) \/
  (~ accepted num degree t w_min w_max /\ generate_structure rn num degree t w_min w_max = Err ValueError).
Proof.
  unfold generate_structure, accepted. destruct (num <? 2)%Z eqn:En; [apply Z.ltb_lt in En; right; split; auto; lia|]. apply Z.ltb_ge in En. cbv zeta.
  assert (C : qlt (Qcabs w_max) (Qcabs w_min) = true /\ ~ (Qcabs w_min <= Qcabs w_max)%Qc \/ qlt (Qcabs w_max) (Qcabs w_min) = false /\ (Qcabs w_min <= Qcabs w_max)%Qc).
  { unfold qlt. destruct (Qclt_le_dec (Qcabs w_max) (Qcabs w_min)) as [C|C]; auto. left. split; auto. apply Qclt_not_le. auto. }
  destruct C as [[-> C]|[-> C]]; [right; split; [tauto|reflexivity]|].
  assert (S : forall M : qmat, exists g, sm_of_matrix (Z.to_nat num) (flatten (Z.to_nat num) M) = Ok g) by (intros M; destruct (matrix_graph_fun (Z.to_nat num) M) as (g & Eg & _); eauto).
  destruct (String.eqb_spec t "erdos-renyi"); [left; split; [auto 6|apply S]|]. destruct (String.eqb_spec t "barabasi-albert").
  - pose proof (round_half_neg degree) as R. destruct (_ <? 0)%Z eqn:Em.
    + apply Z.ltb_lt in Em. right. split; auto. intros (_ & _ & [?|[?|[_ Q]]]); try congruence. apply R in Em. apply (Qclt_not_le _ _ Em Q).
    + apply Z.ltb_ge in Em. left. split; [|apply S]. split; auto. split; auto. right. right. split; auto. apply Qcnot_lt_le. intros Q. apply R in Q. lia.
  - destruct (String.eqb_spec t "full"); [left; split; [auto 6|apply S]|]. right. split; auto. intros (_ & _ & [?|[?|[? _]]]); congruence.
Qed.
