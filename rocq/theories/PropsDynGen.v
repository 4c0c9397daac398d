(** * PropsDynGen: dynamic structures and data (C46, C47, C71, C72). *)
From Coq Require Import List Bool Arith ZArith Lia String QArith Qcanon Permutation Sorted.
From Verif Require Import Base Names Digraph SmModel SmProofs QcX NotearsModel NotearsProofs TorchModel MapperThms GenModel GenProofs DynGenModel DynGenProofs DynGenData DynGenNames DynGenThms DynGenStat DynGenTopo.
Import ListNotations.
Local Open Scope string_scope.
Local Open Scope list_scope.
Local Open Scope nat_scope.

(** The label of variable [v] at lag [l]: "{v}_lag{l}". *)
Definition at_lag (v l : nat) : label := LStr (dec v ++ "_lag" ++ dec l)%string.

(** ** C46 *)

(** Either the arguments are acceptable and there is a structure, or there is a ValueError. *)
Theorem C46_outcome : forall rn ri num p d1 d2 t1 t2 wi1 wi2 wo1 wo2 decay, wf_draws (Z.to_nat num) rn -> wf_idraws ri ->
  let ok := accepted num d1 t1 wi1 wi2 /\ (wo1 <= wo2)%Qc /\ (t2 = "erdos-renyi" \/ t2 = "full") in
  (ok /\ exists g, generate_structure_dynamic rn ri num p d1 d2 t1 t2 wi1 wi2 wo1 wo2 decay = Ok g) \/
  (~ ok /\ generate_structure_dynamic rn ri num p d1 d2 t1 t2 wi1 wi2 wo1 wo2 decay = Err ValueError).
Proof.
  intros rn ri num p d1 d2 t1 t2 wi1 wi2 wo1 wo2 decay W1 W2 ok. destruct (dynamic_spec rn ri num p d1 d2 t1 t2 wi1 wi2 wo1 wo2 decay W1 W2) as [(A & I & gi & g & w & _ & E & _)|[N E]]; [left|right].
  - split; [split; auto|eauto].
  - split; auto.
Qed.
Print Assumptions C46_outcome.

(** All nodes are there; every edge ends in the present; its weight is of the slice's range, for the past divided
    by a power of the decay; there is no cycle. *)
Theorem C46_structure : forall rn ri num p d1 d2 t1 t2 wi1 wi2 wo1 wo2 decay g, wf_draws (Z.to_nat num) rn -> wf_idraws ri ->
  generate_structure_dynamic rn ri num p d1 d2 t1 t2 wi1 wi2 wo1 wo2 decay = Ok g ->
  let n := Z.to_nat num in
  NoDup (nodes g) /\ (forall x, In x (nodes g) <-> exists v l, v < n /\ l <= p /\ x = at_lag v l) /\ acyclic (edges g) /\
  forall u v a, edge_attrs g u v = Some a -> exists l i j q, l <= p /\ i < n /\ j < n /\ u = at_lag i l /\ v = at_lag j 0 /\
    aget a "weight" = Some (ANum q) /\ aget a "origin" = Some (AStr "unknown") /\ q <> 0%Qc /\
    (l = 0 -> (Qcabs wi1 <= Qcabs q)%Qc /\ (Qcabs q <= Qcabs wi2)%Qc) /\
    (1 <= l -> exists x, (wo1 <= x)%Qc /\ (x <= wo2)%Qc /\ (q = x / Qcpower decay (l - 1)%nat \/ q = - (x / Qcpower decay (l - 1)%nat))%Qc).
Proof.
  intros rn ri num p d1 d2 t1 t2 wi1 wi2 wo1 wo2 decay g W1 W2 E n. pose proof (dynamic_acyclic _ _ _ _ _ _ _ _ _ _ _ _ _ _ W1 W2 E) as Ac.
  destruct (dynamic_spec rn ri num p d1 d2 t1 t2 wi1 wi2 wo1 wo2 decay W1 W2) as [(_ & _ & gi & g' & w & Egi & Eg & Wg & Ng & Hw & A)|[_ Eg]]; rewrite E in Eg; [|discriminate]. injection Eg as <-.
  fold n in Ng, A, Hw. split; [apply (proj1 Wg)|]. split; [|split; auto].
  - intros x. rewrite Ng, in_app_iff, past_In, present_In. split.
    + intros [(l & v & Hl & Hv & ->)|(v & Hv & ->)]; [exists v, l|exists v, 0]; (split; [auto|split; [lia|reflexivity]]).
    + intros (v & l & Hv & Hl & ->). destruct l as [|l]; [right; exists v; auto|left]. exists (S l), v. split; [lia|auto].
  - intros u v a Ha. apply A in Ha. destruct Ha as [(l & i & j & Hl & Hi & Hj & -> & -> & _ & Nz & ->)|(i & j & Hi & Hj & -> & -> & Ha)].
    + exists l, i, j, (w l i j). split; [lia|]. split; auto. split; auto. split; [reflexivity|]. split; [reflexivity|]. split; [reflexivity|]. split; [reflexivity|]. split; auto. split; [lia|]. intros _. exact (Hw l i j Hi).
    + destruct (generated_weights _ _ _ _ _ _ _ Egi W1 _ _ _ Ha) as (q & Eq & Eo & Nq & R1 & R2). exists 0, i, j, q. split; [lia|]. split; auto. split; auto. split; [reflexivity|]. split; [reflexivity|]. split; auto. split; auto. split; auto. split; auto. lia.
Qed.
Print Assumptions C46_structure.

Lemma power_pos x k : (0 < x)%Qc -> (0 < Qcpower x k)%Qc.
Proof. intros H. induction k as [|k IH]; cbn; [reflexivity|]. replace 0%Qc with (0 * Qcpower x k)%Qc by ring. apply Qcmult_lt_compat_r; auto. Qed.

(** Within the present it is the structure that generate_structure returns; the past is connected completely when
    asked for, or when the degree is at least the number of variables. *)
Theorem C46_edges : forall rn ri num p d1 d2 t1 t2 wi1 wi2 wo1 wo2 decay g, wf_draws (Z.to_nat num) rn -> wf_idraws ri ->
  generate_structure_dynamic rn ri num p d1 d2 t1 t2 wi1 wi2 wo1 wo2 decay = Ok g ->
  let n := Z.to_nat num in
  (exists gi, generate_structure rn num d1 t1 wi1 wi2 = Ok gi /\ forall i j a, i < n -> j < n -> edge_attrs g (at_lag i 0) (at_lag j 0) = Some a <-> edge_attrs gi (LInt (Z.of_nat i)) (LInt (Z.of_nat j)) = Some a) /\
  ((t2 = "full" \/ t2 = "erdos-renyi" /\ (Q2Qc (inject_Z num) <= d2)%Qc) -> (0 < wo1)%Qc -> (0 < decay)%Qc ->
     forall l i j, 1 <= l <= p -> i < n -> j < n -> In (at_lag i l, at_lag j 0) (edges g)) /\
  (t2 = "erdos-renyi" -> (d2 <= 0)%Qc -> forall l i v, 1 <= l -> ~ In (at_lag i l, v) (edges g)).
Proof.
  intros rn ri num p d1 d2 t1 t2 wi1 wi2 wo1 wo2 decay g W1 W2 E n.
  destruct (dynamic_spec rn ri num p d1 d2 t1 t2 wi1 wi2 wo1 wo2 decay W1 W2) as [(Ac & _ & gi & g' & w & Egi & Eg & Wg & Ng & Hw & A)|[_ Eg]]; rewrite E in Eg; [|discriminate]. injection Eg as <-.
  fold n in Ng, A, Hw. assert (Hn : 2 <= n) by (destruct Ac as [L _]; unfold n; lia).
  assert (Pn : (0 < Q2Qc (inject_Z (Z.of_nat n)))%Qc).
  { unfold Qclt. cbn [this Q2Qc]. rewrite !Qred_correct. change 0%Q with (inject_Z 0). rewrite <- Zlt_Qlt. lia. }
  split; [|split].
  - exists gi. split; auto. intros i j a Hi Hj. rewrite A. split.
    + intros [(l & i' & j' & Hl & _ & _ & Q & _)|(i' & j' & _ & _ & Qi & Qj & H)].
      * exfalso. change (at_lag i 0) with (slice_name i 0) in Q. apply slice_inj in Q. lia.
      * change (at_lag i 0) with (slice_name i 0) in Qi. change (at_lag j 0) with (slice_name j 0) in Qj. apply slice_inj in Qi, Qj. destruct Qi as [-> _], Qj as [-> _]. exact H.
    + intros H. right. exists i, j. split; auto.
  - intros Ht Hlo Hdec l i j Hl Hi Hj. apply edges_In; auto. eexists. apply A. left. exists l, i, j. split; auto. split; auto. split; auto. split; [reflexivity|]. split; [reflexivity|]. split; [|split; [|reflexivity]].
    + destruct Ht as [Ht|[Ht D]]; [left; auto|right]. split; auto. destruct W2 as [_ He]. destruct (He ((l - 1) * n + i) j) as [_ Hlt]. eapply Qclt_le_trans; [exact Hlt|].
      assert (En : num = Z.of_nat n) by (destruct Ac as [L _]; unfold n; lia). rewrite En in D.
      apply (Qcmult_lt_0_le_reg_r _ _ (Q2Qc (inject_Z (Z.of_nat n)))); auto. unfold Qcdiv. rewrite <- Qcmult_assoc, (Qcmult_comm (/ _)%Qc), Qcmult_inv_r by (intros Q; rewrite Q in Pn; revert Pn; apply Qclt_irrefl || discriminate). rewrite Qcmult_1_l, Qcmult_1_r. exact D.
    + intros Q. destruct (Hw l i j Hi) as (x & Hx & _ & Hq). rewrite Q in Hq. assert (Px : (0 < x)%Qc) by exact (Qclt_le_trans _ _ _ Hlo Hx). assert (Pp : (0 < Qcpower decay (l - 1))%Qc) by (apply power_pos; auto).
      assert (Z : x = 0%Qc).
      { assert (Z' : (x / Qcpower decay (l - 1)%nat = 0)%Qc) by (destruct Hq as [Hq|Hq]; [auto|rewrite <- (Qcopp_involutive (x / Qcpower decay (l - 1)%nat)), <- Hq; reflexivity]).
        rewrite <- (Qcmult_div_r x (Qcpower decay (l - 1))) by (intros C; rewrite C in Pp; discriminate). rewrite Z'. ring. }
      rewrite Z in Px. discriminate.
  - intros Ht D l i v Hl H. apply edges_In in H; auto. destruct H as (a & Ha). apply A in Ha. destruct Ha as [(l' & i' & j & Hl' & _ & _ & Q & _ & Dr & _)|(i' & j & _ & _ & Q & _)].
    + destruct Dr as [C|[_ C]]; [congruence|]. destruct W2 as [_ He]. destruct (He ((l' - 1) * n + i') j) as [H0 _]. apply (Qcle_not_lt _ _ H0). eapply Qclt_le_trans; [exact C|].
      apply (Qcmult_lt_0_le_reg_r _ _ (Q2Qc (inject_Z (Z.of_nat n)))); auto. unfold Qcdiv. rewrite <- Qcmult_assoc, (Qcmult_comm (/ _)%Qc), Qcmult_inv_r by (intros Z; rewrite Z in Pn; discriminate). replace (0 * Q2Qc (inject_Z (Z.of_nat n)))%Qc with 0%Qc by ring. rewrite Qcmult_1_r. exact D.
    + change (at_lag i l) with (slice_name i l) in Q. apply slice_inj in Q. lia.
Qed.
Print Assumptions C46_edges.

(** ** C71: dynamic data follows the structure *)

(** What networkx promises about topological_sort. *)
Definition sorts (order : qmat -> nat -> list nat) : Prop := forall w d, acyclic (mat_edges d w) -> topo_order w d (order w d).

(** The columns are the nodes, the current ones first; there are as many rows as asked for; in each row the value of
    a current node is its drift plus the weighted values of its parents, current and lagged, plus its noise. *)
Theorem C71_equations_partial : forall order noise g n_samples burn_in sem_type scale drift df, sorts order -> wf g -> 0 < n_samples ->
  generate_dataframe_dynamic order noise g n_samples burn_in sem_type scale drift = Ok df ->
  exists intra inter, df_cols df = intra ++ inter /\ Permutation (map LStr (df_cols df)) (nodes g) /\ Sorted (fun a b => sleb a b = true) intra /\
    (forall c, In c intra -> substring_of "_lag0" c) /\ (forall c, In c inter -> ~ substring_of "_lag0" c) /\ List.length (df_rows df) = n_samples /\
    forall wt k j v, (forall u v, effect g u v (wt u v)) -> k < n_samples -> nth_error intra j = Some v ->
      value df k v = Some ((match drift with Some l => nth j l 0 | None => 0 end) + Qsum (fun u => value0 df k u * wt u v) (df_cols df) + scale * noise (burn_in + k)%nat j)%Qc.
Proof.
  intros order noise g n_samples burn_in sem_type scale drift df Ho Wg Hn E. destruct (any_equation order noise g n_samples burn_in sem_type scale drift df Ho Wg E) as (intra & inter & H1 & H2 & H3 & H4 & H5 & H6 & H7).
  unfold row_count, start_time in *. destruct (Nat.eqb_spec n_samples 0) as [->|_]; [lia|]. exists intra, inter. split; auto. split; auto. split; auto. split; auto. split; auto. split; auto.
  intros wt k j v Hw Hk Hj. rewrite <- H6 in Hk. exact (H7 wt k j v Hw Hk Hj).
Qed.
Print Assumptions C71_equations_partial.

(** Every generated structure is accepted. *)
Theorem C71_accepts : forall rn ri num p d1 d2 t1 t2 wi1 wi2 wo1 wo2 decay g order noise n_samples burn_in sem_type scale drift, wf_draws (Z.to_nat num) rn -> wf_idraws ri ->
  generate_structure_dynamic rn ri num p d1 d2 t1 t2 wi1 wi2 wo1 wo2 decay = Ok g ->
  In sem_type ["linear-gauss"; "linear-exp"; "linear-gumbel"] -> (0 <= scale)%Qc -> (forall l, drift = Some l -> Z.to_nat num <= List.length l) ->
  exists df, generate_dataframe_dynamic order noise g n_samples burn_in sem_type scale drift = Ok df.
Proof.
  intros rn ri num p d1 d2 t1 t2 wi1 wi2 wo1 wo2 decay g order noise n_samples burn_in sem_type scale drift W1 W2 E Hs Hsc Hd.
  apply (generated_frame order noise g (Z.to_nat num) p n_samples burn_in sem_type scale drift (dynamic_result _ _ _ _ _ _ _ _ _ _ _ _ _ _ W1 W2 E) Hs Hsc). destruct drift; auto.
Qed.
Print Assumptions C71_accepts.

(** Asking for no rows returns the rows that were to be discarded. *)
Theorem C71_no_samples_refuted : forall order noise g burn_in sem_type scale drift df, sorts order -> wf g ->
  generate_dataframe_dynamic order noise g 0 burn_in sem_type scale drift = Ok df -> List.length (df_rows df) = burn_in.
Proof. intros order noise g burn_in sem_type scale drift df Ho Wg E. destruct (any_equation order noise g 0 burn_in sem_type scale drift df Ho Wg E) as (intra & inter & _ & _ & _ & _ & _ & L & _). exact L. Qed.
Print Assumptions C71_no_samples_refuted.

(** ** C47: the labels of the lagged columns *)

(** With one lag every lagged column holds the current column of its variable one row earlier.
    Missing: more lags, for which the claim is false. *)
Theorem C47_one_lag_partial : forall order noise g cs n_samples burn_in sem_type scale drift df, wf g ->
  (forall c, In c cs -> ~ substring_of "_lag0" c) -> Permutation (nodes g) (map (fun c => LStr (c ++ "_lag0")%string) cs ++ map (fun c => LStr (c ++ "_lag1")%string) cs) ->
  generate_dataframe_dynamic order noise g n_samples burn_in sem_type scale drift = Ok df ->
  forall c k, In c cs -> k + 1 < List.length (df_rows df) -> exists q, value df (k + 1) (c ++ "_lag1")%string = Some q /\ value df k (c ++ "_lag0")%string = Some q.
Proof.
  intros order noise g cs n_samples burn_in sem_type scale drift df Wg Free Hn E c k Hc Hk. destruct (one_lag order noise g cs n_samples burn_in sem_type scale drift df Wg Free Hn E c k Hc Hk) as [H1 H2].
  change (lag_name c 1) with (c ++ "_lag1")%string in H1. change (lag_name c 0) with (c ++ "_lag0")%string in H1, H2. destruct (value df k (c ++ "_lag0")) as [q|]; [exists q; auto|congruence].
Qed.
Print Assumptions C47_one_lag_partial.

(** With two or more lags, in every data set of every generated structure a column labelled as a past of variable 0
    is the previous value of another variable. *)
Theorem C47_labels_refuted : forall rn ri num p d1 d2 t1 t2 wi1 wi2 wo1 wo2 decay g order noise n_samples burn_in sem_type scale drift df, wf_draws (Z.to_nat num) rn -> wf_idraws ri ->
  generate_structure_dynamic rn ri num p d1 d2 t1 t2 wi1 wi2 wo1 wo2 decay = Ok g -> 2 <= p ->
  generate_dataframe_dynamic order noise g n_samples burn_in sem_type scale drift = Ok df ->
  exists K v, 1 <= K <= p /\ 1 <= v < Z.to_nat num /\ forall k, k + 1 < List.length (df_rows df) ->
    exists q, value df (k + 1) ("0_lag" ++ dec K)%string = Some q /\ value df k (dec v ++ "_lag0")%string = Some q.
Proof.
  intros rn ri num p d1 d2 t1 t2 wi1 wi2 wo1 wo2 decay g order noise n_samples burn_in sem_type scale drift df W1 W2 Eg Hp E.
  destruct (generated_mislabelled order noise g (Z.to_nat num) p n_samples burn_in sem_type scale drift (dynamic_result _ _ _ _ _ _ _ _ _ _ _ _ _ _ W1 W2 Eg) df E Hp) as (K & v & HK & Hv & H).
  exists K, v. split; auto. split; auto. intros k Hk. destruct (H k Hk) as [H1 H2]. change (lag_name (dec 0) K) with ("0_lag" ++ dec K)%string in H1. change (lag_name (dec v) 0) with (dec v ++ "_lag0")%string in H1, H2.
  destruct (value df k (dec v ++ "_lag0")) as [q|]; [exists q; auto|congruence].
Qed.
Print Assumptions C47_labels_refuted.

(** ** C72: the stationary generator *)

(** A structure with edges in the present and from the past (unless a degree is zero), n_samples rows over its nodes,
    all values below 1000, either simulated from that structure in one of the trials before the last or constant. *)
Theorem C72_result_partial : forall fuel inner order rn ri noise broken num n_samples p d1 d2 t1 t2 wi1 wi2 wo1 wo2 decay sem_type scale max_trials g df intra inter,
  (forall i k, wf_draws (Z.to_nat num) (rn i k) /\ wf_idraws (ri i k)) ->
  gen_stationary fuel inner order rn ri noise broken num n_samples p d1 d2 t1 t2 wi1 wi2 wo1 wo2 decay sem_type scale max_trials = Ok (g, df, intra, inter) ->
  let n := Z.to_nat num in
  (exists i k, generate_structure_dynamic (rn i k) (ri i k) num p d1 d2 t1 t2 wi1 wi2 wo1 wo2 decay = Ok g) /\
  (d1 <> 0%Qc -> d2 <> 0%Qc -> (exists i v, In (at_lag i 0, v) (edges g)) /\ (exists l i v, 1 <= l /\ In (at_lag i l, v) (edges g))) /\
  df_cols df = intra ++ inter /\ Permutation (map LStr (df_cols df)) (nodes g) /\ (forall c, In c intra -> substring_of "_lag0" c) /\ (forall c, In c inter -> ~ substring_of "_lag0" c) /\
  List.length (df_rows df) = n_samples /\ (forall r, In r (df_rows df) -> List.length r = List.length (df_cols df)) /\ (forall r x, In r (df_rows df) -> In x r -> (Qcabs x < Q2Qc 1000)%Qc) /\
  ((exists i df0, (Z.of_nat i + 1 < max_trials)%Z /\ broken i = false /\ let burn := Nat.max (n_samples / 10) 50 in generate_dataframe_dynamic order (noise i) g (n_samples + burn) 100 sem_type scale None = Ok df0 /\ df_rows df = skipn burn (df_rows df0)) \/
   (forall r x, In r (df_rows df) -> In x r -> x = 1%Qc)).
Proof.
  intros fuel inner order rn ri noise broken num n_samples p d1 d2 t1 t2 wi1 wi2 wo1 wo2 decay sem_type scale max_trials g df intra inter W E n.
  destruct (stationary_sound order rn ri noise broken num n_samples p d1 d2 t1 t2 wi1 wi2 wo1 wo2 decay sem_type scale max_trials W fuel inner g df intra inter E) as (G & Gk & Su & -> & -> & Ec & Lr & Lw & Mod & Or). fold n in G, Su, Ec |- *.
  split; [exact Gk|]. split.
  - intros N1 N2. destruct Su as [[(i & v & _ & Hi) (l & i' & v' & Hl & _ & Hi')]|[C|C]]; try contradiction. split; [exists i, v; auto|]. exists l, i', v'. split; [lia|auto].
  - pose proof (run_parts g (dyn_wf _ _ _ G) _ _ _ (generated_run g n p (dyn_nodes _ _ _ G))) as (_ & P & C0 & C1).
    split; auto. split; [rewrite Ec; auto|]. split; [intros c Hc; apply contains_spec, C0; auto|]. split; [intros c Hc Q; apply contains_spec in Q; specialize (C1 c Hc); unfold current in C1; congruence|].
    split; auto. split; auto. split; auto. destruct Or as [(i & k' & Hi & _ & Hb & df0 & Ed & Er)|O]; [left|right; exact O]. exists i, df0. auto.
Qed.
Print Assumptions C72_result_partial.

(** It ends when a suitable structure turns up in every trial, after at most max_data_gen_trials trials.
    Missing: the probability that one turns up. *)
Theorem C72_ends_partial : forall fuel inner order rn ri noise broken num n_samples p d1 d2 t1 t2 wi1 wi2 wo1 wo2 decay sem_type scale max_trials,
  (forall i k, wf_draws (Z.to_nat num) (rn i k) /\ wf_idraws (ri i k)) -> accepted num d1 t1 wi1 wi2 -> (wo1 <= wo2)%Qc -> (t2 = "erdos-renyi" \/ t2 = "full") ->
  In sem_type ["linear-gauss"; "linear-exp"; "linear-gumbel"] -> (0 <= scale)%Qc ->
  (forall i, exists k g, k < inner /\ generate_structure_dynamic (rn i k) (ri i k) num p d1 d2 t1 t2 wi1 wi2 wo1 wo2 decay = Ok g /\ suitable g (Z.to_nat num) p d1 d2) ->
  (Z.max 1 max_trials <= Z.of_nat fuel)%Z ->
  exists r, gen_stationary fuel inner order rn ri noise broken num n_samples p d1 d2 t1 t2 wi1 wi2 wo1 wo2 decay sem_type scale max_trials = Ok r.
Proof.
  intros fuel inner order rn ri noise broken num n_samples p d1 d2 t1 t2 wi1 wi2 wo1 wo2 decay sem_type scale max_trials W Ha Hw Ht Hs Hsc Hf L.
  eapply stationary_done; eauto. split; auto.
Qed.
Print Assumptions C72_ends_partial.

(** With one trial the simulated data is always replaced by ones, whatever it is. *)
Theorem C72_last_trial_refuted : forall fuel inner order rn ri noise broken num n_samples p d1 d2 t1 t2 wi1 wi2 wo1 wo2 decay sem_type scale max_trials g df intra inter,
  (forall i k, wf_draws (Z.to_nat num) (rn i k) /\ wf_idraws (ri i k)) -> (max_trials <= 1)%Z ->
  gen_stationary fuel inner order rn ri noise broken num n_samples p d1 d2 t1 t2 wi1 wi2 wo1 wo2 decay sem_type scale max_trials = Ok (g, df, intra, inter) ->
  forall r x, In r (df_rows df) -> In x r -> x = 1%Qc.
Proof. intros fuel inner order rn ri noise broken num n_samples p d1 d2 t1 t2 wi1 wi2 wo1 wo2 decay sem_type scale max_trials g df intra inter W L E. exact (stationary_single order rn ri noise broken num n_samples p d1 d2 t1 t2 wi1 wi2 wo1 wo2 decay sem_type scale max_trials W fuel inner g df intra inter L E). Qed.
Print Assumptions C72_last_trial_refuted.

(** Without lags and with positive degrees it never ends. *)
Theorem C72_no_lags_refuted : forall fuel inner order rn ri noise broken num n_samples d1 d2 t1 t2 wi1 wi2 wo1 wo2 decay sem_type scale max_trials,
  (forall i k, wf_draws (Z.to_nat num) (rn i k) /\ wf_idraws (ri i k)) -> accepted num d1 t1 wi1 wi2 -> (wo1 <= wo2)%Qc -> (t2 = "erdos-renyi" \/ t2 = "full") -> d1 <> 0%Qc -> d2 <> 0%Qc ->
  gen_stationary fuel inner order rn ri noise broken num n_samples 0 d1 d2 t1 t2 wi1 wi2 wo1 wo2 decay sem_type scale max_trials = Err OutOfFuel.
Proof.
  intros fuel inner order rn ri noise broken num n_samples d1 d2 t1 t2 wi1 wi2 wo1 wo2 decay sem_type scale max_trials W Ha Hw Ht N1 N2.
  eapply stationary_never; eauto. split; auto.
Qed.
Print Assumptions C72_no_lags_refuted.

(** ** Examples: two variables, all edges, weights one *)
Definition ex_rn : draws := mkDraws (fun _ _ => 0%Qc) (fun _ _ => 0) [0; 1] (fun _ _ => 0%Qc) (fun _ _ => 1%Qc).
Definition ex_ri : idraws := mkIdraws (fun _ _ => 0%Qc) (fun _ _ _ => 0%Qc) (fun _ _ _ => 1%Qc).
Lemma ex_rn_wf : wf_draws 2 ex_rn.
Proof. split; [cbn; auto|]. split; intros i j; split; discriminate || reflexivity. Qed.
Lemma ex_ri_wf : wf_idraws ex_ri.
Proof. split; intros; split; discriminate || reflexivity. Qed.
Definition ex_structure (p : nat) : res graph := generate_structure_dynamic ex_rn ex_ri 2 p 1%Qc 1%Qc "full" "full" 1%Qc 1%Qc 1%Qc 1%Qc 1%Qc.
Definition ex_noise : qmat := fun t j => Q2Qc (inject_Z (Z.of_nat (10 * t + j))).
Definition ex_order : qmat -> nat -> list nat := order_of.
Lemma ex_sorts : sorts ex_order.
Proof. exact order_of_topo. Qed.

Example C46_run : exists g, ex_structure 2 = Ok g /\
  nodes g = map LStr ["0_lag1"; "1_lag1"; "0_lag2"; "1_lag2"; "0_lag0"; "1_lag0"] /\
  edges g = map (fun uv => (LStr (fst uv), LStr (snd uv)))
    [("0_lag1", "0_lag0"); ("0_lag1", "1_lag0"); ("1_lag1", "0_lag0"); ("1_lag1", "1_lag0"); ("0_lag2", "0_lag0"); ("0_lag2", "1_lag0"); ("1_lag2", "0_lag0"); ("1_lag2", "1_lag0"); ("1_lag0", "0_lag0")].
Proof. eexists. split; [vm_compute; reflexivity|]. split; vm_compute; reflexivity. Qed.

Definition ints (df : dframe) : list (list Z) := map (map (fun q => Qnum (this q))) (df_rows df).

(** Three rows of data: the columns are sorted by name, the lagged values are stored lag by lag. *)
Definition ex_frame (p : nat) : res dframe := do g <- ex_structure p; generate_dataframe_dynamic ex_order ex_noise g 3 0 "linear-gauss" 1%Qc None.
Example C47_run : exists df, ex_frame 2 = Ok df /\
  df_cols df = ["0_lag0"; "1_lag0"; "0_lag1"; "0_lag2"; "1_lag1"; "1_lag2"] /\
  ints df = [[1; 1; 0; 0; 0; 0]; [25; 13; 1; 1; 0; 0]; [121; 61; 25; 13; 1; 1]]%Z /\
  value df 2 "0_lag2" <> value df 0 "0_lag0" /\ value df 2 "0_lag2" = value df 1 "1_lag0".
Proof. eexists. split; [vm_compute; reflexivity|]. split; [reflexivity|]. split; [vm_compute; reflexivity|]. split; vm_compute; [discriminate|reflexivity]. Qed.

Example C47_one_lag_run : exists df, ex_frame 1 = Ok df /\ df_cols df = ["0_lag0"; "1_lag0"; "0_lag1"; "1_lag1"] /\
  ints df = [[1; 1; 0; 0]; [25; 13; 1; 1]; [117; 59; 25; 13]]%Z.
Proof. eexists. split; [vm_compute; reflexivity|]. split; [reflexivity|vm_compute; reflexivity]. Qed.

(** Noise that starts with the last two rows; with two trials the first one is returned, with one trial it is discarded. *)
Definition late : qmat := fun t _ => if t <? 150 then 0%Qc else 1%Qc.
Definition ex_stationary (p : nat) (max_trials : Z) : res (graph * dframe * list string * list string) :=
  gen_stationary 3 1 ex_order (fun _ _ => ex_rn) (fun _ _ => ex_ri) (fun _ => late) (fun _ => false) 2 2 p 1%Qc 1%Qc "full" "full" 1%Qc 1%Qc 1%Qc 1%Qc 1%Qc "linear-gauss" 1%Qc max_trials.
Definition ints_of (r : res (graph * dframe * list string * list string)) : list (list Z) := match r with Ok (_, df, _, _) => ints df | Err _ => [] end.
Example C72_two_trials : ints_of (ex_stationary 1 2) = [[2; 1; 0; 0]; [8; 4; 2; 1]]%Z.
Proof. vm_compute. reflexivity. Qed.
Example C72_one_trial : ints_of (ex_stationary 1 1) = [[1; 1; 1; 1]; [1; 1; 1; 1]]%Z.
Proof. vm_compute. reflexivity. Qed.
Example C72_no_lags : ex_stationary 0 2 = Err OutOfFuel.
Proof. vm_compute. reflexivity. Qed.

(** The structure of the examples is suitable. *)
Lemma ex_suitable : exists g, ex_structure 1 = Ok g /\ suitable g 2 1 1%Qc 1%Qc.
Proof.
  eexists. split; [vm_compute; reflexivity|]. left. split.
  - exists 1, (LStr "0_lag0"). split; [lia|]. vm_compute. tauto.
  - exists 1, 0, (LStr "0_lag0"). split; [lia|]. split; [lia|]. vm_compute. tauto.
Qed.
