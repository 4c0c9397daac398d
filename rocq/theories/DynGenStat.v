(** * DynGenStat: gen_stationary_dyn_net_and_df. *)
From Coq Require Import List Bool Arith ZArith Lia String QArith Qcanon Permutation Sorted.
From Verif Require Import Base Names Digraph SmModel SmProofs QcX NetModel NotearsModel NotearsProofs TorchModel MapperModel MapperThms GenModel GenProofs DynGenModel DynGenProofs DynGenData DynGenNames DynGenThms.
Import ListNotations.
Local Open Scope string_scope.
Local Open Scope list_scope.
Local Open Scope nat_scope.

(** An edge within the present, and an edge from the past. *)
Definition has_intra (g : graph) (n : nat) : Prop := exists i v, i < n /\ In (slice_name i 0, v) (edges g).
Definition has_inter (g : graph) (n p : nat) : Prop := exists l i v, 1 <= l <= p /\ i < n /\ In (slice_name i l, v) (edges g).

Section Found.
  Variables (g : graph) (n p : nat).
  Hypothesis G : dyn_result g n p.

  Lemma intra_names_eq : intra_names g = Ok (ssort (present_text n)).
  Proof. unfold intra_names. destruct (generated_run g n p (dyn_nodes _ _ _ G)) as (-> & -> & _). rewrite node_texts_back. reflexivity. Qed.
  Lemma inter_names_eq : inter_names g = Ok (ssort (past_text n p)).
  Proof. unfold inter_names. destruct (generated_run g n p (dyn_nodes _ _ _ G)) as (-> & _ & ->). rewrite node_texts_back. reflexivity. Qed.

  Lemma starts_intra : existsb (starts_in (ssort (present_text n))) (edges g) = true <-> has_intra g n.
  Proof.
    rewrite existsb_exists. split.
    - intros ([u v] & H & Q). unfold starts_in in Q. cbn [fst] in Q. destruct u as [z|s]; [discriminate|]. apply smem_In, isort_In, in_map_iff in Q. destruct Q as (i & <- & Hi). apply in_seq in Hi. exists i, v. split; [lia|auto].
    - intros (i & v & Hi & H). exists (slice_name i 0, v). split; auto. cbn. apply smem_In, isort_In, in_map_iff. exists i. split; auto. apply in_seq. lia.
  Qed.
  Lemma starts_inter : existsb (starts_in (ssort (past_text n p))) (edges g) = true <-> has_inter g n p.
  Proof.
    rewrite existsb_exists. split.
    - intros ([u v] & H & Q). unfold starts_in in Q. cbn [fst] in Q. destruct u as [z|s]; [discriminate|]. apply smem_In, isort_In, in_flat_map in Q. destruct Q as (l & Hl & Q). apply in_map_iff in Q. destruct Q as (i & <- & Hi). apply in_seq in Hi, Hl. exists l, i, v. split; [lia|]. split; [lia|auto].
    - intros (l & i & v & Hl & Hi & H). exists (slice_name i l, v). split; auto. cbn. apply smem_In, isort_In, in_flat_map. exists l. split; [apply in_seq; lia|]. apply in_map_iff. exists i. split; auto. apply in_seq. lia.
  Qed.
End Found.

Definition suitable (g : graph) (n p : nat) (d1 d2 : Qc) : Prop := has_intra g n /\ has_inter g n p \/ d1 = 0%Qc \/ d2 = 0%Qc.

Lemma qnz_false x : qnz x = false <-> x = 0%Qc.
Proof. unfold qnz. destruct (Qc_eq_bool_spec x 0%Qc); cbn; split; congruence. Qed.

Section Inner.
  Variables (gen : nat -> res graph) (n p : nat) (d1 d2 : Qc).
  Hypothesis Hgen : forall k g, gen k = Ok g -> dyn_result g n p.

  Lemma suitable_iff g : dyn_result g n p ->
    (existsb (starts_in (ssort (present_text n))) (edges g) && existsb (starts_in (ssort (past_text n p))) (edges g)) || negb (qnz d1) || negb (qnz d2) = true <-> suitable g n p d1 d2.
  Proof.
    intros G. rewrite !orb_true_iff, andb_true_iff, !negb_true_iff, !qnz_false. rewrite (starts_intra g n), (starts_inter g n p). unfold suitable. tauto.
  Qed.

  Lemma find_step f k : find_graph (S f) gen d1 d2 k =
    match gen k with Err e => Err e | Ok g =>
      if (existsb (starts_in (ssort (present_text n))) (edges g) && existsb (starts_in (ssort (past_text n p))) (edges g)) || negb (qnz d1) || negb (qnz d2)
      then Ok (g, ssort (present_text n), ssort (past_text n p)) else find_graph f gen d1 d2 (S k) end.
  Proof.
    cbn [find_graph]. destruct (gen k) as [g|] eqn:E; cbn [bind]; auto. rewrite (intra_names_eq g n p (Hgen k g E)), (inter_names_eq g n p (Hgen k g E)). cbn [bind]. reflexivity.
  Qed.

  Lemma find_sound : forall f k g intra inter, find_graph f gen d1 d2 k = Ok (g, intra, inter) ->
    intra = ssort (present_text n) /\ inter = ssort (past_text n p) /\ (exists j, k <= j /\ gen j = Ok g) /\ suitable g n p d1 d2.
  Proof.
    induction f as [|f IH]; intros k g intra inter H; [discriminate|]. rewrite find_step in H. destruct (gen k) as [g0|] eqn:E; [|discriminate].
    destruct (_ || negb (qnz d2)) eqn:Q.
    - injection H as <- <- <-. split; auto. split; auto. split; [exists k; auto|]. apply (suitable_iff g0 (Hgen k g0 E)). auto.
    - destruct (IH _ _ _ _ H) as (-> & -> & (j & Hj & Ej) & Su). split; auto. split; auto. split; auto. exists j. split; [lia|auto].
  Qed.

  Lemma find_complete : (forall k, exists g, gen k = Ok g) -> forall f k, (exists j g, k <= j < k + f /\ gen j = Ok g /\ suitable g n p d1 d2) -> exists out, find_graph f gen d1 d2 k = Ok out.
  Proof.
    intros Hok. induction f as [|f IH]; intros k (j & g & Hj & Ej & Su); [lia|]. rewrite find_step. destruct (Hok k) as (g0 & E0). rewrite E0. destruct (_ || negb (qnz d2)) eqn:Q; [eauto|].
    apply IH. exists j, g. split; auto. destruct (Nat.eq_dec j k) as [->|]; [|lia]. exfalso. rewrite Ej in E0. injection E0 as ->. apply (suitable_iff g0 (Hgen k g0 Ej)) in Su. congruence.
  Qed.

  Lemma find_never : (forall k, exists g, gen k = Ok g /\ ~ suitable g n p d1 d2) -> forall f k, find_graph f gen d1 d2 k = Err OutOfFuel.
  Proof.
    intros H. induction f as [|f IH]; intros k; [reflexivity|]. rewrite find_step. destruct (H k) as (g & E & N). rewrite E. destruct (_ || negb (qnz d2)) eqn:Q; auto. exfalso. apply N, (suitable_iff g (Hgen k g E)). auto.
  Qed.
End Inner.

(** ** The trials *)
Section Trials.
  Variables (inner n p : nat) (gen : nat -> nat -> res graph) (data : nat -> graph -> res dframe) (broken : nat -> bool) (d1 d2 : Qc) (burn : nat).
  Hypothesis Hgen : forall i k g, gen i k = Ok g -> dyn_result g n p.

  Lemma trials_sound : forall f budget i g intra inter df rest, trials f inner gen data broken d1 d2 burn budget i = Ok (g, intra, inter, df, rest) ->
    intra = ssort (present_text n) /\ inter = ssort (past_text n p) /\ suitable g n p d1 d2 /\
    exists j k df0, i <= j /\ gen j k = Ok g /\ data j g = Ok df0 /\ df = drop_rows burn df0 /\ rest = (budget - 1 - Z.of_nat (j - i))%Z /\ (0 < rest -> broken j = false /\ moderate df = true)%Z.
  Proof.
    induction f as [|f IH]; intros budget i g intra inter df rest H; [discriminate|]. cbn [trials] in H.
    destruct (find_graph inner (gen i) d1 d2 0) as [[[g0 a] b]|] eqn:Ef; [|discriminate]. cbn [bind] in H. destruct (data i g0) as [df0|] eqn:Ed; [|discriminate]. cbn [bind] in H.
    destruct ((budget - 1 <=? 0)%Z || (negb (broken i) && moderate (drop_rows burn df0))) eqn:Q.
    - injection H as <- <- <- <- <-. destruct (find_sound (gen i) n p d1 d2 (Hgen i) _ _ _ _ _ Ef) as (-> & -> & (k & _ & Ek) & Su). split; auto. split; auto. split; auto.
      exists i, k, df0. split; auto. split; auto. split; auto. split; auto. split; [lia|]. intros L. apply orb_true_iff in Q. destruct Q as [Q|Q]; [apply Z.leb_le in Q; lia|]. apply andb_true_iff in Q. destruct Q as [Q1 Q2]. apply negb_true_iff in Q1. auto.
    - destruct (IH _ _ _ _ _ _ _ H) as (-> & -> & Su & j & k & df1 & Hj & Ek & Ed1 & -> & Er & Hr). split; auto. split; auto. split; auto. exists j, k, df1. split; [lia|]. split; auto. split; auto. split; auto. split; auto. lia.
  Qed.

  Lemma trials_done : (forall i k, exists g, gen i k = Ok g) -> (forall i g, dyn_result g n p -> exists df, data i g = Ok df) ->
    (forall i, exists k g, k < inner /\ gen i k = Ok g /\ suitable g n p d1 d2) ->
    forall f budget i, (Z.max 1 budget <= Z.of_nat f)%Z -> exists out, trials f inner gen data broken d1 d2 burn budget i = Ok out.
  Proof.
    intros Hg Hd Hs. induction f as [|f IH]; intros budget i L; [lia|]. cbn [trials].
    destruct (find_complete (gen i) n p d1 d2 (Hgen i) (Hg i) inner 0) as ([[g a] b] & Ef). { destruct (Hs i) as (k & g & Hk & Ek & Su). exists k, g. split; [lia|auto]. }
    rewrite Ef. cbn [bind]. destruct (find_sound (gen i) n p d1 d2 (Hgen i) _ _ _ _ _ Ef) as (_ & _ & (k & _ & Ek) & _). destruct (Hd i g (Hgen i k g Ek)) as (df0 & ->). cbn [bind].
    destruct (Z.leb_spec (budget - 1) 0) as [|Lb]; cbn [orb]; [eauto|]. destruct (negb (broken i) && _); [eauto|]. apply IH. lia.
  Qed.

  Lemma trials_never : (forall i k, exists g, gen i k = Ok g /\ ~ suitable g n p d1 d2) -> forall f budget i, trials f inner gen data broken d1 d2 burn budget i = Err OutOfFuel.
  Proof. intros H [|f] budget i; [reflexivity|]. cbn [trials]. rewrite (find_never (gen i) n p d1 d2 (Hgen i) (H i)). reflexivity. Qed.
End Trials.

Lemma repeat_In {A} (x y : A) n : In y (repeat x n) -> y = x.
Proof. intros H. apply repeat_spec in H. auto. Qed.

Section Stationary.
  Variables (order : qmat -> nat -> list nat) (rn : nat -> nat -> draws) (ri : nat -> nat -> idraws) (noise : nat -> qmat) (broken : nat -> bool)
    (num : Z) (n_samples p : nat) (d1 d2 : Qc) (t1 t2 : string) (wi1 wi2 wo1 wo2 dcy : Qc) (sem_type : string) (scale : Qc) (max_trials : Z).
  Let n := Z.to_nat num.
  Let gen i k := generate_structure_dynamic (rn i k) (ri i k) num p d1 d2 t1 t2 wi1 wi2 wo1 wo2 dcy.
  Let burn := Nat.max (n_samples / 10) 50.
  Let data i g := generate_dataframe_dynamic order (noise i) g (n_samples + burn) 100 sem_type scale None.
  Hypothesis Horder : forall w d, acyclic (mat_edges d w) -> topo_order w d (order w d).
  Hypothesis Wr : forall i k, wf_draws n (rn i k) /\ wf_idraws (ri i k).

  Let out f inner := gen_stationary f inner order rn ri noise broken num n_samples p d1 d2 t1 t2 wi1 wi2 wo1 wo2 dcy sem_type scale max_trials.

  Lemma gen_result i k g : gen i k = Ok g -> dyn_result g n p.
  Proof. intros E. destruct (Wr i k) as [W1 W2]. exact (dynamic_result _ _ _ _ _ _ _ _ _ _ _ _ _ _ W1 W2 E). Qed.

  Lemma dropped_rows i g df0 : dyn_result g n p -> data i g = Ok df0 -> List.length (df_rows (drop_rows burn df0)) = n_samples /\ df_cols df0 = ssort (present_text n) ++ ssort (past_text n p).
  Proof.
    intros G E. destruct (generated_shape order (noise i) g n p (n_samples + burn) 100 sem_type scale None G df0 E) as (_ & L & _).
    destruct (generated_good order (noise i) g n p (n_samples + burn) 100 sem_type scale None G df0 E) as (names & _ & _ & D). split; [|rewrite D; reflexivity].
    cbn [drop_rows df_rows]. rewrite skipn_length, L. unfold row_count. assert (B : 50 <= burn) by (unfold burn; lia). destruct (Nat.eqb_spec (n_samples + burn) 0); lia.
  Qed.

  Definition ones (df : dframe) : Prop := forall r x, In r (df_rows df) -> In x r -> x = 1%Qc.

  Lemma stationary_sound f inner g df intra inter : out f inner = Ok (g, df, intra, inter) ->
    dyn_result g n p /\ (exists j k, gen j k = Ok g) /\ suitable g n p d1 d2 /\ intra = ssort (present_text n) /\ inter = ssort (past_text n p) /\ df_cols df = intra ++ inter /\ List.length (df_rows df) = n_samples /\
    (forall r, In r (df_rows df) -> List.length r = List.length (df_cols df)) /\
    (forall r x, In r (df_rows df) -> In x r -> (Qcabs x < thousand)%Qc) /\
    ((exists j k, (Z.of_nat j + 1 < max_trials)%Z /\ gen j k = Ok g /\ broken j = false /\ exists df0, data j g = Ok df0 /\ df_rows df = skipn burn (df_rows df0)) \/ ones df).
  Proof.
    unfold out, gen_stationary. fold burn. fold gen. fold data. intros H.
    destruct (trials f inner gen data broken d1 d2 burn max_trials 0) as [[[[[g0 a] b] df1] rest]|] eqn:Et; [|discriminate]. cbn [bind] in H.
    destruct (trials_sound inner n p gen data broken d1 d2 burn gen_result _ _ _ _ _ _ _ _ Et) as (-> & -> & Su & j & k & df0 & _ & Ek & Ed & -> & Er & Hr).
    pose proof (gen_result j k g0 Ek) as G. destruct (dropped_rows j g0 df0 G Ed) as [Lr Ec]. destruct (Z.leb_spec rest 0) as [L|L].
    - destruct (Nat.eqb_spec (Z.to_nat num * (1 + p)) (List.length (ssort (present_text n) ++ ssort (past_text n p)))) as [El|]; [|discriminate]. injection H as <- <- <- <-.
      split; auto. split; [exists j, k; exact Ek|]. split; auto. split; auto. split; auto. cbn [df_cols df_rows]. split; auto. split; [apply repeat_length|]. split.
      + intros r Hr'. apply repeat_In in Hr'. subst r. rewrite repeat_length. auto.
      + split; [|right; unfold ones; cbn [df_rows]; intros r x H1 H2; apply repeat_In in H1; subst r; apply repeat_In in H2; auto].
        intros r x H1 H2. apply repeat_In in H1. subst r. apply repeat_In in H2. subst x. reflexivity.
    - injection H as <- <- <- <-. split; auto. split; [exists j, k; exact Ek|]. split; auto. split; auto. split; auto. split; [cbn [drop_rows df_cols]; auto|]. split; auto.
      destruct (generated_shape order (noise j) g0 n p (n_samples + burn) 100 sem_type scale None G df0 Ed) as (_ & _ & Lw). destruct (Hr L) as [Hb Hm]. split; [|split].
      + intros r H. cbn [drop_rows df_rows df_cols] in *. apply Lw. rewrite <- (firstn_skipn burn (df_rows df0)). apply in_or_app. auto.
      + intros r x H1 H2. unfold moderate in Hm. destruct (df_rows (drop_rows burn df0)) as [|r0 rs]; [discriminate|]. rewrite forallb_forall in Hm. specialize (Hm r H1). rewrite forallb_forall in Hm. apply qlt_iff, Hm. auto.
      + left. exists j, k. split; [lia|]. split; auto. split; auto. exists df0. split; auto.
  Qed.

  Lemma stationary_single f inner g df intra inter : (max_trials <= 1)%Z -> out f inner = Ok (g, df, intra, inter) -> ones df.
  Proof. intros L H. destruct (stationary_sound f inner g df intra inter H) as (_ & _ & _ & _ & _ & _ & _ & _ & _ & [(j & k & C & _)|O]); auto. lia. Qed.

  Hypothesis Ha : accepted num d1 t1 wi1 wi2.
  Hypothesis Hi : inter_ok t2 wo1 wo2.

  Lemma gen_ok i k : exists g, gen i k = Ok g.
  Proof.
    destruct (Wr i k) as [W1 W2]. destruct (dynamic_spec (rn i k) (ri i k) num p d1 d2 t1 t2 wi1 wi2 wo1 wo2 dcy W1 W2) as [(_ & _ & gi & g & w & _ & E & _)|[N _]]; [exists g; exact E|tauto].
  Qed.

  Lemma stationary_done f inner : In sem_type ["linear-gauss"; "linear-exp"; "linear-gumbel"] -> (0 <= scale)%Qc ->
    (forall i, exists k g, k < inner /\ gen i k = Ok g /\ suitable g n p d1 d2) -> (Z.max 1 max_trials <= Z.of_nat f)%Z -> exists r, out f inner = Ok r.
  Proof.
    intros Hs Hsc Hf L. unfold out, gen_stationary. fold burn. fold gen. fold data.
    destruct (trials_done inner n p gen data broken d1 d2 burn gen_result gen_ok) with (f := f) (budget := max_trials) (i := 0) as ([[[[g a] b] df] rest] & Et); auto.
    - intros i g G. apply (generated_frame order (noise i) g n p (n_samples + burn) 100 sem_type scale None G); auto.
    - rewrite Et. cbn [bind]. destruct (trials_sound inner n p gen data broken d1 d2 burn gen_result _ _ _ _ _ _ _ _ Et) as (-> & -> & _). destruct (rest <=? 0)%Z; eauto.
      rewrite app_length, present_text_length, past_text_length. fold n. replace (n * (1 + p)) with (n + p * n) by lia. rewrite Nat.eqb_refl. eauto.
  Qed.

  (** Without lags there is no edge from the past to be found. *)
  Lemma stationary_never f inner : p = 0 -> d1 <> 0%Qc -> d2 <> 0%Qc -> out f inner = Err OutOfFuel.
  Proof.
    intros Hp N1 N2. unfold out, gen_stationary. fold burn. fold gen. fold data. rewrite (trials_never inner n p gen data broken d1 d2 burn gen_result); [reflexivity|].
    intros i k. destruct (gen_ok i k) as (g & E). exists g. split; auto. intros [[_ (l & i' & v & Hl & _)]|[C|C]]; try contradiction. lia.
  Qed.
End Stationary.
