(** * DynGenThms: data of generated structures; labels of the lagged columns; the stationary generator. *)
From Coq Require Import List Bool Arith ZArith Lia String QArith Qcanon Permutation Sorted.
From Verif Require Import Base Names Digraph SmModel SmProofs QcX NetModel NotearsModel NotearsProofs TorchModel MapperModel MapperThms GenModel GenProofs DynGenModel DynGenProofs DynGenData DynGenNames.
Import ListNotations.
Local Open Scope string_scope.
Local Open Scope list_scope.
Local Open Scope nat_scope.

(** ** The names of a generated structure *)
Definition present_text (n : nat) : list string := map (fun v => lag_name (dec v) 0) (seq 0 n).
Definition past_text (n p : nat) : list string := flat_map (fun l => map (fun v => lag_name (dec v) l) (seq 0 n)) (seq 1 p).

Lemma names_text n p : past_names n p ++ present_names n = map LStr (past_text n p ++ present_text n).
Proof.
  rewrite map_app. unfold past_text, present_text, past_names, present_names. rewrite map_map. f_equal. generalize (seq 1 p) as ls. induction ls as [|l ls IH]; cbn; auto. rewrite map_app, map_map, IH. auto.
Qed.
Lemma present_current n : forall c, In c (present_text n) -> current c = true.
Proof. intros c H. apply in_map_iff in H. destruct H as (v & <- & _). apply current_lag0. Qed.
Lemma past_current n p : forall c, In c (past_text n p) -> current c = false.
Proof.
  intros c H. apply in_flat_map in H. destruct H as (l & Hl & H). apply in_seq in Hl. apply in_map_iff in H. destruct H as (v & <- & _). apply current_later; [lia|apply digits_free].
Qed.
Lemma filter_all {A} (f : A -> bool) l : (forall x, In x l -> f x = true) -> filter f l = l.
Proof. induction l as [|x l IH]; intros H; cbn; auto. rewrite (H x) by (cbn; auto). f_equal. apply IH. intros y Hy. apply H. cbn. auto. Qed.
Lemma filter_none {A} (f : A -> bool) l : (forall x, In x l -> f x = false) -> filter f l = [].
Proof. induction l as [|x l IH]; intros H; cbn; auto. rewrite (H x) by (cbn; auto). apply IH. intros y Hy. apply H. cbn. auto. Qed.

Lemma generated_run g n p : nodes g = past_names n p ++ present_names n -> run g (past_text n p ++ present_text n) (ssort (present_text n)) (ssort (past_text n p)).
Proof.
  intros E. split; [rewrite E; apply names_text|]. rewrite !filter_app. split; f_equal.
  - rewrite filter_none by apply past_current. rewrite filter_all by apply present_current. auto.
  - rewrite filter_all by (intros x Hx; rewrite (past_current n p x Hx); auto). rewrite filter_none by (intros x Hx; rewrite (present_current n x Hx); auto). rewrite app_nil_r. auto.
Qed.

Lemma present_text_length n : List.length (ssort (present_text n)) = n.
Proof. unfold ssort. rewrite isort_length. unfold present_text. rewrite map_length, seq_length. auto. Qed.
Lemma past_text_length n p : List.length (ssort (past_text n p)) = p * n.
Proof. unfold ssort. rewrite isort_length. apply length_blocks. intros i. rewrite map_length, seq_length. auto. Qed.

Lemma intra_acyclic g names intra inter : wf g -> run g names intra inter -> acyclic (edges g) -> acyclic (mat_edges (List.length intra) (intra_w g intra)).
Proof.
  intros Wg R Ac. pose proof (run_parts g Wg names intra inter R) as (ND & _ & _ & _). apply (acyclic_rank label_eqb label_eqb_spec) in Ac. destruct Ac as (rk & Hr).
  apply (acyclic_rank Nat.eqb Nat.eqb_spec). exists (fun i => rk (LStr (nth i intra ""))). intros i j H. unfold mat_edges in H. apply filter_In in H. destruct H as [_ Q]. cbn [fst snd] in Q. apply qnz_iff in Q.
  apply Hr. apply edges_In; auto. unfold intra_w, wnum in Q. destruct (edge_attrs g (LStr (nth i intra "")) (LStr (nth j intra ""))) as [a|]; [eauto|congruence].
Qed.

Lemma generated_numeric g : wf g -> (forall u v a, edge_attrs g u v = Some a -> exists w, aget a "weight" = Some (ANum w)) -> Forall (fun e => numeric (snd e) = Ok tt) (edges_data g).
Proof.
  intros Wg H. apply Forall_forall. intros [[u v] a] I. apply edges_data_In in I; auto. destruct (H u v a I) as (w & E). unfold numeric. cbn [snd]. rewrite E. auto.
Qed.

(** ** A generated structure *)
Record dyn_result (g : graph) (n p : nat) : Prop := mkDyn {
  dyn_wf : wf g;
  dyn_nodes : nodes g = past_names n p ++ present_names n;
  dyn_acyclic : acyclic (edges g);
  dyn_numeric : Forall (fun e => numeric (snd e) = Ok tt) (edges_data g);
  dyn_size : 2 <= n }.

Lemma dynamic_result rn ri num p d1 d2 t1 t2 wi1 wi2 wo1 wo2 dec g : wf_draws (Z.to_nat num) rn -> wf_idraws ri ->
  generate_structure_dynamic rn ri num p d1 d2 t1 t2 wi1 wi2 wo1 wo2 dec = Ok g -> dyn_result g (Z.to_nat num) p.
Proof.
  intros Wd Wi E. pose proof (dynamic_acyclic _ _ _ _ _ _ _ _ _ _ _ _ _ _ Wd Wi E) as Ac.
  destruct (dynamic_spec rn ri num p d1 d2 t1 t2 wi1 wi2 wo1 wo2 dec Wd Wi) as [(A0 & _ & gi & g' & w & Egi & Eg & Wg & Ng & _ & A)|[_ Eg]]; rewrite E in Eg; [|discriminate]. injection Eg as <-.
  constructor; auto.
  - apply generated_numeric; auto. intros u v a Ha. apply A in Ha. destruct Ha as [(l & i & j & _ & _ & _ & _ & _ & _ & _ & ->)|(i & j & _ & _ & _ & _ & Ha)]; [eexists; reflexivity|].
    destruct (generated_weights _ _ _ _ _ _ _ Egi Wd _ _ _ Ha) as (x & Ex & _). eauto.
  - destruct A0 as [L _]. lia.
Qed.

Section Data.
  Variables (order : qmat -> nat -> list nat) (noise : qmat) (g : graph) (n p n_samples burn_in : nat) (sem_type : string) (scale : Qc) (drift : option (list Qc)).
  Hypothesis Horder : forall w d, acyclic (mat_edges d w) -> topo_order w d (order w d).
  Hypothesis G : dyn_result g n p.

  Lemma generated_frame : In sem_type ["linear-gauss"; "linear-exp"; "linear-gumbel"] -> (0 <= scale)%Qc -> match drift with Some l => n <= List.length l | None => True end ->
    exists df, generate_dataframe_dynamic order noise g n_samples burn_in sem_type scale drift = Ok df.
  Proof.
    intros Hs Hsc Hd. pose proof (generated_run g n p (dyn_nodes _ _ _ G)) as R. pose proof (dyn_size _ _ _ G) as L.
    eapply (frame_ok order noise g n_samples burn_in sem_type scale drift _ _ _ p R). split; auto. rewrite present_text_length, past_text_length. split; [lia|]. split; auto. split.
    - rewrite <- (present_text_length n) at 1. eapply intra_acyclic; eauto using dyn_wf, dyn_acyclic.
    - split; [apply (dyn_numeric _ _ _ G)|]. intros _. auto.
  Qed.

  Variable df : dframe.
  Hypothesis E : generate_dataframe_dynamic order noise g n_samples burn_in sem_type scale drift = Ok df.

  Lemma generated_good : exists names, run g names (ssort (present_text n)) (ssort (past_text n p)) /\ good_call g n_samples burn_in sem_type scale drift (ssort (present_text n)) (ssort (past_text n p)) p /\
    df = mkDframe (ssort (present_text n) ++ ssort (past_text n p)) (map (fun xl => fst xl ++ snd xl) (last_rows n_samples (map (fun s => (the_row order noise g scale drift (ssort (present_text n)) (ssort (past_text n p)) s (lags_at (the_row order noise g scale drift (ssort (present_text n)) (ssort (past_text n p))) (List.length (ssort (present_text n))) p s), lags_at (the_row order noise g scale drift (ssort (present_text n)) (ssort (past_text n p))) (List.length (ssort (present_text n))) p s)) (seq 0 (n_samples + burn_in))))).
  Proof.
    destruct (frame_inv order noise g n_samples burn_in sem_type scale drift df E) as (names & intra & inter & q & R & C & D).
    pose proof (generated_run g n p (dyn_nodes _ _ _ G)) as R'. assert (names = past_text n p ++ present_text n).
    { destruct R as (E1 & _), R' as (E2 & _). rewrite E1 in E2. clear - E2. revert E2. generalize (past_text n p ++ present_text n) as m. induction names as [|x l IH]; intros [|y m] H; try discriminate; auto. cbn in H. injection H as -> H. f_equal. auto. }
    subst names. assert (intra = ssort (present_text n)) by (destruct R as (_ & -> & _), R' as (_ & R' & _); auto). assert (inter = ssort (past_text n p)) by (destruct R as (_ & _ & ->), R' as (_ & _ & R'); auto). subst intra inter.
    assert (q = p). { destruct C as (_ & L & Lr & _). rewrite present_text_length in L, Lr. rewrite past_text_length in Lr. apply Nat.mul_cancel_r in Lr; lia. } subst q.
    eexists. split; [exact R|]. split; auto.
  Qed.

  Lemma generated_shape : Permutation (map LStr (df_cols df)) (nodes g) /\ List.length (df_rows df) = row_count n_samples burn_in /\ (forall r, In r (df_rows df) -> List.length r = List.length (df_cols df)).
  Proof.
    destruct generated_good as (names & R & C & D). split; [|split].
    - rewrite D. cbn [df_cols]. apply (run_parts g (dyn_wf _ _ _ G) _ _ _ R).
    - erewrite frame_rows; eauto. rewrite map_length, seq_length. auto.
    - intros r Hr. erewrite frame_rows in Hr; eauto. apply in_map_iff in Hr. destruct Hr as (k & <- & _). rewrite app_length, the_row_length, lags_length by apply the_row_length. rewrite D. cbn [df_cols]. rewrite app_length, present_text_length, past_text_length. lia.
  Qed.

  (** With two lags the second lagged column is labelled as a past of variable 0 but is the past of another one. *)
  Lemma generated_mislabelled : 2 <= p -> exists K v, 1 <= K <= p /\ 1 <= v < n /\ forall k, k + 1 < List.length (df_rows df) -> value df (k + 1) (lag_name (dec 0) K) = value df k (lag_name (dec v) 0) /\ value df k (lag_name (dec v) 0) <> None.
  Proof.
    intros Hp. destruct generated_good as (names & R & C & D). pose proof (dyn_size _ _ _ G) as Ln. destruct generated_shape as (_ & Lr & _).
    pose proof (run_parts g (dyn_wf _ _ _ G) _ _ _ R) as (ND & _ & _ & _).
    assert (Sx : forall l, StronglySorted (fun a b => sleb a b = true) (ssort l)) by (intros l; unfold ssort; apply isort_sorted; [apply sleb_total|apply sleb_trans]).
    (* the second current column *)
    assert (A : exists v, 1 <= v < n /\ nth_error (ssort (present_text n)) 1 = Some (lag_name (dec v) 0)).
    { pose proof (present_text_length n) as L. destruct (ssort (present_text n)) as [|x0 [|x1 rest]] eqn:Es; try (cbn in L; lia).
      assert (I0 : In x0 (present_text n)) by (apply (isort_In sleb); fold ssort; rewrite Es; cbn; auto). assert (I1 : In x1 (present_text n)) by (apply (isort_In sleb); fold ssort; rewrite Es; cbn; auto).
      apply in_map_iff in I0, I1. destruct I0 as (v0 & <- & H0), I1 as (v1 & <- & H1). apply in_seq in H0, H1.
      assert (v0 = 0). { destruct (Nat.eq_dec v0 0); auto. exfalso. pose proof (Sx (present_text n)) as Sp. rewrite Es in Sp. clear L. inversion Sp as [|? ? _ F]; subst. rewrite Forall_forall in F.
        assert (Iz : In (lag_name (dec 0) 0) (present_text n)) by (apply in_map_iff; exists 0; split; auto; apply in_seq; lia). apply (isort_In sleb) in Iz. fold ssort in Iz. rewrite Es in Iz.
        destruct Iz as [Q|Iz]; [apply lag_name_inj in Q; destruct Q as [Q _]; apply dec_inj in Q; congruence|]. apply F in Iz. rewrite sleb_zero in Iz by auto. discriminate. }
      subst v0. exists v1. split; [|reflexivity]. split; [|lia]. destruct v1; [|lia]. exfalso. cbn [app] in ND. apply NoDup_cons_iff in ND. destruct ND as [N _]. apply N. cbn. auto. }
    (* the second lagged column *)
    assert (B : exists K, 1 <= K <= p /\ nth_error (ssort (past_text n p)) 1 = Some (lag_name (dec 0) K)).
    { pose proof (past_text_length n p) as L. destruct (ssort (past_text n p)) as [|x0 [|x1 rest]] eqn:Es; try (cbn in L; nia).
      assert (I1 : In x1 (past_text n p)) by (apply (isort_In sleb); fold ssort; rewrite Es; cbn; auto). apply in_flat_map in I1. destruct I1 as (K & HK & I1). apply in_map_iff in I1. destruct I1 as (v & <- & Hv). apply in_seq in HK, Hv.
      exists K. split; [lia|]. destruct (Nat.eq_dec v 0) as [->|Nv]; [reflexivity|]. exfalso.
      assert (Iz : forall l, 1 <= l <= p -> In (lag_name (dec 0) l) (lag_name (dec v) K :: rest) \/ x0 = lag_name (dec 0) l).
      { intros l Hl. assert (Iz : In (lag_name (dec 0) l) (past_text n p)) by (apply in_flat_map; exists l; split; [apply in_seq; lia|]; apply in_map_iff; exists 0; split; auto; apply in_seq; lia).
        apply (isort_In sleb) in Iz. fold ssort in Iz. rewrite Es in Iz. destruct Iz as [Q|Iz]; auto. }
      pose proof (Sx (past_text n p)) as Sp. rewrite Es in Sp.
      destruct (second_of_sorted x0 (lag_name (dec v) K) rest (lag_name (dec 0) 1) (lag_name (dec 0) 2) Sp) as [Q|Q].
      - destruct (Iz 1) as [H|H]; [lia|cbn; auto|rewrite H; cbn; auto].
      - destruct (Iz 2) as [H|H]; [lia|cbn; auto|rewrite H; cbn; auto].
      - intros Q. apply lag_name_inj in Q. lia.
      - rewrite sleb_zero in Q by auto. discriminate.
      - rewrite sleb_zero in Q by auto. discriminate. }
    destruct A as (v & Hv & Ev). destruct B as (K & HK & EK). exists K, v. split; auto. split; auto. intros k Hk. rewrite Lr in Hk. split.
    - replace (k + 1) with (k + 0 + 1) by lia. eapply (frame_lag order noise g n_samples burn_in sem_type scale drift df (dyn_wf _ _ _ G) names _ _ p R C D k 0 1); auto; try lia. rewrite present_text_length. lia.
    - erewrite (value_intra order noise g n_samples burn_in sem_type scale drift df (dyn_wf _ _ _ G) names _ _ p R C D k 1); eauto; [discriminate|lia].
  Qed.
End Data.

(** ** One lag, any names *)
Section OneLag.
  Variables (order : qmat -> nat -> list nat) (noise : qmat) (g : graph) (cs : list string) (n_samples burn_in : nat) (sem_type : string) (scale : Qc) (drift : option (list Qc)) (df : dframe).
  Hypothesis Wg : wf g.
  Hypothesis Free : forall c, In c cs -> ~ substring_of "_lag0" c.
  Hypothesis Hn : Permutation (nodes g) (map (fun c => LStr (lag_name c 0)) cs ++ map (fun c => LStr (lag_name c 1)) cs).
  Hypothesis E : generate_dataframe_dynamic order noise g n_samples burn_in sem_type scale drift = Ok df.

  Lemma one_lag_names names intra inter : run g names intra inter -> exists cs', Permutation cs cs' /\ intra = map (fun c => lag_name c 0) cs' /\ inter = map (fun c => lag_name c 1) cs'.
  Proof.
    intros (En & -> & ->). destruct (sorted_slices cs Free) as (cs' & P & E0 & E1). exists cs'. split; auto. rewrite <- E0, <- E1.
    assert (Pn : Permutation names (map (fun c => lag_name c 0) cs ++ map (fun c => lag_name c 1) cs)).
    { rewrite En in Hn. apply (Permutation_map (fun l => match l with LStr s => s | LInt _ => "" end)) in Hn. rewrite map_app, !map_map, map_id in Hn. exact Hn. }
    assert (C0 : forall x, In x (map (fun c => lag_name c 0) cs) -> current x = true) by (intros x Hx; apply in_map_iff in Hx; destruct Hx as (c & <- & _); apply current_lag0).
    assert (C1 : forall x, In x (map (fun c => lag_name c 1) cs) -> current x = false) by (intros x Hx; apply in_map_iff in Hx; destruct Hx as (c & <- & Hc); apply current_later; auto).
    assert (PF : forall f (l m : list string), Permutation l m -> Permutation (filter f l) (filter f m)).
    { intros f l m. induction 1 as [|x l m _ IH|x y l|l m o _ IH1 _ IH2]; cbn; auto; [destruct (f x); auto|destruct (f x), (f y); auto; constructor|etransitivity; eauto]. }
    split; apply ssort_perm_eq; (etransitivity; [apply (PF _ _ _ Pn)|]); rewrite filter_app.
    - rewrite filter_all by auto. rewrite filter_none by auto. rewrite app_nil_r. auto.
    - rewrite filter_none by (intros x Hx; rewrite C0; auto). rewrite filter_all by (intros x Hx; rewrite C1; auto). auto.
  Qed.

  Lemma one_lag c k : In c cs -> k + 1 < List.length (df_rows df) -> value df (k + 1) (lag_name c 1) = value df k (lag_name c 0) /\ value df k (lag_name c 0) <> None.
  Proof.
    intros Hc Hk. destruct (frame_inv order noise g n_samples burn_in sem_type scale drift df E) as (names & intra & inter & p & R & C & D).
    destruct (one_lag_names names intra inter R) as (cs' & P & Ei & Eo).
    assert (Lr : List.length (df_rows df) = row_count n_samples burn_in) by (erewrite frame_rows; eauto; rewrite map_length, seq_length; auto). rewrite Lr in Hk.
    apply (Permutation_in _ P) in Hc. apply In_nth_error in Hc. destruct Hc as (i & Hi).
    assert (Li : i < List.length cs') by (apply nth_error_Some; congruence).
    assert (E0 : nth_error intra i = Some (lag_name c 0)) by (rewrite Ei; erewrite map_nth_error; eauto). assert (E1 : nth_error inter i = Some (lag_name c 1)) by (rewrite Eo; erewrite map_nth_error; eauto).
    assert (Hp : p = 1). { destruct C as (_ & L & Lo & _). rewrite Ei, Eo, !map_length in *. nia. } subst p. split.
    - replace (k + 1) with (k + 0 + 1) by lia. eapply (frame_lag order noise g n_samples burn_in sem_type scale drift df Wg names _ _ 1 R C D k 0 i); auto; try lia. rewrite Ei, map_length. auto.
    - erewrite (value_intra order noise g n_samples burn_in sem_type scale drift df Wg names _ _ 1 R C D k i); eauto; [discriminate|lia].
  Qed.
End OneLag.

(** The structural equations of any accepted call. *)
Lemma any_equation order noise g n_samples burn_in sem_type scale drift df :
  (forall w d, acyclic (mat_edges d w) -> topo_order w d (order w d)) -> wf g ->
  generate_dataframe_dynamic order noise g n_samples burn_in sem_type scale drift = Ok df ->
  exists intra inter, df_cols df = intra ++ inter /\ Permutation (map LStr (df_cols df)) (nodes g) /\ Sorted (fun a b => sleb a b = true) intra /\
    (forall c, In c intra -> substring_of "_lag0" c) /\ (forall c, In c inter -> ~ substring_of "_lag0" c) /\ List.length (df_rows df) = row_count n_samples burn_in /\
    forall wt k j v, (forall u v, effect g u v (wt u v)) -> k < List.length (df_rows df) -> nth_error intra j = Some v ->
      value df k v = Some (drift_at drift j + Qsum (fun u => value0 df k u * wt u v) (df_cols df) + scale * noise (start_time n_samples burn_in + k)%nat j)%Qc.
Proof.
  intros Ho Wg E. destruct (frame_inv order noise g n_samples burn_in sem_type scale drift df E) as (names & intra & inter & p & R & C & D).
  assert (Lr : List.length (df_rows df) = row_count n_samples burn_in) by (erewrite frame_rows; eauto; rewrite map_length, seq_length; auto).
  destruct (run_parts g Wg _ _ _ R) as (_ & P & C0 & C1). exists intra, inter. split; [rewrite D; auto|]. split; [rewrite D; auto|]. split.
  - destruct R as (_ & -> & _). apply StronglySorted_Sorted. unfold ssort. apply isort_sorted; [apply sleb_total|apply sleb_trans].
  - split; [intros c Hc; apply contains_spec, C0; auto|]. split; [intros c Hc Q; apply contains_spec in Q; specialize (C1 c Hc); unfold current in C1; congruence|]. split; auto.
    intros wt k j v Hw Hk Hj. rewrite Lr in Hk. eapply frame_equation; eauto.
Qed.
