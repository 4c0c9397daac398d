(** * NetEquiv: Markov equivalent structures, fitted on the same data, answer every query alike. *)
From Coq Require Import List Bool Arith ZArith Lia String QArith Qcanon Permutation Relations.
From Verif Require Import Base QcX Digraph BbnModel SumOver SmModel SmProofs SmHist SmThms NetModel NetProofs NetFit NetThms NetBridge.
From Verif Require Kruskal InferModel InferSpec InferProofs InferEngine InferOps InferMain InferThms MarkovEq.
Import ListNotations.
Local Open Scope list_scope.

(** ** Specification *)

(** An edge between [x] and [y], in either direction. *)
Definition adjacent (g : graph) (x y : label) : Prop := In (x, y) (edges g) \/ In (y, x) (edges g).

(** [x -> z <- y] with no edge between [x] and [y]. *)
Definition v_structure (g : graph) (x z y : label) : Prop :=
  In (x, z) (edges g) /\ In (y, z) (edges g) /\ x <> y /\ ~ adjacent g x y.

Definition markov_equivalent (g g' : graph) : Prop :=
  (forall x, In x (nodes g) <-> In x (nodes g')) /\
  (forall x y, adjacent g x y <-> adjacent g' x y) /\
  (forall x z y, v_structure g x z y <-> v_structure g' x z y).

(** The whole way from a structure and data to an engine: BayesianNetwork(g), fit_node_states(d),
    fit_cpds(d, method, prior and ess), InferenceEngine(bn). *)
Definition trained (g : graph) (d : df) method prior ess (e : InferModel.eng) : Prop :=
  exists b0 b1 b2 fs, bn_init g = Ok b0 /\ fit_node_states b0 d = (b1, Ok tt) /\
    fit_cpds b1 d method prior ess = (b2, Ok tt) /\ cpds b2 = Ok fs /\ InferModel.engine_new (as_input b2 fs) = Ok e.

(** ** Counting the rows that agree with a world on some nodes *)
Section Local.
  Local Open Scope Qc_scope.
  Context (L : string -> list label) (rows : list (list (string * option label))) (w : string -> label).

  Definition agree (U : list string) : nat := List.length (filter (fun r => forallb (fun u => holds r u (w u)) U) rows).

  Lemma agree_perm U U' : Permutation U U' -> agree U = agree U'.
  Proof.
    intros P. unfold agree. f_equal. apply filter_ext. intros r. induction P; cbn; try congruence.
    destruct (holds r x (w x)), (holds r y (w y)); auto.
  Qed.
  Lemma agree_sub U U' : incl U U' -> (agree U' <= agree U)%nat.
  Proof.
    intros I. unfold agree. induction rows as [|r rs IH]; cbn; auto.
    destruct (forallb _ U') eqn:Q.
    - replace (forallb (fun u => holds r u (w u)) U) with true; [cbn; lia|].
      symmetry. apply forallb_forall. intros u Hu. rewrite forallb_forall in Q. auto.
    - destruct (forallb _ U); cbn; lia.
  Qed.

  Lemma occ_agree ps : occurrences rows ps (map w ps) = agree ps.
  Proof.
    unfold occurrences, agree. f_equal. apply filter_ext. intros r. unfold all_hold.
    induction ps as [|p ps IH]; cbn; auto. rewrite IH. auto.
  Qed.
  Lemma occw_agree v ps : occurrences_with rows v (w v) ps (map w ps) = agree (v :: ps).
  Proof.
    unfold occurrences_with, agree. f_equal. apply filter_ext. intros r. cbn. f_equal. unfold all_hold.
    induction ps as [|p ps IH]; cbn; auto. rewrite IH. auto.
  Qed.

  Definition cells (P : list string) : nat := List.length (product (map L P)).
  Lemma cells_cons v P : cells (v :: P) = (List.length (L v) * cells P)%nat.
  Proof. unfold cells. rewrite !product_length. auto. Qed.
  Lemma cells_perm P P' : Permutation P P' -> cells P = cells P'.
  Proof.
    unfold cells. rewrite !product_length. induction 1; cbn; try congruence. lia.
  Qed.
  Lemma cells_pos P : (forall v, In v P -> L v <> []) -> (0 < cells P)%nat.
  Proof.
    induction P as [|v P IH]; intros H; [cbn; lia|]. rewrite cells_cons.
    assert (0 < List.length (L v))%nat by (specialize (H v (or_introl eq_refl)); destruct (L v); [congruence|cbn; lia]).
    assert (0 < cells P)%nat by (apply IH; intros; apply H; right; auto). nia.
  Qed.

  Definition mle_local (v : string) (P : list string) : Qc :=
    if (agree P =? 0)%nat then 1 / Qc_of_nat (List.length (L v)) else Qc_of_nat (agree (v :: P)) / Qc_of_nat (agree P).
  Definition bdeu_local (e : Qc) (v : string) (P : list string) : Qc :=
    let x := e / Qc_of_nat (List.length (L v) * cells P) in
    (Qc_of_nat (agree (v :: P)) + x) / (Qc_of_nat (agree P) + Qc_of_nat (List.length (L v)) * x).

  Lemma mle_perm v P P' : Permutation P P' -> mle_local v P = mle_local v P'.
  Proof.
    intros H. unfold mle_local. rewrite (agree_perm P P' H), (agree_perm (v :: P) (v :: P')) by (constructor; auto). auto.
  Qed.
  Lemma bdeu_perm e v P P' : Permutation P P' -> bdeu_local e v P = bdeu_local e v P'.
  Proof.
    intros H. unfold bdeu_local. rewrite (agree_perm P P' H), (agree_perm (v :: P) (v :: P')), (cells_perm P P' H) by (constructor; auto). auto.
  Qed.

  Lemma div_chain a b c : b <> 0 -> a / b * (c / a) = (if Qc_eq_dec a 0 then 0 else c / b).
  Proof.
    intros B. destruct (Qc_eq_dec a 0) as [->|A]; [unfold Qcdiv; ring|]. field. auto.
  Qed.

  Lemma mle_swap a b P : mle_local a P * mle_local b (a :: P) = mle_local b P * mle_local a (b :: P).
  Proof.
    unfold mle_local. pose proof (agree_perm (a :: b :: P) (b :: a :: P) (perm_swap b a P)) as Sw.
    pose proof (agree_sub P (a :: P) (fun x H => or_intror H)) as A1.
    pose proof (agree_sub P (b :: P) (fun x H => or_intror H)) as B1.
    pose proof (agree_sub (b :: P) (a :: b :: P) (fun x H => or_intror H)) as B2.
    pose proof (agree_sub (a :: P) (b :: a :: P) (fun x H => or_intror H)) as A2.
    rewrite Sw in *. destruct (Nat.eqb_spec (agree P) 0) as [Z|Z].
    - destruct (Nat.eqb_spec (agree (a :: P)) 0), (Nat.eqb_spec (agree (b :: P)) 0); try lia. ring.
    - destruct (Nat.eqb_spec (agree (a :: P)) 0) as [Za|Za], (Nat.eqb_spec (agree (b :: P)) 0) as [Zb|Zb].
      + rewrite Za, Zb, Qc_of_nat_0. unfold Qcdiv. ring.
      + replace (agree (b :: a :: P)) with 0%nat by lia. rewrite Za, Qc_of_nat_0. unfold Qcdiv. ring.
      + replace (agree (b :: a :: P)) with 0%nat by lia. rewrite Zb, Qc_of_nat_0. unfold Qcdiv. ring.
      + pose proof (Qc_of_nat_pos (agree P) ltac:(lia)). pose proof (Qc_of_nat_pos (agree (a :: P)) ltac:(lia)).
        pose proof (Qc_of_nat_pos (agree (b :: P)) ltac:(lia)). field. auto.
  Qed.

  Definition weight (e : Qc) (U : list string) : Qc := Qc_of_nat (agree U) + e / Qc_of_nat (cells U).
  Lemma bdeu_weight e v P : (forall u, In u (v :: P) -> L u <> []) -> bdeu_local e v P = weight e (v :: P) / weight e P.
  Proof.
    intros H. unfold bdeu_local, weight. rewrite cells_cons. f_equal. f_equal.
    rewrite Qc_of_nat_mul.
    pose proof (Qc_of_nat_pos (cells P) (cells_pos P (fun u Hu => H u (or_intror Hu)))).
    assert (Qc_of_nat (List.length (L v)) <> 0).
    { apply Qc_of_nat_pos. specialize (H v (or_introl eq_refl)). destruct (L v); [congruence|cbn; lia]. }
    field. auto.
  Qed.
  Lemma weight_nonzero e U : 0 < e -> (forall u, In u U -> L u <> []) -> weight e U <> 0.
  Proof.
    intros He H. pose proof (Qc_of_nat_lt (cells U) (cells_pos U H)) as C. pose proof (Qc_of_nat_nonneg (agree U)) as A.
    assert (0 < e / Qc_of_nat (cells U)).
    { apply Qcnot_le_lt. intros Le. apply (Qclt_not_le _ _ He).
      assert (E : e = e / Qc_of_nat (cells U) * Qc_of_nat (cells U)) by (field; apply Qc_of_nat_pos, cells_pos; auto).
      rewrite E, <- (Qcmult_0_l (Qc_of_nat (cells U))). apply Qcmult_le_compat_r; auto. apply Qclt_le_weak; auto. }
    unfold weight. intros Z. apply (Qclt_not_eq 0 (weight e U)); [|symmetry; exact Z].
    apply Qclt_le_trans with (0 + e / Qc_of_nat (cells U)); [rewrite Qcplus_0_l; auto|]. apply Qcplus_le_compat; [auto|apply Qcle_refl].
  Qed.
  Lemma bdeu_swap e a b P : 0 < e -> (forall u, In u (a :: b :: P) -> L u <> []) ->
    bdeu_local e a P * bdeu_local e b (a :: P) = bdeu_local e b P * bdeu_local e a (b :: P).
  Proof.
    intros He H. rewrite !bdeu_weight by (intros u Hu; apply H; cbn in *; tauto).
    unfold weight at 3. rewrite (agree_perm (b :: a :: P) (a :: b :: P)), (cells_perm (b :: a :: P) (a :: b :: P)) by apply perm_swap.
    fold (weight e (a :: b :: P)).
    pose proof (weight_nonzero e P He ltac:(intros; apply H; cbn; auto)).
    pose proof (weight_nonzero e (a :: P) He ltac:(intros; apply H; cbn in *; tauto)).
    pose proof (weight_nonzero e (b :: P) He ltac:(intros; apply H; cbn in *; tauto)). field. auto.
  Qed.
End Local.

(** ** The learned network *)
Definition equivalent_way (method : string) (prior : option string) (ess : option Qc) : Prop :=
  method = "MaximumLikelihoodEstimator"%string \/
  method = "BayesianEstimator"%string /\ prior = Some "BDeu"%string /\ exists e, ess = Some e /\ (0 < e)%Qc.

Lemma equivalent_sound method prior ess : equivalent_way method prior ess -> sound_way method prior ess.
Proof. intros [->|(-> & -> & e & -> & He)]; [left; auto|right; split; auto; right; eauto]. Qed.

Section Learned.
  Import InferSpec InferMain.
  Local Open Scope Qc_scope.
  Context (S : list (string * list label)) (b b' : bn) (d : df) (method : string) (prior : option string) (ess : option Qc).
  Context (EW : equivalent_way method prior ess).
  Context (NDn : NoDup (b_nodes b)) (NDn' : NoDup (b_nodes b')) (NDe : NoDup (b_edges b)) (NDe' : NoDup (b_edges b')).
  Context (SameN : forall x, In x (b_nodes b) <-> In x (b_nodes b')).
  Context (Inn : forall x y, In (x, y) (b_edges b) -> In x (b_nodes b) /\ In y (b_nodes b)).
  Context (Inn' : forall x y, In (x, y) (b_edges b') -> In x (b_nodes b') /\ In y (b_nodes b')).
  Context (NES : forall v, In v (b_nodes b) -> declared S v <> []).
  Context (AC : acyclic (b_edges b)) (AC' : acyclic (b_edges b')).

  Definition has (c : bn) : MarkovEq.gr := fun x y => existsb (fun e => String.eqb (fst e) x && String.eqb (snd e) y) (b_edges c).
  Lemma has_In c x y : has c x y = true <-> In (x, y) (b_edges c).
  Proof.
    unfold has. rewrite existsb_exists. split.
    - intros ([u v] & H & E). cbn in E. apply andb_true_iff in E as [E1 E2]. apply String.eqb_eq in E1. apply String.eqb_eq in E2. subst. auto.
    - intros H. exists (x, y). split; auto. cbn. rewrite !String.eqb_refl. auto.
  Qed.
  Lemma has_ranked c : acyclic (b_edges c) -> MarkovEq.ranked (has c).
  Proof.
    intros A. apply (acyclic_rank String.eqb String.eqb_spec) in A as (r & H). exists r. intros x y X. apply H, has_In; auto.
  Qed.

  Definition V := ssort (b_nodes b).
  Lemma V_same : ssort (b_nodes b') = V.
  Proof. symmetry. apply ssort_perm_eq, NoDup_Permutation; auto. Qed.
  Lemma V_In x : In x V <-> In x (b_nodes b).
  Proof. split; apply Permutation_in; [|symmetry]; apply ssort_Perm. Qed.

  Lemma parents_perm c v : NoDup (b_edges c) -> (forall x y, In (x, y) (b_edges c) -> In x V /\ In y V) ->
    Permutation (ssort (get_parents c v)) (MarkovEq.pa V (has c) v).
  Proof.
    intros ND I. transitivity (get_parents c v); [apply ssort_Perm|]. apply NoDup_Permutation.
    - unfold get_parents. clear I. induction (b_edges c) as [|[x y] es IH]; cbn; [constructor|]. inversion ND as [|? ? N1 N2]; subst.
      destruct (String.eqb_spec y v) as [->|]; cbn; auto. constructor; auto. intros H. apply in_map_iff in H as ([u z] & E & H).
      apply filter_In in H as [H Z]. cbn in *. apply String.eqb_eq in Z. subst. auto.
    - apply NoDup_filter, ssort_NoDup; auto.
    - intros u. unfold MarkovEq.pa. rewrite filter_In, has_In, get_parents_In. split; [|tauto]. intros H. split; auto. apply (I u v); auto.
  Qed.

  Definition local (w : string -> label) (v : string) (P : list string) : Qc :=
    frequency (asked_smoothing method prior ess (List.length (declared S v)) (List.length (product (map (declared S) P))))
      (declared S) (filter (usable (declared S) (b_nodes b)) (d_rows d)) v P (w v) (map w P).

  Lemma local_cases w :
    (forall v P, local w v P = mle_local (declared S) (filter (usable (declared S) (b_nodes b)) (d_rows d)) w v P) \/
    exists e, 0 < e /\ forall v P, local w v P = bdeu_local (declared S) (filter (usable (declared S) (b_nodes b)) (d_rows d)) w e v P.
  Proof.
    unfold local, asked_smoothing. destruct EW as [->|(-> & -> & e & -> & He)]; cbn [String.eqb Ascii.eqb Bool.eqb].
    - left. intros v P. unfold frequency, mle_local. rewrite occ_agree, occw_agree. auto.
    - right. exists e. split; auto. intros v P. unfold frequency, bdeu_local, cells. rewrite occ_agree, occw_agree. auto.
  Qed.

  Lemma local_perm w v P P' : In v V -> Permutation P P' -> local w v P = local w v P'.
  Proof.
    intros _ H. destruct (local_cases w) as [E|(e & He & E)]; rewrite !E; [apply mle_perm|apply bdeu_perm]; auto.
  Qed.
  Lemma local_swap w x y P : In x V -> In y V -> incl P V -> NoDup (x :: y :: P) ->
    local w x P * local w y (x :: P) = local w y P * local w x (y :: P).
  Proof.
    intros Hx Hy I _. destruct (local_cases w) as [E|(e & He & E)]; rewrite !E; [apply mle_swap|]. apply bdeu_swap; auto.
    intros u [<-|[<-|Hu]]; apply NES, V_In; auto.
  Qed.

  Lemma joint_total c w : ssort (b_nodes c) = V -> (forall r, usable (declared S) (b_nodes c) r = usable (declared S) (b_nodes b) r) ->
    NoDup (b_edges c) -> (forall x y, In (x, y) (b_edges c) -> In x V /\ In y V) ->
    joint (learned S c d method prior ess) w = MarkovEq.total V (local (at_ w)) (has c).
  Proof.
    intros EV EU ND I. unfold joint, learned, MarkovEq.total. rewrite EV.
    rewrite (filter_ext _ _ EU).
    assert (G : forall l, incl l V -> Qprod (fun vc => prob (snd vc) (at_ w (fst vc)) (map (at_ w) (parents (snd vc))))
        (map (fun v => (v, mkCpd (declared S v) (ssort (get_parents c v))
            (frequency (asked_smoothing method prior ess (List.length (declared S v)) (List.length (product (map (declared S) (ssort (get_parents c v))))))
               (declared S) (filter (usable (declared S) (b_nodes b)) (d_rows d)) v (ssort (get_parents c v))))) l) =
      Qprod (fun v => local (at_ w) v (MarkovEq.pa V (has c) v)) l).
    { induction l as [|v l IH]; intros Il; auto. unfold Qprod in *. cbn [map fold_right fst snd prob parents].
      rewrite IH by (intros z Hz; apply Il; right; auto). f_equal.
      rewrite <- (local_perm (at_ w) v (ssort (get_parents c v))); auto; [apply Il; left; auto|]. apply parents_perm; auto. }
    apply G. apply incl_refl.
  Qed.

  Lemma usable_same r : usable (declared S) (b_nodes b') r = usable (declared S) (b_nodes b) r.
  Proof.
    unfold usable. apply eq_true_iff_eq. rewrite !forallb_forall. split; intros H v Hv; apply H, SameN; auto.
  Qed.

  Lemma learned_worlds : all_worlds (learned S b d method prior ess) = all_worlds (learned S b' d method prior ess).
  Proof.
    apply same_worlds. unfold learned. rewrite V_same. fold V. generalize V. intros l. induction l; cbn; constructor; auto.
  Qed.

  Lemma learned_joint w : MarkovEq.markov (has b) (has b') ->
    joint (learned S b d method prior ess) w = joint (learned S b' d method prior ess) w.
  Proof.
    intros M.
    assert (I : forall x y, In (x, y) (b_edges b) -> In x V /\ In y V).
    { intros x y H. rewrite !V_In. auto. }
    assert (I' : forall x y, In (x, y) (b_edges b') -> In x V /\ In y V).
    { intros x y H. rewrite !V_In, !SameN. auto. }
    rewrite (joint_total b w), (joint_total b' w); auto; [|apply V_same|apply usable_same].
    apply MarkovEq.markov_total; auto.
    - apply local_perm.
    - intros. apply local_swap; auto.
    - apply ssort_NoDup; auto.
    - apply has_ranked; auto.
    - apply has_ranked; auto.
    - intros x y H. apply has_In in H. auto.
  Qed.

  Lemma learned_cond obs v s : MarkovEq.markov (has b) (has b') ->
    cond_prob (learned S b d method prior ess) obs v s = cond_prob (learned S b' d method prior ess) obs v s.
  Proof.
    intros M. assert (E : forall P, Pr (learned S b d method prior ess) P = Pr (learned S b' d method prior ess) P).
    { intros P. unfold Pr. rewrite <- learned_worlds. apply Qsum_ext. intros w _. apply learned_joint; auto. }
    unfold cond_prob, Pr_and. rewrite !E. auto.
  Qed.
End Learned.

(** The states come from the data alone. *)
Lemma fit_states_value b d b1 : fit_node_states b d = (b1, Ok tt) -> NoDup (d_cols d) ->
  b_states b1 = Some (map (fun ns => (fst ns, number (lsort (drop_none (snd ns)))))
    (map (fun c => (c, unique olabel_eqb (map (fun r => at_col r c) (d_rows d)))) (d_cols d))).
Proof.
  intros E ND. destruct (states_fitted b d ND) as (Ef & DA & _). rewrite Ef in E.
  destruct (set_states_spec b _ DA) as [(_ & X)|[(_ & _ & X)|[(_ & _ & _ & X)|(_ & _ & X)]]]; rewrite X in E; try congruence.
  injection E as <-. auto.
Qed.

Lemma fit_cpds_keeps b d method prior ess b2 : fit_cpds b d method prior ess = (b2, Ok tt) -> b_states b2 = b_states b.
Proof.
  intros E. pose proof (fit_cpds_cases b d method prior ess) as C. destruct (b_states b) as [st|] eqn:Q; [|congruence].
  destruct (forallb _ _); [|congruence]. destruct (way method prior ess); [|destruct C as (x & C); congruence].
  rewrite C in E. injection E as <-. auto.
Qed.

Lemma trained_parts g d method prior ess b0 b1 b2 : reached g -> named g -> NoDup (d_cols d) ->
  bn_init g = Ok b0 -> fit_node_states b0 d = (b1, Ok tt) -> fit_cpds b1 d method prior ess = (b2, Ok tt) -> net_ok b2.
Proof.
  intros R N ND E0 E1 E2. apply reached_net_ok. exists g, [FitStates d; FitCpds d method prior ess].
  split; [auto|]. split; [auto|]. split; [constructor; [exact ND|constructor; [exact I|constructor]]|].
  exists b0. split; [auto|]. unfold nrun. cbn [fold_left nstep]. rewrite E1. cbn [fst]. rewrite E2. auto.
Qed.

Lemma adjacent_linked g g' : (forall x y, adjacent g x y <-> adjacent g' x y) -> forall x y, linked (edges g) x y -> linked (edges g') x y.
Proof.
  intros H x y P. induction P as [x y P|x|x y P IH|x y z P IH Q JH].
  - destruct (proj1 (H x y) (or_introl P)) as [K|K]; [apply rst_step; auto|apply rst_sym, rst_step; auto].
  - apply rst_refl.
  - apply rst_sym; auto.
  - eapply rst_trans; eauto.
Qed.

Theorem equivalent_answers g g' d method prior ess : reached g -> named g -> reached g' -> named g' ->
  acyclic (edges g) -> acyclic (edges g') -> all_linked g -> edges g <> [] -> markov_equivalent g g' ->
  (forall x, In (LStr x) (nodes g) -> In x (d_cols d) /\ InferModel.is_identifier x = true /\ x <> "self"%string) ->
  complete d -> equivalent_way method prior ess ->
  exists e e', trained g d method prior ess e /\ trained g' d method prior ess e' /\
    forall sc sc' obs, Kruskal.good_sched sc -> Kruskal.good_sched sc' -> NoDup (map fst obs) ->
      (forall v x, In (v, x) obs -> In (LStr v) (nodes g) /\ exists row, In row (d_rows d) /\ at_col row v = Some x) ->
      exists r r', InferModel.engine_query sc e obs = Ok r /\ InferModel.engine_query sc' e' obs = Ok r' /\
        forall v s, In (LStr v) (nodes g) -> (exists row, In row (d_rows d) /\ at_col row v = Some s) ->
          exists p, InferEngine.answer r v s = Some p /\ InferEngine.answer r' v s = Some p.
Proof.
  intros R N R' N' AC AC' AL NE (MN & MA & MV) Names CD EW.
  assert (AL' : all_linked g').
  { intros x y Hx Hy. apply (adjacent_linked g g' MA), AL; apply MN; auto. }
  assert (NE' : edges g' <> []).
  { destruct (edges g) as [|[u v] es] eqn:Q; [congruence|]. intros Z.
    assert (X : adjacent g u v) by (left; rewrite Q; left; auto). apply MA in X. unfold adjacent in X. rewrite Z in X. destruct X as [[]|[]]. }
  assert (Names' : forall x, In (LStr x) (nodes g') -> In x (d_cols d) /\ InferModel.is_identifier x = true /\ x <> "self"%string).
  { intros x Hx. apply Names, MN; auto. }
  destruct (data_to_answers g d method prior ess R N AC AL NE Names CD (equivalent_sound _ _ _ EW))
    as (b0 & b1 & b2 & S & fs & e & E0 & E1 & ES & E2 & Ec & Ee & HE & HN & HS & HU & HQ).
  destruct (data_to_answers g' d method prior ess R' N' AC' AL' NE' Names' CD (equivalent_sound _ _ _ EW))
    as (b0' & b1' & b2' & S' & fs' & e' & E0' & E1' & ES' & E2' & Ec' & Ee' & HE' & HN' & HS' & HU' & HQ').
  pose proof (trained_parts g d method prior ess b0 b1 b2 R N (proj1 CD) E0 E1 E2) as NO.
  pose proof (trained_parts g' d method prior ess b0' b1' b2' R' N' (proj1 CD) E0' E1' E2') as NO'.
  assert (SS : S' = S).
  { pose proof (fit_states_value _ _ _ E1 (proj1 CD)) as V1. pose proof (fit_states_value _ _ _ E1' (proj1 CD)) as V1'.
    pose proof (fit_cpds_keeps _ _ _ _ _ _ E2) as K. pose proof (fit_cpds_keeps _ _ _ _ _ _ E2') as K'.
    unfold node_states in ES, ES'. rewrite K, V1 in ES. rewrite K', V1' in ES'. congruence. }
  subst S'. exists e, e'. split; [exists b0, b1, b2, fs; auto|]. split; [exists b0', b1', b2', fs'; auto|].
  assert (SameN : forall x, In x (b_nodes b2) <-> In x (b_nodes b2')).
  { intros x. rewrite HN, HN'. apply MN. }
  assert (Inn : forall c, net_ok c -> forall x y, In (x, y) (b_edges c) -> In x (b_nodes c) /\ In y (b_nodes c)).
  { intros c NOc x y H. rewrite !(no_touch _ NOc). split; [exists y; auto|exists x; auto]. }
  assert (NES : forall v, In v (b_nodes b2) -> declared S v <> []).
  { intros v Hv X. apply HN in Hv. destruct (Names v Hv) as [Hc _]. destruct CD as (_ & NR & Full & _).
    destruct (d_rows d) as [|r rs] eqn:Er; [congruence|]. destruct (at_col r v) as [s|] eqn:Ea.
    - assert (Y : In s (declared S v)) by (apply HS; auto; exists r; split; [left; auto|auto]). rewrite X in Y. destruct Y.
    - apply (Full r v (or_introl eq_refl)); auto. }
  assert (LB : forall x y, MarkovEq.linked (has b2) x y <-> adjacent g (LStr x) (LStr y)).
  { intros x y. unfold MarkovEq.linked, adjacent. rewrite !has_In, !HE. tauto. }
  assert (LB' : forall x y, MarkovEq.linked (has b2') x y <-> adjacent g' (LStr x) (LStr y)).
  { intros x y. unfold MarkovEq.linked, adjacent. rewrite !has_In, !HE'. tauto. }
  assert (M : MarkovEq.markov (has b2) (has b2')).
  { split.
    - intros x y. rewrite LB, LB'. apply MA.
    - intros x z y. unfold MarkovEq.collider. rewrite LB, LB', !has_In, !HE, !HE'. specialize (MV (LStr x) (LStr z) (LStr y)).
      unfold v_structure in MV.
      split; intros (A & B & C & D); [destruct (proj1 MV) as (A' & B' & C' & D')|destruct (proj2 MV) as (A' & B' & C' & D')];
        repeat split; auto; congruence. }
  assert (Seen : forall v x, In (LStr v) (nodes g) -> (exists row, In row (d_rows d) /\ at_col row v = Some x) -> In v (b_nodes b2) /\ In x (declared S v)).
  { intros v x Hv Hx. split; [apply HN; auto|]. apply HS; auto. apply (Names v Hv). }
  intros sc sc' obs G G' ND HO.
  destruct (HQ sc obs G ND) as (r & Eq & _ & Ans); [intros v x H; destruct (HO v x H); apply Seen; auto|].
  destruct (HQ' sc' obs G' ND) as (r' & Eq' & _ & Ans').
  { intros v x H. destruct (HO v x H) as [H1 H2]. destruct (Seen v x H1 H2). split; auto. apply SameN; auto. }
  exists r, r'. split; [auto|]. split; [auto|]. intros v s Hv Hs. destruct (Seen v s Hv Hs) as [Iv Is].
  exists (InferMain.cond_prob (learned S b2 d method prior ess) obs v s). split; [apply Ans; auto|].
  rewrite Ans' by (auto; apply SameN; auto). f_equal. symmetry.
  apply learned_cond; auto; try apply NO; try apply NO'; apply Inn; auto.
Qed.
