(** * NetBayes: what the Bayesian estimator does to the tables and to the answers. *)
From Coq Require Import List Bool Arith ZArith Lia String QArith Qcanon Permutation Relations.
From Verif Require Import Base QcX Digraph SmModel SmProofs SmHist SmThms NetModel NetProofs NetFit NetThms NetBridge NetMle NetEquiv NetMoral.
From Verif Require Kruskal InferModel InferSpec InferProofs InferEngine InferOps InferMain.
Import ListNotations.
Local Open Scope Qc_scope.
Local Open Scope list_scope.

(** The Bayesian estimator with the K2 prior, or with BDeu and a positive equivalent sample size. *)
Definition bayes_way (prior : option string) (ess : option Qc) : Prop :=
  prior = Some "K2"%string \/ prior = Some "BDeu"%string /\ exists e, ess = Some e /\ 0 < e.

Lemma bayes_sound prior ess : bayes_way prior ess -> sound_way "BayesianEstimator" prior ess.
Proof. intros H. right. auto. Qed.

(** How many rows the prior is worth for one column of a table with [n] states and [m] columns. *)
Definition prior_rows (prior : option string) (ess : option Qc) (n m : nat) : Qc :=
  match prior, ess with
  | Some "K2"%string, _ => Qc_of_nat n
  | _, Some e => e / Qc_of_nat m
  | _, None => 0
  end.

Lemma Qc_mul_pos (x y : Qc) : 0 < x -> 0 < y -> 0 < x * y.
Proof. intros. rewrite <- (Qcmult_0_l y). apply Qcmult_lt_compat_r; auto. Qed.
Lemma Qc_inv_pos (x : Qc) : 0 < x -> 0 < / x.
Proof.
  intros H. destruct (Qclt_le_dec 0 (/ x)) as [|Z]; auto. exfalso.
  assert (x * / x <= 0). { rewrite <- (Qcmult_0_r x), (Qcmult_comm x (/ x)), (Qcmult_comm x 0). apply Qcmult_le_compat_r; auto. apply Qclt_le_weak; auto. }
  rewrite Qcmult_inv_r in H0 by (intros ->; apply (Qclt_not_eq _ _ H); auto). revert H0. apply Qclt_not_le. reflexivity.
Qed.
Lemma Qc_pos_nz (x : Qc) : 0 < x -> x <> 0.
Proof. intros H ->. apply (Qclt_not_eq _ _ H). auto. Qed.
Lemma Qc_nat_pos n : (0 < n)%nat -> 0 < Qc_of_nat n.
Proof. intros H. pose proof (Qc_of_nat_pos n) as P. destruct (Qclt_le_dec 0 (Qc_of_nat n)) as [|Z]; auto. exfalso. apply (P H). apply Qcle_antisym; auto. apply Qc_of_nat_nonneg. Qed.
Lemma Qc_add_pos (x y : Qc) : 0 <= x -> 0 < y -> 0 < x + y.
Proof. intros H K. apply (Qcle_lt_trans _ x); auto. apply Qclt_minus_iff. replace (x + y + - x) with y by ring. auto. Qed.

Lemma bayes_pseudo prior ess n m : bayes_way prior ess -> (0 < n)%nat -> (0 < m)%nat ->
  exists x, asked_smoothing "BayesianEstimator" prior ess n m = Pseudo x /\ 0 < x /\ Qc_of_nat n * x = prior_rows prior ess n m.
Proof.
  intros B Hn Hm. unfold asked_smoothing, prior_rows. cbn [String.eqb Ascii.eqb Bool.eqb]. destruct B as [->|(-> & e & -> & He)].
  - exists 1. split; auto. split; [reflexivity|ring].
  - exists (e / Qc_of_nat (n * m)). split; auto. pose proof (Qc_nat_pos n Hn) as Pn. pose proof (Qc_nat_pos m Hm) as Pm. rewrite Qc_of_nat_mul. split.
    + apply Qc_mul_pos; auto. apply Qc_inv_pos, Qc_mul_pos; auto.
    + field. split; apply Qc_pos_nz; auto.
Qed.

Lemma prior_rows_pos prior ess n m : bayes_way prior ess -> (0 < n)%nat -> (0 < m)%nat -> 0 < prior_rows prior ess n m.
Proof. intros B Hn Hm. destruct (bayes_pseudo prior ess n m B Hn Hm) as (x & _ & Px & <-). apply Qc_mul_pos; auto. apply Qc_nat_pos; auto. Qed.

Lemma pseudo_pos x L rows v ps s u : 0 < x -> L v <> [] -> 0 < frequency (Pseudo x) L rows v ps s u.
Proof.
  intros Px Hv. unfold frequency. apply Qc_mul_pos; [apply Qc_add_pos; auto; apply Qc_of_nat_nonneg|].
  apply Qc_inv_pos, Qc_add_pos; [apply Qc_of_nat_nonneg|]. apply Qc_mul_pos; auto. apply Qc_nat_pos. destruct (L v); [congruence|cbn; lia].
Qed.

(** ** Tables: a mixture of the frequencies and the uniform distribution *)
Lemma occw_le rows v s ps u : (occurrences_with rows v s ps u <= occurrences rows ps u)%nat.
Proof.
  unfold occurrences, occurrences_with. induction rows as [|r rows IH]; cbn; auto.
  destruct (holds r v s), (all_hold r ps u); cbn; lia.
Qed.

Lemma mixture x L rows v ps s u : 0 < x -> L v <> [] ->
  let k := Qc_of_nat (occurrences rows ps u) in let n := Qc_of_nat (List.length (L v)) in
  frequency (Pseudo x) L rows v ps s u = k / (k + n * x) * frequency MLE L rows v ps s u + n * x / (k + n * x) * (1 / n).
Proof.
  intros Px Hv k n. unfold frequency. fold k n.
  assert (Pn : 0 < n) by (apply Qc_nat_pos; destruct (L v); [congruence|cbn; lia]).
  assert (Pk : 0 <= k) by apply Qc_of_nat_nonneg.
  assert (Pd : 0 < k + n * x) by (apply Qc_add_pos; auto; apply Qc_mul_pos; auto).
  pose proof (Qc_pos_nz _ Pn) as Zn. pose proof (Qc_pos_nz _ Pd) as Zd.
  destruct (Nat.eqb_spec (occurrences rows ps u) 0) as [Z|NZ].
  - pose proof (occw_le rows v s ps u) as Le. replace (occurrences_with rows v s ps u) with 0%nat by lia. rewrite Qc_of_nat_0.
    assert (k = 0) as Ek by (unfold k; rewrite Z; apply Qc_of_nat_0). rewrite Ek in *. pose proof (Qc_pos_nz _ Px) as Zx. field. auto.
  - assert (Zk : k <> 0) by (apply Qc_of_nat_pos; lia). field. auto.
Qed.

(** Two fits to the same data: [k] is the number of rows that show the parents' states [u]; the prior is worth [c]
    rows that are spread evenly over the states. *)
Theorem shrinkage b d prior ess prior' ess' S b1 b2 fs1 fs2 : reached_net b -> node_states b = Ok S ->
  (forall v, In v (b_nodes b) -> declared S v <> []) -> incl (b_nodes b) (d_cols d) -> bayes_way prior ess ->
  fit_cpds b d "MaximumLikelihoodEstimator" prior' ess' = (b1, Ok tt) -> cpds b1 = Ok fs1 ->
  fit_cpds b d "BayesianEstimator" prior ess = (b2, Ok tt) -> cpds b2 = Ok fs2 ->
  map fst fs1 = map fst fs2 /\
  forall v f1 f2, In (v, f1) fs1 -> In (v, f2) fs2 -> f_index f1 = f_index f2 /\ f_names f1 = f_names f2 /\ f_columns f1 = f_columns f2 /\
    forall u s, In u (f_columns f1) -> In s (f_index f1) ->
      let n := List.length (f_index f1) in
      let k := Qc_of_nat (occurrences (filter (usable (declared S) (b_nodes b)) (d_rows d)) (f_names f1) u) in
      let c := prior_rows prior ess n (List.length (f_columns f1)) in
      0 < c /\ 0 < cell_of f2 s u /\ cell_of f2 s u = k / (k + c) * cell_of f1 s u + c / (k + c) * (1 / Qc_of_nat n).
Proof.
  intros R NS NE I B E1 C1 E2 C2.
  destruct (fit_frames b d "MaximumLikelihoodEstimator" prior' ess' S R NS NE I (or_introl eq_refl)) as (b1' & F1 & _ & _ & _ & G1).
  destruct (fit_frames b d "BayesianEstimator" prior ess S R NS NE I (bayes_sound _ _ B)) as (b2' & F2 & _ & _ & _ & G2).
  destruct (fit_spec b d "MaximumLikelihoodEstimator" prior' ess' S R NS NE I (or_introl eq_refl)) as (b1'' & fs1' & F1' & G1' & _ & _ & _ & _ & Sp1).
  destruct (fit_spec b d "BayesianEstimator" prior ess S R NS NE I (bayes_sound _ _ B)) as (b2'' & fs2' & F2' & G2' & _ & _ & _ & P2 & Sp2).
  rewrite E1 in F1, F1'. injection F1 as <-. injection F1' as <-. rewrite E2 in F2, F2'. injection F2 as <-. injection F2' as <-.
  rewrite C1 in G1, G1'. injection G1' as <-. rewrite C2 in G2, G2'. injection G2' as <-. injection G1 as G1. injection G2 as G2.
  split; [rewrite G1, G2, !map_map; auto|]. intros v f1 f2 H1 H2.
  pose proof (Sp1 v f1 H1) as (X1 & _ & _ & _ & _ & Y1). pose proof (Sp2 v f2 H2) as (X2 & _ & _ & _ & _ & Y2).
  assert (Hv : In v (b_nodes b)) by (apply (Permutation_in _ P2); apply in_map_iff; exists (v, f2); auto).
  assert (Q1 : f1 = fitted_frame_of S b d "MaximumLikelihoodEstimator" prior' ess' v).
  { rewrite G1 in H1. apply in_map_iff in H1. destruct H1 as (v' & [= <- <-] & _). auto. }
  assert (Q2 : f2 = fitted_frame_of S b d "BayesianEstimator" prior ess v).
  { rewrite G2 in H2. apply in_map_iff in H2. destruct H2 as (v' & [= <- <-] & _). auto. }
  assert (QN : f_names f1 = f_names f2) by (rewrite Q1, Q2; auto). assert (QC : f_columns f1 = f_columns f2) by (rewrite Q1, Q2; auto).
  split; [congruence|]. split; [auto|]. split; [auto|]. intros u s Hu Hs. cbv zeta. rewrite X1 in *.
  destruct (Y1 u Hu) as [Z1 _]. destruct (Z1 s Hs) as [Z1' _]. rewrite QC in Hu. destruct (Y2 u Hu) as [Z2 _]. destruct (Z2 s Hs) as [Z2' _].
  assert (Pn : (0 < List.length (declared S v))%nat) by (specialize (NE v Hv); destruct (declared S v); [congruence|cbn; lia]).
  assert (Pm : (0 < List.length (f_columns f2))%nat) by (destruct (f_columns f2); [destruct Hu|cbn; lia]).
  split; [apply prior_rows_pos; auto; rewrite QC; auto|].
  destruct (bayes_pseudo prior ess _ _ B Pn Pm) as (x & Ex & Px & Ec). rewrite Z1', Z2', Ex, QC, <- Ec.
  split; [apply pseudo_pos; auto|]. rewrite QN. apply mixture; auto.
Qed.

(** ** Answers: nothing is excluded *)
Lemma world_with (N : InferSpec.net) a : NoDup (InferSpec.vars N) -> (forall v c, In (v, c) N -> In (a v) (InferSpec.states c)) ->
  exists w, In w (InferSpec.all_worlds N) /\ forall v, In v (InferSpec.vars N) -> InferSpec.at_ w v = a v.
Proof.
  induction N as [|(v, c) N IH]; cbn [InferSpec.vars map fst InferSpec.all_worlds]; intros ND H.
  - exists []. split; [left; auto|]. intros v [].
  - inversion ND as [|? ? Nv ND']; subst. destruct IH as (w & Hw & Aw); auto; [intros u x Hx; apply (H u x); right; auto|].
    exists ((v, a v) :: w). split.
    + apply in_flat_map. exists (a v). split; [apply (H v c); left; auto|]. apply in_map; auto.
    + intros u [<-|Hu]; unfold InferSpec.at_; cbn [find fst]; [rewrite String.eqb_refl; auto|].
      destruct (String.eqb_spec v u) as [->|_]; [contradiction|]. apply (Aw u Hu).
Qed.

Lemma Pr_pos (N : InferSpec.net) P w : (forall w, In w (InferSpec.all_worlds N) -> 0 < InferSpec.joint N w) -> In w (InferSpec.all_worlds N) -> P w = true -> 0 < InferSpec.Pr N P.
Proof.
  intros J Hw Pw. unfold InferSpec.Pr. set (l := filter P (InferSpec.all_worlds N)).
  assert (Hl : In w l) by (apply filter_In; auto). assert (Jl : forall w, In w l -> 0 < InferSpec.joint N w) by (intros z Hz; apply filter_In in Hz; apply J; tauto).
  clearbody l. induction l as [|z l IH]; [destruct Hl|]. rewrite Qsum_cons. rewrite Qcplus_comm. apply Qc_add_pos; [|apply Jl; left; auto].
  apply Qsum_nonneg. intros y Hy. apply Qclt_le_weak, Jl. right; auto.
Qed.

Lemma Qprod_pos {A} (f : A -> Qc) l : (forall x, In x l -> 0 < f x) -> 0 < Qprod f l.
Proof. induction l as [|x l IH]; intros H; [reflexivity|]. change (0 < f x * Qprod f l). apply Qc_mul_pos; [apply H; left; auto|apply IH; intros; apply H; right; auto]. Qed.

Section Answers.
  Import InferSpec InferMain.
  Context (S : list (string * list label)) (b : bn) (d : df) (prior : option string) (ess : option Qc) (B : bayes_way prior ess).
  Let N := learned S b d "BayesianEstimator" prior ess.
  Context (SO : shape_ok N).

  Lemma bn_In v c : In (v, c) N -> In v (b_nodes b) /\ states c = declared S v /\
    exists x, 0 < x /\ forall s u, prob c s u = frequency (Pseudo x) (declared S) (filter (usable (declared S) (b_nodes b)) (d_rows d)) v (parents c) s u.
  Proof.
    intros H. unfold N, learned in H. apply in_map_iff in H. destruct H as (v' & E & Hv). injection E as <- <-. cbn [states parents prob].
    split; [apply (Permutation_in _ (ssort_Perm _)); auto|]. split; auto.
    assert (Hn : forall w, In w (b_nodes b) -> (0 < List.length (declared S w))%nat).
    { intros w Hw. assert (Hc : exists c, In (w, c) N /\ states c = declared S w).
      { apply (Permutation_in _ (Permutation_sym (ssort_Perm _))) in Hw. eexists. split; [unfold N, learned; apply in_map_iff; exists w; split; [reflexivity|auto]|reflexivity]. }
      destruct Hc as (c & Hc & E). destruct (ok_states N SO w c Hc) as [Z _]. rewrite E in Z. destruct (declared S w); [congruence|cbn; lia]. }
    assert (Hm : (0 < List.length (product (map (declared S) (ssort (get_parents b v')))))%nat).
    { rewrite product_length, map_map. assert (I : incl (ssort (get_parents b v')) (b_nodes b)).
      { intros p Hp. assert (Hc : In (v', mkCpd (declared S v') (ssort (get_parents b v'))
            (frequency (asked_smoothing "BayesianEstimator" prior ess (List.length (declared S v')) (List.length (product (map (declared S) (ssort (get_parents b v')))))) (declared S)
               (filter (usable (declared S) (b_nodes b)) (d_rows d)) v' (ssort (get_parents b v')))) N) by (unfold N, learned; apply in_map_iff; exists v'; auto).
        destruct (ok_parents N SO _ _ Hc) as [_ Ip]. cbn [parents] in Ip. specialize (Ip p Hp). unfold N, learned, vars in Ip. rewrite map_map in Ip. cbn [fst] in Ip. rewrite map_id in Ip.
        apply (Permutation_in _ (ssort_Perm _)). auto. }
      induction (ssort (get_parents b v')) as [|p ps IH]; cbn [map fold_right]; [lia|]. apply Nat.mul_pos_pos; [apply Hn, I; left; auto|].
      apply IH. intros q Hq. apply I. right; auto. }
    assert (Hv' : In v' (b_nodes b)) by (apply (Permutation_in _ (ssort_Perm _)); auto).
    destruct (bayes_pseudo prior ess _ _ B (Hn v' Hv') Hm) as (x & Ex & Px & _). exists x. split; auto. intros s u. rewrite Ex. auto.
  Qed.

  Lemma bayes_joint w : In w (all_worlds N) -> 0 < joint N w.
  Proof.
    intros Hw. apply Qprod_pos. intros [v c] Hc. cbn [fst snd]. destruct (bn_In v c Hc) as (Hv & Es & x & Px & E). rewrite E. apply pseudo_pos; auto.
    destruct (ok_states N SO v c Hc) as [Z _]. congruence.
  Qed.

  Lemma bayes_cond obs v s : NoDup (map fst obs) -> (forall u x, In (u, x) obs -> In u (b_nodes b) /\ In x (declared S u)) -> In v (b_nodes b) -> In s (declared S v) ->
    0 <= cond_prob N obs v s /\ (0 < cond_prob N obs v s <-> forall x, In (v, x) obs -> x = s).
  Proof.
    intros ND HO Hv Hs. split; [apply cond_prob_nonneg; auto|].
    assert (Vn : In v (vars N)).
    { unfold N, learned, vars. rewrite map_map. cbn [fst]. rewrite map_id. apply (Permutation_in _ (Permutation_sym (ssort_Perm _))). auto. }
    assert (VO : forall u x, In (u, x) obs -> In u (vars N)).
    { intros u x H. destruct (HO u x H) as [H1 _]. unfold N, learned, vars. rewrite map_map. cbn [fst]. rewrite map_id. apply (Permutation_in _ (Permutation_sym (ssort_Perm _))). auto. }
    set (dfl := fun u => hd (LInt 0) (declared S u)).
    assert (Dfl : forall u c, In (u, c) N -> In (dfl u) (states c)).
    { intros u c Hc. destruct (bn_In u c Hc) as (_ & Es & _). rewrite Es. destruct (ok_states N SO u c Hc) as [Z _]. rewrite Es in Z. unfold dfl. destruct (declared S u); [congruence|left; auto]. }
    set (a0 := fun u => match dget String.eqb obs u with Some x => x | None => dfl u end).
    assert (A0 : forall u c, In (u, c) N -> In (a0 u) (states c)).
    { intros u c Hc. unfold a0. destruct (dget String.eqb obs u) as [x|] eqn:E; auto. apply (dget_In _ String.eqb_spec) in E.
      destruct (bn_In u c Hc) as (_ & -> & _). apply (HO u x E). }
    destruct (world_with N a0 (ok_vars N SO) A0) as (w0 & Hw0 & W0).
    assert (O0 : observed obs w0 = true).
    { apply forallb_forall. intros [u x] H. cbn [fst snd]. rewrite (W0 u (VO u x H)). unfold a0. rewrite (In_dget _ String.eqb_spec obs u x); auto. destruct (label_eqb_spec x x); congruence. }
    pose proof (Pr_pos N _ w0 bayes_joint Hw0 O0) as P0.
    unfold cond_prob. destruct (Qc_eq_bool_spec (Pr N (observed obs)) 0) as [Z|NZ]; [rewrite Z in P0; destruct (Qc_pos_nz _ P0); auto|].
    split.
    - intros P x Hx. destruct (label_eqb_spec x s) as [|Ne]; auto. exfalso. rewrite (Pr_and_obs_other N obs v x s Hx) in P by auto.
      apply (Qc_pos_nz _ P). unfold Qcdiv. ring.
    - intros H. apply Qc_mul_pos; [|apply Qc_inv_pos; auto].
      destruct (world_with N (fun u => if String.eqb u v then s else a0 u) (ok_vars N SO)) as (w & Hw & W).
      { intros u c Hc. destruct (String.eqb_spec u v) as [->|]; auto. destruct (bn_In v c Hc) as (_ & -> & _). auto. }
      apply (Pr_pos N _ w bayes_joint Hw). apply andb_true_iff. split.
      + apply forallb_forall. intros [u x] Hu. cbn [fst snd]. rewrite (W u (VO u x Hu)). destruct (String.eqb_spec u v) as [->|].
        * rewrite (H x Hu). destruct (label_eqb_spec s s); congruence.
        * unfold a0. rewrite (In_dget _ String.eqb_spec obs u x); auto. destruct (label_eqb_spec x x); congruence.
      + unfold is_. rewrite (W v Vn), String.eqb_refl. destruct (label_eqb_spec s s); congruence.
  Qed.
End Answers.

Theorem never_excludes g d prior ess : reached g -> named g ->
  acyclic (edges g) -> all_linked g -> edges g <> [] ->
  (forall x, In (LStr x) (nodes g) -> In x (d_cols d) /\ InferModel.is_identifier x = true /\ x <> "self"%string) ->
  complete d -> bayes_way prior ess ->
  exists e, trained g d "BayesianEstimator" prior ess e /\
    forall sc obs, Kruskal.good_sched sc -> NoDup (map fst obs) ->
      (forall v x, In (v, x) obs -> In (LStr v) (nodes g) /\ exists row, In row (d_rows d) /\ at_col row v = Some x) ->
      exists r, InferModel.engine_query sc e obs = Ok r /\
        forall v s, In (LStr v) (nodes g) -> (exists row, In row (d_rows d) /\ at_col row v = Some s) ->
          exists p, InferEngine.answer r v s = Some p /\ 0 <= p /\ (0 < p <-> forall x, In (v, x) obs -> x = s).
Proof.
  intros R N AC AL NE Names CD B.
  destruct (data_to_net g d _ prior ess R N AC AL NE Names CD (bayes_sound _ _ B))
    as (b0 & b1 & b2 & S & fs & e & E0 & E1 & ES & E2 & Ec & Ee & (NO & SO & CS) & HE & HN & HS & HU & HQ).
  exists e. split; [exists b0, b1, b2, fs; auto|]. intros sc obs G ND HO.
  assert (Seen : forall u x, In (LStr u) (nodes g) /\ (exists row, In row (d_rows d) /\ at_col row u = Some x) -> In u (b_nodes b2) /\ In x (declared S u)).
  { intros u x [H1 H2]. split; [apply HN; auto|]. apply HS; auto. apply (Names u H1). }
  destruct (HQ sc obs G ND) as (r & Eq & _ & Ans); [intros u x H; apply Seen; auto|].
  exists r. split; auto. intros v s Hv Hs. destruct (Seen v s (conj Hv Hs)) as [Iv Is]. eexists. split; [apply Ans; auto|].
  apply bayes_cond; auto.
Qed.
