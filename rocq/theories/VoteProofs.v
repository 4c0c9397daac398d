(** * VoteProofs: predictions of fitted networks are majority votes, and how good such votes are. *)
From Coq Require Import List Bool Arith ZArith Lia String QArith Qcanon Permutation Reals Lra.
From Verif Require Import Base QcX Digraph SmModel SmProofs SmHist SmThms NetModel NetProofs NetFit NetThms NetBridge NetEquiv NetMoral NetMarkov.
From Verif Require Import AcycLink OrdProofs FitBound NetBayes NetConsist NetSample.
Import ListNotations.
Local Open Scope list_scope.

(** ** Specification *)

(** Among the candidates [l] the winner [x] has the most votes; of several it is the first. *)
Definition winner (votes : label -> nat) (l : list label) (x : label) : Prop :=
  exists l1 l2, l = l1 ++ x :: l2 /\ (forall s, In s l1 -> votes s < votes x)%nat /\ (forall s, In s l2 -> votes s <= votes x)%nat.

(** BayesianNetwork(g), fit_node_states(d), fit_cpds(d, ...). *)
Definition learnt_from (g : graph) (d : df) method prior ess (b : bn) : Prop :=
  exists b0 b1, bn_init g = Ok b0 /\ fit_node_states b0 d = (b1, Ok tt) /\ fit_cpds b1 d method prior ess = (b, Ok tt).

(** How many rows show the guessed value of [v]. *)
Definition hits (rows : list (list (string * option label))) (v : string) (guess : list label) : nat :=
  List.length (filter (fun rx => holds (fst rx) v (snd rx)) (combine rows guess)).

(** A rule that looks at the attributes [C] only. *)
Definition looks_at (C : list string) (rule : (string -> label) -> label) : Prop :=
  forall i j, (forall u, In u C -> i u = j u) -> rule i = rule j.

(** The share of the population for which the guesses (one for each kind of individual) are right. *)
Definition right (P : population) (v : string) (guess : list label) : R :=
  total (map (fun ix => if label_eqb (fst (fst ix) v) (snd ix) then snd (fst ix) else 0%R) (combine P guess)).

(** ** The first of the largest values *)
Lemma idxmax_first (G : label -> Qc) l : forall best, exists l1 l2, best :: l = l1 ++ idxmax (best, G best) (map (fun s => (s, G s)) l) :: l2 /\
  let x := idxmax (best, G best) (map (fun s => (s, G s)) l) in
  (forall s, In s l1 -> (G s < G x)%Qc) /\ (forall s, In s l2 -> (G s <= G x)%Qc).
Proof.
  induction l as [|y l IH]; intros best; cbn [map idxmax snd].
  - exists [], []. cbn. split; auto. split; intros s [].
  - destruct (Qcltb (G best) (G y)) eqn:C.
    + destruct (IH y) as (l1 & l2 & E & A & B). exists (best :: l1), l2. split; [cbn; f_equal; exact E|]. cbn zeta in *. split; auto.
      intros s [<-|Hs]; auto. apply Qcltb_true in C. destruct l1 as [|z l1]; cbn in E; injection E as E1 E2.
      * rewrite <- E1. auto.
      * subst z. eapply Qclt_trans; [exact C|]. apply A. left. auto.
    + apply Qcltb_false in C. destruct (IH best) as (l1 & l2 & E & A & B). cbn zeta in *. destruct l1 as [|z l1]; cbn in E; injection E as E1 E2.
      * exists [], (y :: l2). rewrite <- E1 in *. split; [cbn; do 2 f_equal; auto|]. split; [intros s []|]. intros s [<-|Hs]; auto.
      * subst z. exists (best :: y :: l1), l2. split; [cbn; do 2 f_equal; auto|]. split; auto.
        intros s [<-|[<-|Hs]]; [apply A; left; auto| |apply A; right; auto]. eapply Qcle_lt_trans; [exact C|]. apply A. left. auto.
Qed.

Lemma winner_unique votes l x y : winner votes l x -> winner votes l y -> x = y.
Proof.
  intros (l1 & l2 & E & A & B) (m1 & m2 & E' & A' & B'). rewrite E in E'. clear E. revert m1 A' E'. induction l1 as [|z l1 IH]; intros m1 A' E'; destruct m1 as [|w m1]; cbn in E'; injection E' as E1 E2.
  - auto.
  - subst w. assert (X : (votes x < votes y)%nat) by (apply A'; left; auto). assert (Y : In y l2) by (rewrite E2; apply in_or_app; right; left; auto).
    apply B in Y. lia.
  - subst z. assert (X : (votes y < votes x)%nat) by (apply A; left; auto). assert (Y : In x m2) by (rewrite <- E2; apply in_or_app; right; left; auto).
    apply B' in Y. lia.
  - subst w. apply (IH (fun s H => A s (or_intror H)) m1 (fun s H => A' s (or_intror H)) E2).
Qed.

Lemma winner_most votes l x : winner votes l x -> In x l /\ forall s, In s l -> (votes s <= votes x)%nat.
Proof.
  intros (l1 & l2 & -> & A & B). split; [apply in_or_app; right; left; auto|]. intros s H. apply in_app_or in H as [H|[<-|H]]; auto. apply Nat.lt_le_incl. auto.
Qed.

(** ** Estimated probabilities are ordered like the counts, whatever is added to the counts *)
Lemma Qcdiv_lt a c x : (0 < x)%Qc -> (a < c)%Qc -> (a / x < c / x)%Qc.
Proof. intros Hx H. unfold Qcdiv. apply Qcmult_lt_compat_r; auto. apply Qc_inv_pos. auto. Qed.
Lemma nat_lt n m : (n < m)%nat -> (Qc_of_nat n < Qc_of_nat m)%Qc.
Proof.
  intros H. replace m with (n + (m - n))%nat by lia. rewrite Qc_of_nat_add. apply (proj2 (Qclt_minus_iff _ _)).
  replace (Qc_of_nat n + Qc_of_nat (m - n) + - Qc_of_nat n)%Qc with (Qc_of_nat (m - n)) by ring. apply Qc_of_nat_lt. lia.
Qed.
Lemma occw_le rows v s ps u : (occurrences_with rows v s ps u <= occurrences rows ps u)%nat.
Proof.
  unfold occurrences_with, occurrences. induction rows as [|r rows IH]; cbn; auto.
  destruct (holds r v s); cbn; destruct (all_hold r ps u); cbn; lia.
Qed.
Lemma frequency_lt sm L rows v ps s t u : smooth_ok sm -> (occurrences_with rows v s ps u < occurrences_with rows v t ps u)%nat ->
  (frequency sm L rows v ps s u < frequency sm L rows v ps t u)%Qc.
Proof.
  intros So H. pose proof (occw_le rows v t ps u) as Le. unfold frequency. destruct sm as [|x].
  - destruct (Nat.eqb_spec (occurrences rows ps u) 0) as [Z|Z]; [lia|]. apply Qcdiv_lt; [apply Qc_of_nat_lt; lia|apply nat_lt; auto].
  - apply Qcdiv_lt.
    + rewrite Qcplus_comm. apply Qc_add_pos; [|apply Qc_of_nat_lt; lia]. cbn in So. destruct (List.length (L v)) as [|n]; [rewrite Qc_of_nat_0, Qcmult_0_l; apply Qcle_refl|].
      apply Qclt_le_weak, Qc_mul_pos; auto. apply Qc_of_nat_lt. lia.
    + apply nat_lt in H. rewrite !(Qcplus_comm _ x). apply (proj2 (Qclt_minus_iff _ _)). apply (proj1 (Qclt_minus_iff _ _)) in H.
      replace (x + Qc_of_nat (occurrences_with rows v t ps u) + - (x + Qc_of_nat (occurrences_with rows v s ps u)))%Qc
        with (Qc_of_nat (occurrences_with rows v t ps u) + - Qc_of_nat (occurrences_with rows v s ps u))%Qc by ring. auto.
Qed.
Lemma frequency_eq sm L rows v ps s t u : occurrences_with rows v s ps u = occurrences_with rows v t ps u ->
  frequency sm L rows v ps s u = frequency sm L rows v ps t u.
Proof. intros H. unfold frequency. rewrite H. auto. Qed.

Lemma winner_frequency sm L rows v ps u l1 l2 x : smooth_ok sm ->
  (forall s, In s l1 -> (frequency sm L rows v ps s u < frequency sm L rows v ps x u)%Qc) ->
  (forall s, In s l2 -> (frequency sm L rows v ps s u <= frequency sm L rows v ps x u)%Qc) ->
  winner (fun s => occurrences_with rows v s ps u) (l1 ++ x :: l2) x.
Proof.
  intros So A B. exists l1, l2. split; auto. split; intros s Hs.
  - apply A in Hs. destruct (Nat.lt_trichotomy (occurrences_with rows v s ps u) (occurrences_with rows v x ps u)) as [H|[H|H]]; auto; exfalso.
    + rewrite (frequency_eq sm L rows v ps s x u H) in Hs. exact (Qcle_not_lt _ _ (Qcle_refl _) Hs).
    + apply (frequency_lt sm L) in H; auto. exact (Qclt_not_le _ _ H (Qclt_le_weak _ _ Hs)).
  - apply B in Hs. destruct (Nat.le_gt_cases (occurrences_with rows v s ps u) (occurrences_with rows v x ps u)) as [|H]; auto; exfalso.
    apply (frequency_lt sm L) in H; auto. exact (Qclt_not_le _ _ H Hs).
Qed.

(** ** Prediction *)
Section Predict.
  Context (b0 : bn) (S : list (string * list label)) (d : df).
  Context (Rb : reached_net b0) (NS : node_states b0 = Ok S) (NE : forall v, In v (b_nodes b0) -> declared S v <> []) (Ic : incl (b_nodes b0) (d_cols d)).
  Let ps v := ssort (get_parents b0 v).
  Let rows := filter (usable (declared S) (b_nodes b0)) (d_rows d).

  Lemma parents_ne v : forall p, In p (ps v) -> declared S p <> [].
  Proof. intros p Hp. apply NE. apply (parents_nodes b0 v (reached_net_ok b0 Rb)). auto. Qed.
  Lemma cells_pos' v : (0 < List.length (product (map (declared S) (ps v))))%nat.
  Proof. apply (cells_pos (declared S)). apply parents_ne. Qed.

  (** The frame of [v] and the value found for one row. *)
  Definition told (method : string) prior ess (v : string) (r : row) : res label :=
    do col <- cpd_column (fitted_frame_of S b0 d method prior ess v) (ps v) (start_row r);
    match combine (declared S v) col with [] => Err ValueError | x :: l => Ok (idxmax x l) end.

  Lemma predict_told method prior ess b v test pg : sound_way method prior ess -> fit_cpds b0 d method prior ess = (b, Ok tt) ->
    In v (b_nodes b0) -> incl (get_parents b0 v) (d_cols test) -> predict pg b test v = mapM (told method prior ess v) (d_rows test).
  Proof.
    intros SW E Hv It. destruct (fit_frames b0 d method prior ess S Rb NS NE Ic SW) as (b' & E' & En & Ee & Es & Ec). rewrite E in E'. injection E' as <-.
    assert (Gp : get_parents b v = get_parents b0 v) by (unfold get_parents; rewrite Ee; auto).
    unfold predict, has_parents. rewrite En. replace (smem v (b_nodes b0)) with true by (symmetry; apply (memb_In _ String.eqb_spec); auto). cbn [bind].
    rewrite Gp. replace (forallb (fun p => smem p (d_cols test)) (get_parents b0 v)) with true.
    2:{ symmetry. apply forallb_forall. intros p Hp. apply (memb_In _ String.eqb_spec). auto. }
    unfold predict_complete, frame_of. rewrite Ec. cbn [bind].
    rewrite (dget_fst_map (fitted_frame_of S b0 d method prior ess)) by (apply (Permutation_in _ (Permutation_sym (ssort_Perm _))); auto).
    cbn [bind]. rewrite Gp. reflexivity.
  Qed.

  Lemma told_winner method prior ess v r u : sound_way method prior ess -> In v (b_nodes b0) -> parent_values r (ps v) u -> In u (product (map (declared S) (ps v))) ->
    exists x, told method prior ess v r = Ok x /\ winner (fun s => occurrences_with rows v s (ps v) u) (declared S v) x.
  Proof.
    intros SW Hv Pv Hu. unfold told, fitted_frame_of. fold (ps v). fold rows.
    rewrite (column_at (declared S v) (ps v) (product (map (declared S) (ps v))) _ (start_row r) u Hu).
    2:{ clear -Pv. induction Pv; constructor; auto. apply start_row_get; auto. }
    cbn [bind]. rewrite combine_map_r. pose proof (NE v Hv) as Nv.
    set (G := fun s => frequency (asked_smoothing method prior ess (Datatypes.length (declared S v)) (Datatypes.length (product (map (declared S) (ps v))))) (declared S) rows v (ps v) s u).
    destruct (declared S v) as [|x xs] eqn:Ed; [congruence|]. cbn [map].
    destruct (idxmax_first G xs x) as (l1 & l2 & E & A & B). cbn zeta in A, B. set (y := idxmax (x, G x) (map (fun s => (s, G s)) xs)) in *.
    exists y. split; [reflexivity|]. clearbody y. rewrite E.
    eapply winner_frequency; [|exact A|exact B].
    destruct (sound_way_spec _ _ _ SW) as (sm & _ & Ea & Ok). rewrite <- Ea. apply Ok; [cbn; lia|apply cells_pos'].
  Qed.

  Lemma told_error method prior ess v r : (forall u, parent_values r (ps v) u -> ~ In u (product (map (declared S) (ps v)))) -> told method prior ess v r = Err KeyError.
  Proof.
    intros H. unfold told, cpd_column, fitted_frame_of. fold (ps v). cbn [f_columns f_rows].
    destruct (mapM _ (ps v)) as [key|e] eqn:E.
    - cbn [bind]. assert (Pv : parent_values r (ps v) key).
      { clear -E. revert key E. generalize (ps v). intros l. induction l as [|p l IH]; cbn; intros key E; [injection E as <-; constructor|].
        apply bind_ok in E as (x & E1 & E). apply bind_ok in E as (xs & E2 & [= <-]). constructor; [|apply IH; auto].
        clear -E1. unfold start_row, at_col in *. rewrite (dget_map_snd (fun x => CVal x)) in E1. destruct (dget String.eqb r p) as [[y|]|]; cbn in E1; congruence. }
      rewrite (index_of_None _ list_eqb_spec); auto.
    - cbn [bind]. f_equal. clear -E. revert e E. generalize (ps v). intros l. induction l as [|p l IH]; cbn; intros e E; [discriminate|].
      destruct (dget String.eqb (start_row r) p) as [c|]; [|cbn in E; congruence]. destruct (cell_label c); cbn in E; [|congruence].
      destruct (mapM _ l); cbn in E; [discriminate|]. eapply IH. eauto.
  Qed.
End Predict.

Lemma values_dec r l : {u | parent_values r l u} + {forall u, ~ parent_values r l u}.
Proof.
  induction l as [|p l IH]; [left; exists []; constructor|]. destruct (at_col r p) as [x|] eqn:E.
  - destruct IH as [(u & H)|H]; [left; exists (x :: u); constructor; auto|right]. intros u X. inversion X; subst. eapply H; eauto.
  - right. intros u X. inversion X; subst. congruence.
Qed.
Lemma values_unique r l u u' : parent_values r l u -> parent_values r l u' -> u = u'.
Proof. intros H. revert u'. induction H; intros u' H'; inversion H'; subst; auto. f_equal; [congruence|auto]. Qed.

Lemma told_same b0 S d : reached_net b0 -> (forall v, In v (b_nodes b0) -> declared S v <> []) -> forall m p e m' p' e' v r,
  sound_way m p e -> sound_way m' p' e' -> In v (b_nodes b0) -> told b0 S d m p e v r = told b0 S d m' p' e' v r.
Proof.
  intros Rb NE m p e m' p' e' v r SW SW' Hv. destruct (values_dec r (ssort (get_parents b0 v))) as [(u & Pv)|N].
  - assert (Dec : forall x y : list label, {x = y} + {x <> y}) by (intros x y; destruct (list_eqb_spec x y); auto).
    destruct (in_dec Dec u (product (map (declared S) (ssort (get_parents b0 v))))) as [I|I].
    + destruct (told_winner b0 S d Rb NE m p e v r u SW Hv Pv I) as (x & -> & Hx).
      destruct (told_winner b0 S d Rb NE m' p' e' v r u SW' Hv Pv I) as (y & -> & Hy). f_equal. eapply winner_unique; eauto.
    + rewrite !told_error; auto; intros u' Pv'; rewrite <- (values_unique _ _ _ _ Pv Pv'); auto.
  - rewrite !told_error; auto; intros u Pv; destruct (N u Pv).
Qed.

(** ** The best rule *)
Section Best.
  Local Open Scope R_scope.
  Context {A K : Type} (w : A -> R) (hit : A -> label -> bool) (key : A -> K) (keqb : K -> K -> bool) (ks : forall x y, reflect (x = y) (keqb x y)).
  Definition score (items : list A) (h : A -> label) : R := total (map (fun i => if hit i (h i) then w i else 0) items).
  Definition mass (items : list A) (k : K) (l : label) : R := total (map (fun i => if keqb (key i) k && hit i l then w i else 0) items).

  Lemma score_split p items h : score items h = score (filter p items) h + score (filter (fun i => negb (p i)) items) h.
  Proof. unfold score, total. induction items as [|i l IH]; cbn; [lra|]. destruct (p i); cbn; rewrite IH; lra. Qed.
  Lemma score_group k items h x : (forall i, In i items -> key i = k -> h i = x) -> score (filter (fun i => keqb (key i) k) items) h = mass items k x.
  Proof.
    unfold score, mass, total. induction items as [|i l IH]; intros H; auto. cbn. destruct (ks (key i) k) as [E|E]; cbn; rewrite IH by (intros; apply H; [right|]; auto); [|lra].
    rewrite (H i (or_introl eq_refl) E). auto.
  Qed.
  Lemma mass_rest k k' items x : k' <> k -> mass (filter (fun i => negb (keqb (key i) k)) items) k' x = mass items k' x.
  Proof.
    intros N. unfold mass, total. induction items as [|i l IH]; auto. cbn. destruct (ks (key i) k) as [E|E]; cbn; rewrite IH; auto.
    destruct (ks (key i) k') as [E'|E']; [congruence|cbn; lra].
  Qed.

  Lemma best_rule (h rule : A -> label) : (forall i j, key i = key j -> rule i = rule j) -> forall n items, (List.length items <= n)%nat ->
    (forall i j, In i items -> In j items -> key i = key j -> h i = h j) ->
    (forall i, In i items -> mass items (key i) (rule i) <= mass items (key i) (h i)) -> score items rule <= score items h.
  Proof.
    intros Rr n. induction n as [|n IH]; intros items Le Hh M; (destruct items as [|i0 l]; [unfold score; cbn; lra|]); [cbn in Le; lia|].
    set (k := key i0). set (items := i0 :: l) in *. assert (H0 : In i0 items) by (left; auto).
    rewrite (score_split (fun i => keqb (key i) k) items rule), (score_split (fun i => keqb (key i) k) items h).
    rewrite (score_group k items rule (rule i0)), (score_group k items h (h i0)).
    2:{ intros i Hi E. apply Hh; auto. }
    2:{ intros i Hi E. apply Rr; auto. }
    apply Rplus_le_compat; [apply M; auto|]. set (rest := filter (fun i => negb (keqb (key i) k)) items).
    assert (In_rest : forall i, In i rest -> In i items /\ key i <> k).
    { intros i H. apply filter_In in H as [H X]. split; auto. destruct (ks (key i) k); [discriminate|auto]. }
    apply IH.
    - unfold rest, items in *. cbn. destruct (ks (key i0) k) as [_|N]; [|destruct N; auto]. cbn.
      apply Nat.le_trans with (List.length l); [|cbn in Le; lia]. clear. induction l as [|x l IH]; cbn; auto. destruct (negb _); cbn; lia.
    - intros i j Hi Hj. apply Hh; apply In_rest; auto.
    - intros i Hi. destruct (In_rest i Hi) as [I N]. unfold rest. rewrite !mass_rest by auto. apply M. auto.
  Qed.
End Best.

(** ** From a structure and complete data to a network *)
Lemma to_learnt g d method prior ess : reached g -> named g -> acyclic (edges g) -> all_linked g -> edges g <> [] ->
  (forall x, In (LStr x) (nodes g) -> In x (d_cols d)) -> complete d -> sound_way method prior ess ->
  exists b0 b1 b2 S, bn_init g = Ok b0 /\ fit_node_states b0 d = (b1, Ok tt) /\ fit_cpds b1 d method prior ess = (b2, Ok tt) /\
    reached_net b1 /\ node_states b1 = Ok S /\ (forall v, In v (b_nodes b1) -> declared S v <> []) /\ incl (b_nodes b1) (d_cols d) /\
    (forall x y, In (x, y) (b_edges b1) <-> In (LStr x, LStr y) (edges g)) /\ (forall x, In x (b_nodes b1) <-> In (LStr x) (nodes g)) /\
    (forall v s, In v (d_cols d) -> In s (declared S v) <-> exists r, In r (d_rows d) /\ at_col r v = Some s) /\
    filter (usable (declared S) (b_nodes b1)) (d_rows d) = d_rows d.
Proof.
  intros R N AC AL NE Names (NDc & NR & Full & Kinds) SW.
  destruct (proj1 (constructor_spec g R N) (conj AC AL)) as (b0 & E0 & HE & NDe & NDn & HN). specialize (HN NE).
  destruct (states_fitted b0 d NDc) as (Ef & DA & Kf & Uf).
  set (arg := map (fun c => (c, unique olabel_eqb (map (fun r => at_col r c) (d_rows d)))) (d_cols d)) in *.
  assert (Acc : acceptable b0 arg).
  { split.
    - intros v Hv. unfold dkeys. rewrite Kf. apply HN in Hv. apply (Names v Hv).
    - intros c s H. pose proof (Uf c s H) as U. assert (Hc : In c (d_cols d)) by (rewrite <- Kf; apply in_map_iff; exists (c, s); auto).
      split.
      + intros X. apply U in X as (r & Hr & X). apply (Full r c); auto.
      + apply (one_kind_sub (drop_none (map (fun r => at_col r c) (d_rows d)))); auto.
        intros x Hx. apply drop_none_In. apply drop_none_In in Hx. apply U in Hx as (r & Hr & X). apply in_map_iff. eauto. }
  destruct (proj1 (states_set b0 arg DA) Acc) as (b1 & E1 & En1 & Ee1 & _ & S & NS & KS & DS).
  rewrite <- Ef in E1.
  assert (R1 : reached_net b1).
  { exists g, [FitStates d]. split; [auto|]. split; [auto|]. split; [constructor; [exact NDc|constructor]|].
    exists b0. split; [auto|]. cbn. rewrite E1. auto. }
  assert (Dec : forall v s, In v (d_cols d) -> In s (declared S v) <-> exists r, In r (d_rows d) /\ at_col r v = Some s).
  { intros v s Hv. assert (Ha : In (v, unique olabel_eqb (map (fun r => at_col r v) (d_rows d))) arg) by (apply in_map_iff; eauto).
    destruct (DS _ _ Ha) as (l & El & _ & Hl). unfold declared. rewrite El, Hl. apply (Uf _ _ Ha). }
  assert (I1 : incl (b_nodes b1) (d_cols d)) by (intros v Hv; rewrite En1 in Hv; apply Names, HN; auto).
  assert (Ne1 : forall v, In v (b_nodes b1) -> declared S v <> []).
  { intros v Hv X. apply I1 in Hv.
    destruct (d_rows d) as [|r rs] eqn:Er; [congruence|]. destruct (at_col r v) as [s|] eqn:Ea.
    - assert (Y : In s (declared S v)) by (apply Dec; auto; exists r; split; [left; auto|auto]). rewrite X in Y. destruct Y.
    - apply (Full r v (or_introl eq_refl)); auto. }
  destruct (fit_frames b1 d method prior ess S R1 NS Ne1 I1 SW) as (b2 & E2 & _).
  exists b0, b1, b2, S. repeat (split; [assumption|]). split; [intros x y; rewrite Ee1; apply HE|]. split; [intros x; rewrite En1; apply HN|]. split; [auto|].
  apply filter_all. intros r Hr. unfold usable. apply forallb_forall. intros v Hv. apply I1 in Hv.
  destruct (at_col r v) as [s|] eqn:Ea; [|exfalso; apply (Full r v); auto].
  apply existsb_exists. exists s. split; [apply Dec; eauto|]. unfold holds. rewrite Ea. destruct (label_eqb_spec s s); auto.
Qed.

(** ** Accuracy on the training data *)
Lemma odec (x y : option label) : {x = y} + {x <> y}.
Proof.
  destruct x as [a|], y as [c|]; [|right; discriminate|right; discriminate|left; auto].
  destruct (label_eqb_spec a c); [left; congruence|right; congruence].
Qed.
Definition okeqb (x y : list (option label)) : bool := if list_eq_dec odec x y then true else false.
Lemma okeqb_spec x y : reflect (x = y) (okeqb x y).
Proof. unfold okeqb. destruct (list_eq_dec odec x y); constructor; auto. Qed.

Lemma all_hold_key r t ps u : parent_values r ps u -> all_hold t ps u = okeqb (map (at_col t) ps) (map (at_col r) ps).
Proof.
  intros H. apply eq_true_iff_eq. destruct (okeqb_spec (map (at_col t) ps) (map (at_col r) ps)) as [E|E].
  - split; auto. intros _. unfold all_hold. apply forallb_forall. intros [p x] I. cbn. unfold holds.
    assert (X : at_col t p = at_col r p /\ at_col r p = Some x).
    { revert I E. induction H; cbn; [intros []|]. intros [[= <- <-]|I] E; injection E as E1 E2; auto. }
    destruct X as [-> ->]. destruct (label_eqb_spec x x); auto.
  - split; [|discriminate]. intros X. exfalso. apply E. clear E. revert X. induction H as [|p x l u H F IH]; cbn; auto. intros X. apply andb_true_iff in X as [X Y]. unfold holds in X.
    cbn in X. destruct (at_col t p) as [z|] eqn:Ez; [|discriminate]. destruct (label_eqb_spec z x) as [Ex|]; [|discriminate]. rewrite H, Ex. f_equal. auto.
Qed.

Lemma mass_votes rows v ps r u l : parent_values r ps u ->
  mass (fun _ => 1%R) (fun t x => holds t v x) (fun t => map (at_col t) ps) okeqb rows (map (at_col r) ps) l = INR (occurrences_with rows v l ps u).
Proof.
  intros H. unfold mass, occurrences_with, total. induction rows as [|t rows IH]; auto. cbn [map fold_right filter]. rewrite IH, (all_hold_key r t ps u H), andb_comm.
  destruct (_ && _); [cbn [List.length]; rewrite S_INR; lra|lra].
Qed.
Lemma hits_score rows v h : INR (hits rows v (map h rows)) = score (fun _ => 1%R) (fun t x => holds t v x) rows h.
Proof.
  unfold hits, score, total. induction rows as [|t rows IH]; auto. cbn [map combine filter fold_right fst snd]. destruct (holds t v (h t)); [cbn [List.length]; rewrite S_INR, IH; lra|rewrite IH; lra].
Qed.
Lemma mapM_map {A B} (m : A -> res B) (h : A -> B) l : (forall a, In a l -> m a = Ok (h a)) -> mapM m l = Ok (map h l).
Proof. induction l as [|a l IH]; intros H; auto. cbn. rewrite H, IH by (intros; try apply H; cbn; auto). auto. Qed.

Definition value (r : res label) : label := match r with Ok x => x | Err _ => LInt 0 end.

Theorem training g d method prior ess v pg : reached g -> named g -> acyclic (edges g) -> all_linked g -> edges g <> [] ->
  (forall x, In (LStr x) (nodes g) -> In x (d_cols d)) -> complete d -> sound_way method prior ess -> In (LStr v) (nodes g) ->
  exists b out, learnt_from g d method prior ess b /\ predict pg b d v = Ok out /\
    forall rule : list (string * option label) -> label,
      (forall r r', (forall p, In (LStr p, LStr v) (edges g) -> at_col r p = at_col r' p) -> rule r = rule r') ->
      (hits (d_rows d) v (map rule (d_rows d)) <= hits (d_rows d) v out)%nat.
Proof.
  intros Rg Nm AC AL NE Names CD SW Hv.
  destruct (to_learnt g d method prior ess Rg Nm AC AL NE Names CD SW) as (b0 & b1 & b2 & S & E0 & E1 & E2 & R1 & NS & Ne & Ic & HE & HN & Dec & Us).
  pose (h := fun r => value (told b1 S d method prior ess v r)). set (ps := ssort (get_parents b1 v)).
  assert (Hp : forall p, In p ps <-> In (LStr p, LStr v) (edges g)).
  { intros p. rewrite <- HE, <- get_parents_In. split; apply Permutation_in; [|apply Permutation_sym]; apply ssort_Perm. }
  assert (Hpn : incl ps (b_nodes b1)) by (apply parents_nodes, reached_net_ok; auto).
  assert (W : forall r, In r (d_rows d) -> exists u, parent_values r ps u /\ told b1 S d method prior ess v r = Ok (h r) /\
    winner (fun s => occurrences_with (d_rows d) v s ps u) (declared S v) (h r)).
  { intros r Hr. assert (X : exists u, parent_values r ps u /\ In u (product (map (declared S) ps))).
    { clear Hp. induction ps as [|p l IH]; [exists []; split; [constructor|left; auto]|]. destruct IH as (u & A & B); [intros x Hx; apply Hpn; right; auto|].
      assert (Hc : In p (d_cols d)) by (apply Ic, Hpn; left; auto). destruct CD as (_ & _ & Full & _). destruct (at_col r p) as [x|] eqn:Ex; [|destruct (Full r p Hr Hc Ex)].
      exists (x :: u). split; [constructor; auto|]. apply product_In. cbn. constructor; [apply Dec; eauto|apply product_In; auto]. }
    destruct X as (u & Pv & Iu). exists u. split; auto.
    destruct (told_winner b1 S d R1 Ne method prior ess v r u SW (proj2 (HN v) Hv) Pv Iu) as (x & Ex & Hx). rewrite Us in Hx. unfold h. rewrite Ex. auto. }
  exists b2, (map h (d_rows d)). split; [exists b0, b1; auto|]. split.
  - rewrite (predict_told b1 S d R1 NS Ne Ic method prior ess b2 v d pg SW E2 (proj2 (HN v) Hv)).
    + apply mapM_map. intros r Hr. destruct (W r Hr) as (u & _ & E & _). auto.
    + intros p H. apply Ic, Hpn. apply (Permutation_in _ (Permutation_sym (ssort_Perm _))). auto.
  - intros rule Lr. apply INR_le. rewrite !hits_score.
    apply (best_rule _ _ (fun t => map (at_col t) ps) okeqb okeqb_spec h rule) with (n := List.length (d_rows d)); auto.
    + intros r r' E. apply Lr. intros p H. apply Hp in H. clear -E H. induction ps as [|q l IH]; [destruct H|]. cbn in E. injection E as E1 E2. destruct H as [<-|H]; auto.
    + intros r r' Hr Hr' E. destruct (W r Hr) as (u & Pv & _ & Wr). destruct (W r' Hr') as (u' & Pv' & _ & Wr').
      assert (u = u'); [|subst; eapply winner_unique; eauto]. apply (values_unique r ps); auto.
      clear -E Pv'. revert E. induction Pv'; intros E; constructor; cbn in E; injection E as E1 E2; [congruence|apply IHPv'; auto].
    + intros r Hr. destruct (W r Hr) as (u & Pv & _ & Wr). rewrite !(mass_votes _ _ _ r u) by auto. apply le_INR.
      destruct (winner_most _ _ _ Wr) as [_ M].
      assert (Dl : forall x y : label, {x = y} + {x <> y}) by (intros x y; destruct (label_eqb_spec x y); auto).
      destruct (in_dec Dl (rule r) (declared S v)) as [I|I]; auto.
      assert (Z : occurrences_with (d_rows d) v (rule r) ps u = 0%nat); [|rewrite Z; lia].
      unfold occurrences_with. rewrite (filter_ext_in _ (fun _ => false)); [clear; induction (d_rows d); auto|].
      intros t Ht. apply not_true_is_false. intros X. apply andb_true_iff in X as [X _]. apply I, Dec; [apply Ic, HN; auto|]. exists t. split; auto.
      unfold holds in X. destruct (at_col t v) as [z|]; [|discriminate]. destruct (label_eqb_spec z (rule r)); [subst; auto|discriminate].
Qed.

(** The value found for a row depends on the parents only. *)
Lemma told_looks b0 S d : reached_net b0 -> (forall v, In v (b_nodes b0) -> declared S v <> []) -> forall m p e v r r',
  sound_way m p e -> In v (b_nodes b0) -> (forall q, In q (get_parents b0 v) -> at_col r q = at_col r' q) -> told b0 S d m p e v r = told b0 S d m p e v r'.
Proof.
  intros Rb NE m p e v r r' SW Hv H. set (ps := ssort (get_parents b0 v)).
  assert (H' : forall u, parent_values r ps u <-> parent_values r' ps u).
  { assert (Hq : forall q, In q ps -> at_col r q = at_col r' q) by (intros q Hq; apply H, (Permutation_in _ (ssort_Perm _)); auto).
    intros u. split; intros F; (assert (X : forall q, In q ps -> In q ps) by auto); unfold parent_values in *.
    - clear -F Hq. induction F as [|q x l u E F IH]; constructor; [rewrite <- Hq by (left; auto); auto|apply IH; intros; apply Hq; right; auto].
    - clear -F Hq. induction F as [|q x l u E F IH]; constructor; [rewrite Hq by (left; auto); auto|apply IH; intros; apply Hq; right; auto]. }
  destruct (values_dec r ps) as [(u & Pv)|N].
  - assert (Dec : forall x y : list label, {x = y} + {x <> y}) by (intros x y; destruct (list_eqb_spec x y); auto).
    destruct (in_dec Dec u (product (map (declared S) ps))) as [I|I].
    + destruct (told_winner b0 S d Rb NE m p e v r u SW Hv Pv I) as (x & -> & Hx).
      destruct (told_winner b0 S d Rb NE m p e v r' u SW Hv (proj1 (H' u) Pv) I) as (y & -> & Hy). f_equal. eapply winner_unique; eauto.
    + rewrite !told_error; auto; intros u' Pv'.
      * apply H' in Pv'. fold ps. rewrite <- (values_unique _ _ _ _ Pv Pv'); auto.
      * fold ps. rewrite <- (values_unique _ _ _ _ Pv Pv'); auto.
  - rewrite !told_error; auto; intros u Pv; [apply H' in Pv|]; destruct (N u Pv).
Qed.

Theorem more_parents g g' d m p e m' p' e' v pg : reached g -> named g -> acyclic (edges g) -> all_linked g -> edges g <> [] ->
  reached g' -> named g' -> acyclic (edges g') -> all_linked g' -> edges g' <> [] ->
  (forall x, In (LStr x) (nodes g) \/ In (LStr x) (nodes g') -> In x (d_cols d)) -> complete d -> sound_way m p e -> sound_way m' p' e' ->
  In (LStr v) (nodes g) -> In (LStr v) (nodes g') -> (forall q, In (LStr q, LStr v) (edges g) -> In (LStr q, LStr v) (edges g')) ->
  exists b b' out out', learnt_from g d m p e b /\ learnt_from g' d m' p' e' b' /\ predict pg b d v = Ok out /\ predict pg b' d v = Ok out' /\
    (hits (d_rows d) v out <= hits (d_rows d) v out')%nat.
Proof.
  intros Rg Nm AC AL NE Rg' Nm' AC' AL' NE' Names CD SW SW' Hv Hv' Sub.
  destruct (training g d m p e v pg Rg Nm AC AL NE (fun x H => Names x (or_introl H)) CD SW Hv) as (b & out & L & P & _).
  destruct (training g' d m' p' e' v pg Rg' Nm' AC' AL' NE' (fun x H => Names x (or_intror H)) CD SW' Hv') as (b' & out' & L' & P' & Best).
  exists b, b', out, out'. repeat (split; [assumption|]).
  destruct (to_learnt g d m p e Rg Nm AC AL NE (fun x H => Names x (or_introl H)) CD SW) as (b0 & b1 & b2 & S & E0 & E1 & E2 & R1 & NS & Ne & Ic & HE & HN & _ & _).
  assert (b = b2). { destruct L as (c0 & c1 & F0 & F1 & F2). rewrite E0 in F0. injection F0 as <-. rewrite E1 in F1. injection F1 as <-. rewrite E2 in F2. injection F2 as <-. auto. } subst b.
  rewrite (predict_told b1 S d R1 NS Ne Ic m p e b2 v d pg SW E2 (proj2 (HN v) Hv)) in P.
  2:{ intros q Hq. apply Ic. apply (parents_nodes b1 v (reached_net_ok b1 R1)), (Permutation_in _ (Permutation_sym (ssort_Perm _))). auto. }
  replace out with (map (fun r => value (told b1 S d m p e v r)) (d_rows d)).
  - apply Best. intros r r' H. f_equal. apply told_looks; auto; [apply HN; auto|]. intros q Hq. apply H, Sub, HE, get_parents_In. auto.
  - clear -P. revert out P. induction (d_rows d) as [|r l IH]; cbn [mapM map]; intros out P; [injection P as <-; auto|].
    apply bind_ok in P as (x & Ex & P). apply bind_ok in P as (xs & Exs & [= <-]). rewrite Ex. cbn [value]. f_equal. auto.
Qed.

(** ** Accuracy in the population *)
Local Open Scope R_scope.
Lemma small {A} (Q : A -> R -> Prop) (l : list A) : (forall a x y, 0 < x -> x <= y -> Q a y -> Q a x) -> (forall a, In a l -> exists x, 0 < x /\ Q a x) ->
  exists x, 0 < x /\ forall a, In a l -> Q a x.
Proof.
  intros Mo. induction l as [|a l IH]; intros H; [exists 1; split; [lra|intros a []]|].
  destruct IH as (x & Hx & Ax); [intros; apply H; right; auto|]. destruct (H a (or_introl eq_refl)) as (y & Hy & Ay).
  exists (Rmin x y). assert (P : 0 < Rmin x y) by (apply Rmin_glb_lt; auto). split; auto. pose proof (Rmin_l x y). pose proof (Rmin_r x y). intros c [<-|Hc]; [apply (Mo _ _ y); auto|apply (Mo _ _ x); auto].
Qed.

Lemma abs_le x y : Rabs x <= y -> - y <= x <= y.
Proof. unfold Rabs. destruct (Rcase_abs x); lra. Qed.
Lemma map_agree {B} (i j : string -> B) C : map i C = map j C -> forall u, In u C -> i u = j u.
Proof. induction C as [|c C IH]; cbn; [intros _ u []|]. intros E u [<-|H]; injection E as E1 E2; auto. Qed.

Definition put (f : string -> label) (v : string) (s : label) (u : string) : label := if String.eqb u v then s else f u.
Lemma put_same f v s : put f v s v = s.
Proof. unfold put. rewrite String.eqb_refl. auto. Qed.
Lemma put_given f v s C : ~ In v C -> given (put f v s) C = given f C.
Proof. intros N. unfold given. apply map_ext_in. intros u Hu. unfold put. destruct (String.eqb_spec u v); [subst; contradiction|auto]. Qed.
Lemma put_map f v s C : ~ In v C -> map (put f v s) C = map f C.
Proof. intros N. apply map_ext_in. intros u Hu. unfold put. destruct (String.eqb_spec u v); [subst; contradiction|auto]. Qed.

Definition lkeqb (x y : list label) : bool := list_eqb label_eqb x y.
Lemma shows_key i j C : shows j (given i C) = lkeqb (map j C) (map i C).
Proof.
  apply eq_true_iff_eq. unfold lkeqb. destruct (list_eqb_spec (map j C) (map i C)) as [E|E].
  - split; auto. intros _. apply shows_given. intros u Hu. revert E Hu. induction C as [|c C IH]; cbn; [intros _ []|]. intros E [<-|H]; injection E as E1 E2; auto.
  - split; [|discriminate]. intros H. exfalso. apply E. apply map_ext_in. apply shows_given. auto.
Qed.
Lemma mass_share P v pre (i : (string -> label) * R) l :
  mass snd (fun j x => label_eqb (fst j v) x) (fun j => map (fst j) pre) lkeqb P (map (fst i) pre) l = share P ((v, l) :: given (fst i) pre).
Proof.
  unfold mass, share, total. induction P as [|j P IH]; auto. cbn [map fold_right filter]. rewrite IH. cbn [shows forallb fst snd]. fold (shows (fst j) (given (fst i) pre)).
  rewrite (shows_key (fst i) (fst j) pre), andb_comm. destruct (_ && _); cbn [map fold_right]; lra.
Qed.
Lemma right_score P v h : right P v (map h P) = score snd (fun j x => label_eqb (fst j v) x) P h.
Proof. unfold right, score, total. induction P as [|j P IH]; auto. cbn [map combine fold_right fst snd]. rewrite IH. auto. Qed.

Theorem best_in_population g method prior ess order P dom pre v post cols pg : reached g -> named g -> acyclic (edges g) -> all_linked g -> edges g <> [] ->
  sound_way method prior ess -> parents_first g order -> weighted P -> structured g P order -> values_in g dom P ->
  (forall f w, In (f, w) P -> 0 < w) -> order = pre ++ v :: post -> (forall p, In (LStr p, LStr v) (edges g) -> In p cols) ->
  exists delta, 0 < delta /\ forall d, complete d -> data_in g dom d -> near g P d delta ->
    exists b out, learnt_from g d method prior ess b /\ predict pg b (frame cols (map fst P)) v = Ok out /\
      forall rule, looks_at pre rule -> right P v (map rule (map fst P)) <= right P v out.
Proof.
  intros Rg Nm AC AL NE SW PF WP ST VI Pos Eo Hc.
  destruct (parents_exist g v Nm) as (ps & Hps). pose proof PF as (NDo & Ino & Pfst).
  assert (Hv : In (LStr v) (nodes g)) by (apply Ino; rewrite Eo; apply in_or_app; right; left; auto).
  assert (Nv : ~ In v pre) by (rewrite Eo in NDo; apply NoDup_remove_2 in NDo; intros X; apply NDo, in_or_app; auto).
  assert (Pp : incl ps pre) by (intros p Hp; apply (Pfst pre v post p Eo), Hps; auto).
  assert (Nvp : ~ In v ps) by (intros X; apply Nv; auto).
  assert (Share : forall i w, In (i, w) P -> 0 < share P (given i ps)).
  { intros i w Hi. apply (share_individual P WP i w); eauto. apply shows_given. auto. }
  (* how near the data must be *)
  destruct (small (fun (a : ((string -> label) * R) * (label * label)) x =>
      let '(i, (s, t)) := a in x < share P (given (fst i) ps) /\
        (share P ((v, s) :: given (fst i) ps) < share P ((v, t) :: given (fst i) ps) -> share P ((v, s) :: given (fst i) ps) + 2 * x < share P ((v, t) :: given (fst i) ps)))
    (list_prod P (list_prod (dom v) (dom v)))) as (delta & Hd & Gap).
  { intros [i [s t]] x y Hx Le [A B]. split; [lra|]. intros H. specialize (B H). lra. }
  { intros [[i w] [s t]] H. apply in_prod_iff in H as [Hi _]. cbn [fst]. pose proof (Share i w Hi) as Ps.
    set (a := share P ((v, s) :: given i ps)). set (c := share P ((v, t) :: given i ps)). destruct (Rlt_dec a c) as [L|L].
    - exists (Rmin (share P (given i ps) / 2) ((c - a) / 4)). pose proof (Rmin_l (share P (given i ps) / 2) ((c - a) / 4)). pose proof (Rmin_r (share P (given i ps) / 2) ((c - a) / 4)).
      split; [apply Rmin_glb_lt; lra|]. split; [lra|]. intros _. lra.
    - exists (share P (given i ps) / 2). split; [lra|]. split; [lra|]. intros X. contradiction. }
  exists delta. split; auto. intros d CD [DC DI] Near.
  destruct (to_learnt g d method prior ess Rg Nm AC AL NE DC CD SW) as (b0 & b1 & b2 & S & E0 & E1 & E2 & R1 & NS & Ne & Ic & HE & HN & Dec & Us).
  set (qs := ssort (get_parents b1 v)).
  assert (Hq : forall p, In p qs <-> In p ps).
  { intros p. destruct Hps as [_ Hps]. rewrite Hps, <- HE, <- get_parents_In. split; apply Permutation_in; [|apply Permutation_sym]; apply ssort_Perm. }
  assert (Hqn : incl qs (b_nodes b1)) by (apply parents_nodes, reached_net_ok; auto).
  assert (Nn : 0 < INR (List.length (d_rows d))) by (destruct CD as (_ & NR & _); apply (lt_INR 0); destruct (d_rows d); [congruence|cbn; lia]).
  assert (Votes : forall f s, occurrences_with (d_rows d) v s qs (map f qs) = agree (d_rows d) (put f v s) (v :: ps)).
  { intros f s. assert (Nq : ~ In v qs) by (intros X; apply Nvp, Hq; auto). rewrite <- (put_map f v s qs Nq).
    transitivity (occurrences_with (d_rows d) v (put f v s v) qs (map (put f v s) qs)); [rewrite put_same; auto|]. rewrite occw_agree.
    apply agree_same; intros x [<-|X]; try (left; reflexivity); right; apply Hq; auto. }
  assert (Close : forall f s, Rabs (INR (agree (d_rows d) (put f v s) (v :: ps)) / INR (List.length (d_rows d)) - share P ((v, s) :: given f ps)) <= delta).
  { intros f s. destruct (Near v ps (put f v s) Hv Hps) as [_ X]. rewrite rows_share_agree in X. unfold given in X. cbn [map] in X. fold (given (put f v s) ps) in X.
    rewrite put_same, put_given in X; auto. }
  set (row_of := fun f : string -> label => map (fun c => (c, Some (f c))) cols).
  assert (Known : forall i w u, In (i, w) P -> In u ps -> exists r, In r (d_rows d) /\ at_col r u = Some (i u)).
  { intros i w u Hi Hu. pose proof (VI i w v Hi Hv) as Id. assert (G : delta < share P (given i ps)).
    { destruct (Gap ((i, w), (i v, i v))) as [G _]; [apply in_prod; auto; apply in_prod; auto|]. auto. }
    destruct (Near v ps i Hv Hps) as [X _]. rewrite rows_share_agree in X.
    destruct (agree (d_rows d) i ps) as [|n] eqn:Ea.
    { exfalso. cbn in X. unfold Rdiv in X. rewrite Rmult_0_l in X. unfold Rminus in X. rewrite Rplus_0_l, Rabs_Ropp, Rabs_pos_eq in X by lra. lra. }
    unfold agree in Ea. destruct (filter (fun r => forallb (fun u => holds r u (i u)) ps) (d_rows d)) as [|r l] eqn:Q; [cbn in Ea; lia|].
    assert (Hr : In r (r :: l)) by (left; auto). rewrite <- Q in Hr. apply filter_In in Hr as [Hr Y]. exists r. split; auto.
    rewrite forallb_forall in Y. specialize (Y u Hu). unfold holds in Y. destruct (at_col r u) as [x|]; [|discriminate]. destruct (label_eqb_spec x (i u)); [subst; auto|discriminate]. }
  pose (h := fun i : (string -> label) * R => value (told b1 S d method prior ess v (row_of (fst i)))).
  assert (W : forall i, In i P -> told b1 S d method prior ess v (row_of (fst i)) = Ok (h i) /\
    winner (fun s => agree (d_rows d) (put (fst i) v s) (v :: ps)) (declared S v) (h i)).
  { intros [i w] Hi. cbn [fst].
    assert (Pv : parent_values (row_of i) qs (map i qs)).
    { assert (X : forall l, incl l qs -> parent_values (row_of i) l (map i l)).
      { intros l. induction l as [|p l IH]; intros Il; cbn; constructor; [|apply IH; intros x Hx; apply Il; right; auto].
        apply frame_at. apply Hc. apply (proj2 Hps), Hq, Il. left. auto. }
      apply X. intros x Hx. auto. }
    assert (Iu : In (map i qs) (product (map (declared S) qs))).
    { apply product_In. assert (X : forall l, incl l qs -> Forall2 (fun l x => In x l) (map (declared S) l) (map i l)).
      { intros l. induction l as [|p l IH]; intros Il; cbn; constructor; [|apply IH; intros x Hx; apply Il; right; auto].
        assert (Hp : In p qs) by (apply Il; left; auto). apply Dec; [apply Ic, Hqn; auto|]. apply (Known i w p Hi). apply Hq. auto. }
      apply X. intros x Hx. auto. }
    destruct (told_winner b1 S d R1 Ne method prior ess v (row_of i) (map i qs) SW (proj2 (HN v) Hv) Pv Iu) as (x & Ex & (l1 & l2 & El & A & B)). fold qs in A, B.
    unfold h. cbn [fst]. rewrite Ex. split; auto. cbn [value]. exists l1, l2. split; auto. rewrite Us in *. split; intros s Hs; rewrite <- !Votes; auto. }
  exists b2, (map h P). split; [exists b0, b1; auto|]. split.
  - rewrite (predict_told b1 S d R1 NS Ne Ic method prior ess b2 v (frame cols (map fst P)) pg SW E2 (proj2 (HN v) Hv)).
    + cbn [frame d_rows]. fold row_of. rewrite map_map. transitivity (mapM (fun i => told b1 S d method prior ess v (row_of (fst i))) P).
      * clear. induction P as [|i l IH]; auto. cbn. rewrite IH. auto.
      * apply mapM_map. intros i Hi. apply W. auto.
    + cbn [frame d_cols]. intros p H. apply Hc, HE, get_parents_In. auto.
  - intros rule Lr. rewrite map_map, !right_score.
    apply (best_rule _ _ (fun i => map (fst i) pre) lkeqb list_eqb_spec h (fun i => rule (fst i))) with (n := List.length P); auto.
    + intros i j E. apply Lr. apply (map_agree _ _ pre). exact E.
    + intros i j Hi Hj E. destruct (W i Hi) as [_ A]. destruct (W j Hj) as [_ B].
      assert (Ag : forall u, In u ps -> fst i u = fst j u).
      { intros u Hu. apply (map_agree _ _ pre E). auto. }
      assert (Same : forall s, agree (d_rows d) (put (fst i) v s) (v :: ps) = agree (d_rows d) (put (fst j) v s) (v :: ps)).
      { intros s. rewrite <- !Votes. f_equal. apply map_ext_in. intros u Hu. apply Ag, Hq. auto. }
      apply (winner_unique _ _ _ _ A). destruct B as (l1 & l2 & El & B1 & B2). exists l1, l2. split; auto. split; intros s Hs; rewrite !Same; auto.
    + intros [i w] Hi. cbn [fst]. rewrite (mass_share P v pre (i, w)), (mass_share P v pre (i, w)). cbn [fst]. destruct (W (i, w) Hi) as [_ Wi]. destruct (winner_most _ _ _ Wi) as [Dx M]. cbn [fst] in M.
      set (x := h (i, w)) in *. set (s := rule i).
      assert (M' : (agree (d_rows d) (put i v s) (v :: ps) <= agree (d_rows d) (put i v x) (v :: ps))%nat).
      { assert (Dl : forall x y : label, {x = y} + {x <> y}) by (intros a c; destruct (label_eqb_spec a c); auto).
        destruct (in_dec Dl s (declared S v)) as [I|I]; auto. rewrite (agree_unseen (d_rows d) (put i v s) (v :: ps) v (or_introl eq_refl)); [lia|].
        intros r Hr X. rewrite put_same in X. apply I, Dec; [apply Ic, HN; auto|]. eauto. }
      assert (Xd : In x (dom v)) by (apply Dec in Dx as (r & Hr & Er); [|apply Ic, HN; auto]; apply (DI r v x); auto).
      assert (Le : share P ((v, s) :: given i ps) <= share P ((v, x) :: given i ps)).
      { destruct (Rle_dec (share P ((v, s) :: given i ps)) (share P ((v, x) :: given i ps))) as [|N]; auto. exfalso.
        assert (Sd : In s (dom v)).
        { destruct (share_pos_ex P WP ((v, s) :: given i ps)) as (j & w' & Hj & Hw & Sh); [pose proof (share_nonneg P WP ((v, x) :: given i ps)); lra|].
          cbn in Sh. apply andb_true_iff in Sh as [Sh _]. destruct (label_eqb_spec (j v) s) as [<-|]; [|discriminate]. apply (VI j w'); auto. }
        destruct (Gap ((i, w), (x, s))) as [_ G]; [apply in_prod; auto; apply in_prod; auto|]. cbn [fst] in G. specialize (G ltac:(lra)).
        pose proof (Close i s) as C1. pose proof (Close i x) as C2. apply abs_le in C1. apply abs_le in C2.
        apply le_INR in M'. assert (Q : INR (agree (d_rows d) (put i v s) (v :: ps)) / INR (List.length (d_rows d)) <= INR (agree (d_rows d) (put i v x) (v :: ps)) / INR (List.length (d_rows d))).
        { apply Rmult_le_compat_r; auto. apply Rlt_le, Rinv_0_lt_compat; auto. }
        lra. }
      assert (I1 : forall z, share P ((v, z) :: given i pre) * share P (given i ps) = share P ((v, z) :: given i ps) * share P (given i pre)).
      { intros z. pose proof (ST pre v post ps (put i v z) Eo Hps) as X. unfold given in X. cbn [map] in X. fold (given (put i v z) pre) in X. fold (given (put i v z) ps) in X.
        rewrite put_same, !put_given in X; auto. }
      apply (Rmult_le_reg_r (share P (given i ps))); [apply (Share i w); auto|]. rewrite !I1. apply Rmult_le_compat_r; auto. apply share_nonneg. auto.
Qed.
