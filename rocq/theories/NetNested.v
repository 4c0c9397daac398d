(** * NetNested: with more edges the fitted network gives the training data at least the same probability. *)
From Coq Require Import List Bool Arith ZArith Lia String QArith Qcanon Permutation.
From Verif Require Import Base QcX Digraph SmModel SmProofs SmHist SmThms NetModel NetProofs NetFit NetThms NetMle.
Import ListNotations.
Local Open Scope Qc_scope.
Local Open Scope list_scope.

(** The probability of the rows in which every node has one of its states, under the CPDs [fs]. *)
Definition fit_likelihood (S : list (string * list label)) (vs : list string) (d : df) (fs : list (string * frame)) : Qc :=
  likelihood (fun v s u => match dget String.eqb fs v with Some f => cell_of f s u | None => 0 end)
    (map (fun vf => (fst vf, f_names (snd vf))) fs) (filter (usable (declared S) vs) (d_rows d)).

(** The states of the parents [ps] among the states [u] of the parents [qs]. *)
Definition select (ps qs : list string) (u : list label) : list label :=
  map (fun p => match dget String.eqb (combine qs u) p with Some x => x | None => LInt 0 end) ps.

Lemma select_map ps qs (g : string -> label) : incl ps qs -> select ps qs (map g qs) = map g ps.
Proof.
  intros I. unfold select. apply map_ext_in. intros p Hp. specialize (I p Hp). clear Hp.
  induction qs as [|q qs IH]; [destruct I|]. cbn. destruct (String.eqb_spec p q) as [->|N]; [auto|]. destruct I as [->|I]; [congruence|].
  unfold dget in IH. apply IH; auto.
Qed.

Lemma select_ok (L : string -> list label) ps qs u : incl ps qs -> Forall2 (fun p x => In x (L p)) qs u ->
  Forall2 (fun p x => In x (L p)) ps (select ps qs u).
Proof.
  intros I F. unfold select. induction ps as [|p ps IH]; cbn; constructor; [|apply IH; intros x Hx; apply I; right; auto].
  assert (Hp : In p qs) by (apply I; left; auto). clear I IH. induction F as [|q x qs u H F IH]; [destruct Hp|].
  cbn. destruct (String.eqb_spec p q) as [->|N]; auto. destruct Hp as [->|Hp]; [congruence|]. unfold dget in IH. apply IH; auto.
Qed.

Theorem more_edges b b' d prior ess prior' ess' S c c' fs fs' : reached_net b -> reached_net b' -> node_states b = Ok S -> node_states b' = Ok S ->
  (forall v, In v (b_nodes b) <-> In v (b_nodes b')) -> incl (b_edges b) (b_edges b') ->
  (forall v, In v (b_nodes b) -> declared S v <> []) -> incl (b_nodes b) (d_cols d) ->
  fit_cpds b d "MaximumLikelihoodEstimator" prior ess = (c, Ok tt) -> cpds c = Ok fs ->
  fit_cpds b' d "MaximumLikelihoodEstimator" prior' ess' = (c', Ok tt) -> cpds c' = Ok fs' ->
  fit_likelihood S (b_nodes b) d fs <= fit_likelihood S (b_nodes b') d fs'.
Proof.
  intros R R' NS NS' SN IE NE Inc EF EC EF' EC'.
  assert (NE' : forall v, In v (b_nodes b') -> declared S v <> []) by (intros v H; apply NE, SN; auto).
  assert (Inc' : incl (b_nodes b') (d_cols d)) by (intros v H; apply Inc, SN; auto).
  destruct (fit_spec b d "MaximumLikelihoodEstimator" prior ess S R NS NE Inc (or_introl eq_refl)) as (b2 & fs2 & E1 & E2 & Bn & Be & _ & Pm & Sp).
  rewrite EF in E1. injection E1 as <-. rewrite EC in E2. injection E2 as <-.
  destruct (fit_spec b' d "MaximumLikelihoodEstimator" prior' ess' S R' NS' NE' Inc' (or_introl eq_refl)) as (b2' & fs2' & E1' & E2' & Bn' & Be' & _ & Pm' & Sp').
  rewrite EF' in E1'. injection E1' as <-. rewrite EC' in E2'. injection E2' as <-.
  assert (ND : NoDup (map fst fs)) by (eapply Permutation_NoDup; [symmetry; exact Pm|apply (no_nodes _ (reached_net_ok b R))]).
  assert (ND' : NoDup (map fst fs')) by (eapply Permutation_NoDup; [symmetry; exact Pm'|apply (no_nodes _ (reached_net_ok b' R'))]).
  assert (Get : forall v f', In (v, f') fs' -> exists f, In (v, f) fs).
  { intros v f' H. assert (X : In v (map fst fs)).
    { apply (Permutation_in _ (Permutation_sym Pm)), SN, (Permutation_in _ Pm'), in_map_iff. exists (v, f'); auto. }
    apply in_map_iff in X as ([u f] & <- & X). exists f. auto. }
  assert (Sub : forall v f f', In (v, f) fs -> In (v, f') fs' -> incl (f_names f) (f_names f')).
  { intros v f f' H H' p Hp. apply (Sp' v f' H'), IE, (Sp v f H). auto. }
  set (names' := fun v => match dget String.eqb fs' v with Some f => f_names f | None => [] end).
  set (alt := fun v s u => match dget String.eqb fs v with Some f => cell_of f s (select (f_names f) (names' v) u) | None => 0 end).
  assert (Alt : forall v f f', In (v, f) fs -> In (v, f') fs' -> forall s u, alt v s u = cell_of f s (select (f_names f) (f_names f') u)).
  { intros v f f' H H' s u. unfold alt, names'. rewrite (In_dget _ String.eqb_spec fs v f ND H), (In_dget _ String.eqb_spec fs' v f' ND' H'). auto. }
  assert (Col : forall v f f' u, In (v, f) fs -> In (v, f') fs' -> In u (f_columns f') -> In (select (f_names f) (f_names f') u) (f_columns f)).
  { intros v f f' u H H' Hu. destruct (Sp v f H) as (_ & _ & _ & _ & Cl & _). destruct (Sp' v f' H') as (_ & _ & _ & _ & Cl' & _).
    apply Cl. apply select_ok; [apply (Sub v); auto|apply Cl'; auto]. }
  destruct (mle_best b' d prior' ess' S c' fs' R' NS' NE' Inc' EF' EC' alt) as [Le _].
  - intros v f' s u H' Hs Hu. destruct (Get v f' H') as (f & H). rewrite (Alt v f f' H H').
    destruct (Sp' v f' H') as (Ei' & _). rewrite Ei' in Hs. destruct (Sp v f H) as (_ & _ & _ & _ & _ & Q). apply (Q _ (Col v f f' u H H' Hu)). auto.
  - intros v f' u H' Hu. destruct (Get v f' H') as (f & H). destruct (Sp' v f' H') as (Ei' & _). rewrite Ei'.
    destruct (Sp v f H) as (_ & _ & _ & _ & _ & Q). destruct (Q _ (Col v f f' u H H' Hu)) as [_ Q2]. rewrite <- Q2.
    apply Qsum_ext. intros s _. apply (Alt v f f' H H').
  - eapply Qcle_trans; [|exact Le]. match goal with |- ?a <= ?b => replace b with a; [apply Qcle_refl|] end. unfold fit_likelihood, likelihood.
    replace (filter (usable (declared S) (b_nodes b')) (d_rows d)) with (filter (usable (declared S) (b_nodes b)) (d_rows d)).
    2:{ apply filter_ext. intros r. unfold usable. apply eq_true_iff_eq. rewrite !forallb_forall. split; intros H v Hv; apply H, SN; auto. }
    apply Qprod_ext. intros r _. rewrite !Qprod_map. cbn [fst snd].
    set (h := fun v => match dget String.eqb fs v with Some f => cell_of f (value r v) (map (value r) (f_names f)) | None => 0 end).
    transitivity (Qprod h (map fst fs)).
    + rewrite Qprod_map. apply Qprod_ext. intros [v f] H. unfold h. cbn [fst snd]. rewrite (In_dget _ String.eqb_spec fs v f ND H). auto.
    + transitivity (Qprod h (map fst fs')).
      * apply Qprod_perm. apply NoDup_Permutation; auto. intros v. split; intros H.
        -- apply (Permutation_in _ (Permutation_sym Pm')), SN, (Permutation_in _ Pm). auto.
        -- apply (Permutation_in _ (Permutation_sym Pm)), SN, (Permutation_in _ Pm'). auto.
      * rewrite Qprod_map. apply Qprod_ext. intros [v f'] H'. cbn [fst snd]. destruct (Get v f' H') as (f & H).
        rewrite (Alt v f f' H H'). unfold h. rewrite (In_dget _ String.eqb_spec fs v f ND H), (select_map _ _ (value r)); auto. apply (Sub v); auto.
Qed.
