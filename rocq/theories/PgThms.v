(** * PgThms: predictions with missing parents are conditional probabilities of the fitted network. *)
From Coq Require Import List Bool Arith ZArith Lia String QArith Qcanon Permutation.
From Verif Require Import Base QcX Digraph BbnModel SumOver BbnTables SmModel SmProofs SmHist SmThms NetModel NetProofs NetFit NetThms NetBridge PgModel.
From Verif Require Import InferSpec InferProofs InferMain CausalCore CausalThms.
From Verif Require BbnProofs InferModel InferOps InferEngine.
Import ListNotations.
Local Open Scope list_scope.

(** ** Stored tables and frames *)
Lemma fitted_tables b S fs : fitted b S fs -> exists st, b_states b = Some st /\ states_ok st /\
  (forall v, map fst (states_at st v) = declared S v) /\ incl (b_nodes b) (dkeys st) /\
  b_cpds b = map (fun vf => (fst vf, mkTable (f_names (snd vf)) (f_rows (snd vf)))) fs.
Proof.
  intros (b0 & d & method & prior & ess & R & NS & NE & I & SW & E & Ec).
  pose proof (reached_net_ok b0 R) as NO.
  destruct (node_states_declared b0 S NS) as (st & ES & D & _).
  destruct (no_states _ NO st ES) as [SO KS].
  destruct (sound_way_spec _ _ _ SW) as (sm & W & A & _).
  pose proof (fit_cpds_cases b0 d method prior ess) as C. rewrite ES in C.
  replace (forallb (fun v => smem v (d_cols d)) (b_nodes b0)) with true in C.
  2:{ symmetry. apply forallb_forall. intros v Hv. apply (memb_In _ String.eqb_spec). auto. }
  rewrite W, E in C. injection C as C. subst b. exists st. cbn [b_states b_nodes b_cpds]. do 4 (split; [auto|]).
  unfold cpds in Ec. cbn [b_states b_cpds] in Ec. revert Ec. unfold fitted_cpds.
  assert (J : incl (ssort (b_nodes b0)) (b_nodes b0)) by (intros x Hx; apply (Permutation_in _ (ssort_Perm _)); auto).
  revert fs. induction (ssort (b_nodes b0)) as [|v l IH]; intros fs Ec; cbn [map mapM] in Ec |- *.
  - injection Ec as <-. auto.
  - cbn [fst snd] in Ec. assert (Hv : In v (b_nodes b0)) by (apply J; left; auto).
    rewrite (fitted_frame st SO (b_nodes b0) KS (d_rows d)) in Ec; auto.
    2:{ apply parents_nodes; auto. }
    2:{ rewrite D. auto. }
    cbn [bind] in Ec.
    destruct (mapM _ (map _ l)) as [fs'|] eqn:M in Ec; [|discriminate]. cbn [bind] in Ec. injection Ec as <-.
    cbn [map fst snd f_names f_rows]. f_equal.
    + f_equal. rewrite <- (estimate_rows st SO (b_nodes b0) KS (d_rows d)); auto.
      * apply parents_nodes; auto.
      * rewrite D. auto.
    + apply IH; auto. intros x Hx. apply J; right; auto.
Qed.

(** ** Sums over codes *)
Definition decode (S : list (string * list label)) (w : list (string * nat)) : assign :=
  fun v => nth (code_in w v) (declared S v) (LInt 0).

Lemma code_in_app w w' v : code_in (w ++ w') v = if smem v (dkeys w) then code_in w v else code_in w' v.
Proof.
  unfold code_in. induction w as [|[u i] w IH]; cbn; auto.
  destruct (String.eqb_spec v u) as [->|Nv]; cbn.
  - auto.
  - change (memb String.eqb v (map fst w)) with (smem v (dkeys w)) in *. exact IH.
Qed.

Lemma Qsum_flat_map' {A B} (f : B -> Qc) (g : A -> list B) l : Qsum f (flat_map g l) = Qsum (fun x => Qsum f (g x)) l.
Proof. induction l as [|x l IH]; cbn [flat_map]; [reflexivity|]. rewrite Qsum_app, Qsum_cons, IH. auto. Qed.

Lemma Qsum_map' {A B} (f : B -> Qc) (g : A -> B) l : Qsum f (map g l) = Qsum (fun x => f (g x)) l.
Proof. induction l as [|x l IH]; cbn [map]; [reflexivity|]. rewrite !Qsum_cons, IH. auto. Qed.

Section Sums.
  Variable S : list (string * list label).
  Variable st : list (string * list (label * nat)).
  Hypothesis D : forall v, map fst (states_at st v) = declared S v.

  Lemma card_declared v : card st v = List.length (declared S v).
  Proof. unfold card. rewrite <- D, map_length. auto. Qed.

  Lemma cells_sum (f : assign -> Qc) : ext f -> forall ms w, NoDup ms -> (forall m, In m ms -> ~ In m (dkeys w)) ->
    Qsum (fun c => f (decode S c)) (cells st ms w) = sumover (declared S) ms f (decode S w).
  Proof.
    intros Ef ms. unfold cells, combinations. induction ms as [|m ms IH]; intros w ND Dj; rewrite Qsum_map'.
    - cbn. rewrite app_nil_r. unfold Qsum. cbn. ring.
    - inversion ND as [|? ? Nm ND']; subst. cbn [map product]. rewrite Qsum_flat_map'. cbn [sumover].
      rewrite card_declared.
      rewrite <- (map_nth_seq (LInt 0) (declared S m)) at 2. rewrite Qsum_map'. apply Qsum_ext. intros i Hi.
      rewrite Qsum_map'. cbn [combine].
      rewrite (Qsum_ext _ (fun u => f (decode S ((w ++ [(m, i)]) ++ combine ms u)))) by (intros u _; rewrite <- app_assoc; auto).
      rewrite <- (Qsum_map' (fun c => f (decode S c)) (fun u => (w ++ [(m, i)]) ++ combine ms u)).
      rewrite IH; auto.
      + apply sumover_ext_fun; auto. intros x. unfold decode, upd. rewrite code_in_app.
        destruct (String.eqb_spec x m) as [->|Nx].
        * replace (smem m (dkeys w)) with false.
          { unfold code_in. cbn. rewrite String.eqb_refl. auto. }
          symmetry. apply not_true_iff_false. intros H. apply (memb_In _ String.eqb_spec) in H. apply (Dj m); [left|]; auto.
        * destruct (smem x (dkeys w)) eqn:Q; auto. unfold code_in. cbn.
          destruct (String.eqb_spec x m); [congruence|]. 
          destruct (dget String.eqb w x) as [j|] eqn:G; auto. apply (dget_In _ String.eqb_spec) in G.
          assert (In x (dkeys w)) by (apply in_map_iff; exists (x, j); auto).
          apply (memb_In _ String.eqb_spec) in H. destruct (eq_true_false_abs _ H Q).
      + intros x Hx H. unfold dkeys in H. rewrite map_app in H. apply in_app_iff in H as [H|[<-|[]]]; [|auto]. apply (Dj x); auto. right; auto.
  Qed.

  Lemma sumover_dom_in (d1 d2 : string -> list label) f vs : (forall x, In x vs -> d1 x = d2 x) -> forall a, sumover d1 vs f a = sumover d2 vs f a.
  Proof.
    induction vs as [|v vs IH]; intros H a; cbn; auto. rewrite (H v) by (left; auto). apply Qsum_ext. intros x _. apply IH. intros; apply H; right; auto.
  Qed.
End Sums.

Lemma codes_eqb_spec u v : reflect (u = v) (codes_eqb u v).
Proof.
  revert v. induction u as [|i u IH]; intros [|j v]; cbn; try (constructor; congruence).
  destruct (Nat.eqb_spec i j) as [->|N]; cbn; [destruct (IH v) as [->|N]; constructor; congruence|constructor; congruence].
Qed.

Lemma place_spec u l : In u l -> (place u l < List.length l)%nat /\ nth_error l (place u l) = Some u.
Proof.
  induction l as [|x l IH]; [intros []|]. intros H. cbn. destruct (codes_eqb_spec x u) as [->|N]; [split; [lia|auto]|].
  destruct H as [H|H]; [congruence|]. destruct (IH H). split; [lia|auto].
Qed.

Lemma nth_of_error {A} (l : list A) i x d : nth_error l i = Some x -> nth i l d = x.
Proof. revert i. induction l as [|y l IH]; intros [|i]; cbn; try discriminate; [congruence|auto]. Qed.

Lemma combine_self {A B C} (g : A -> B) (f : A * B -> C) l : map f (combine l (map g l)) = map (fun x => f (x, g x)) l.
Proof. induction l as [|x l IH]; cbn; congruence. Qed.

Lemma seq_lookup_eq {A} (l : list A) i j x d : NoDup l -> (i < List.length l)%nat -> nth_error l j = Some x -> (i = j <-> nth i l d = x).
Proof.
  intros ND Hi Hj. split; [intros ->; apply nth_of_error; auto|]. intros E.
  apply (proj1 (NoDup_nth_error l) ND); auto. rewrite Hj, <- E. apply nth_error_nth'. auto.
Qed.

(** ** Rows as observations *)

(** The values of a row in the columns other than the node's. *)
Definition seen (d : df) (v : string) (r : list (string * option label)) : list (string * label) :=
  flat_map (fun c => match at_col r c with Some x => [(c, x)] | None => [] end)
           (filter (fun c => negb (String.eqb c v)) (d_cols d)).

Definition encodes (S : list (string * list label)) (obs : list (string * label)) (e : list (string * nat)) : Prop :=
  Forall2 (fun cx ci => fst ci = fst cx /\ nth_error (declared S (fst cx)) (snd ci) = Some (snd cx)) obs e.

Lemma encodes_keys S obs e : encodes S obs e -> map fst e = map fst obs.
Proof. induction 1 as [|cx ci obs e [H _] _ IH]; cbn; congruence. Qed.

Lemma encodes_get S obs e : encodes S obs e -> NoDup (map fst obs) -> forall v x, In (v, x) obs ->
  (code_in e v < List.length (declared S v))%nat /\ decode S e v = x.
Proof.
  induction 1 as [|cx ci obs e [H1 H2] _ IH]; intros ND v x Hx; [destruct Hx|].
  inversion ND as [|? ? Nv ND']; subst. destruct cx as [c y], ci as [c' i]. cbn [fst snd] in *. subst c'.
  unfold decode, code_in in *. cbn. destruct Hx as [[= -> ->]|Hx].
  - rewrite String.eqb_refl. split; [apply nth_error_Some; congruence|apply nth_of_error; auto].
  - destruct (String.eqb_spec v c) as [->|]; [|apply IH; auto].
    exfalso. apply Nv. apply in_map_iff. exists (c, x). auto.
Qed.

Lemma evidence_rows b S fs d v : fitted b S fs -> In v (d_cols d) -> incl (d_cols d) (b_nodes b) ->
  (forall r c, In r (d_rows d) -> In c (d_cols d) -> exists x, at_col r c = Some x /\ In x (declared S c)) ->
  exists es, evidence b d v = Ok es /\ Forall2 (fun r e => encodes S (seen d v r) e) (d_rows d) es.
Proof.
  intros F Hv I Rows. destruct (fitted_inv b S fs F) as (NO & NS & _).
  destruct (node_states_declared b S NS) as (st & ES & D & Dk). destruct (no_states _ NO st ES) as [SO KS].
  unfold evidence, seen. rewrite ES.
  replace (forallb (fun c => smem c (dkeys st)) (d_cols d)) with true
    by (symmetry; apply forallb_forall; intros c Hc; apply (memb_In _ String.eqb_spec); auto).
  replace (smem v (d_cols d)) with true by (symmetry; apply (memb_In _ String.eqb_spec); auto). cbn [negb].
  set (cs := filter _ (d_cols d)).
  assert (Ic : incl cs (d_cols d)) by (intros c Hc; apply filter_In in Hc; tauto).
  replace (forallb (fun c => smem c (b_nodes b)) cs) with true
    by (symmetry; apply forallb_forall; intros c Hc; apply (memb_In _ String.eqb_spec); auto). cbn [negb].
  revert Rows. generalize (d_rows d). intros l. induction l as [|r l IH]; intros Rows; [exists []; auto|].
  destruct IH as (es & E & Fe); [intros r' c Hr'; apply Rows; right; auto|].
  cbn [mapM].
  assert (X : exists e, mapM (fun c => match code (states_at st c) (at_col r c) with Some i => Ok (c, i) | None => Err KeyError end) cs = Ok e /\
     encodes S (flat_map (fun c => match at_col r c with Some x => [(c, x)] | None => [] end) cs) e).
  { clear E Fe. induction cs as [|c cs' IHc]; [exists []; split; [auto|constructor]|]. destruct IHc as (e & E & En); [intros x Hx; apply Ic; right; auto|].
    destruct (Rows r c (or_introl eq_refl) (Ic c (or_introl eq_refl))) as (x & Ex & Hx).
    rewrite <- D in Hx. apply In_nth_error in Hx as (i & Hi).
    assert (C : code (states_at st c) (Some x) = Some i) by (apply (code_iff st SO); eauto).
    cbn [mapM flat_map]. rewrite Ex, C. cbn [bind]. rewrite E. cbn [bind]. eexists. split; [reflexivity|].
    cbn [app]. constructor; auto. cbn. split; auto. rewrite <- D. auto. }
  destruct X as (e & X & En). rewrite X. cbn [bind]. rewrite E. cbn [bind]. eexists. split; [reflexivity|]. constructor; auto.
Qed.

Lemma seen_In d v r c x : In (c, x) (seen d v r) <-> In c (d_cols d) /\ c <> v /\ at_col r c = Some x.
Proof.
  unfold seen. rewrite in_flat_map. split.
  - intros (c' & H & Hx). apply filter_In in H as [H N]. destruct (at_col r c') as [y|] eqn:E; [|destruct Hx].
    destruct Hx as [[= <- <-]|[]]. destruct (String.eqb_spec c' v); [discriminate|]. auto.
  - intros (H & N & E). exists c. rewrite E. split; [|left; auto]. apply filter_In. split; auto.
    destruct (String.eqb_spec c v); [congruence|auto].
Qed.

Lemma seen_NoDup d v r : NoDup (d_cols d) -> NoDup (map fst (seen d v r)).
Proof.
  intros ND. unfold seen. apply (NoDup_filter (fun c => negb (String.eqb c v))) in ND. revert ND.
  generalize (filter (fun c => negb (String.eqb c v)) (d_cols d)). intros cs. induction 1 as [|c cs Nc ND IH]; cbn [flat_map map]; [constructor|].
  rewrite map_app. destruct (at_col r c) as [x|]; cbn; auto. constructor; auto.
  intros H. apply Nc. apply in_map_iff in H as ([c' y] & <- & H). apply in_flat_map in H as (c'' & H & H2).
  destruct (at_col r c''); [|destruct H2]. destruct H2 as [[= <- <-]|[]]. auto.
Qed.

(** ** The weights are the joint distribution of the fitted network *)
Section Fitted.
  Variable b : bn.
  Variable S : list (string * list label).
  Variable fs : list (string * frame).
  Hypothesis F : fitted b S fs.
  Hypothesis Ne : b_nodes b <> [].
  Hypothesis Id : forall v, In v (b_nodes b) -> InferModel.is_identifier v = true.
  Hypothesis Self : ~ In "self"%string (b_nodes b).
  Let N := InferOps.net_of (as_input b fs).

  Lemma N_eq : N = map (fun vf => (fst vf, mkCpd (f_index (snd vf)) (f_names (snd vf)) (InferOps.entry (conv (snd vf))))) fs.
  Proof. unfold N, InferOps.net_of, as_input. cbn [InferModel.bn_cpds]. rewrite map_map. auto. Qed.

  Lemma N_vars : Permutation (vars N) (b_nodes b).
  Proof. rewrite N_eq. unfold vars. rewrite map_map. cbn. apply (fitted_inv b S fs F). Qed.

  Lemma N_shape : shape_ok N /\ columns_sum_1 N.
  Proof. destruct (fitted_good b S fs F Ne Id Self) as (_ & A & B & _). auto. Qed.

  Lemma N_states v : In v (b_nodes b) -> states_of N v = declared S v.
  Proof.
    intros Hv. destruct (fitted_inv b S fs F) as (_ & _ & _ & P & K).
    assert (Hf : In v (map fst fs)) by (apply (Permutation_in _ (Permutation_sym P)); auto).
    apply in_map_iff in Hf as ([u f] & E & Hf). cbn in E. subst u. destruct (K v f Hf) as (G & Ef & _).
    transitivity (f_index f); [|rewrite Ef; auto].
    apply (states_of_In N v (mkCpd (f_index f) (f_names f) (InferOps.entry (conv f)))).
    - apply N_shape.
    - rewrite N_eq. apply in_map_iff. exists (v, f). auto.
  Qed.

  Variable st : list (string * list (label * nat)).
  Hypothesis ES : b_states b = Some st.

  Lemma st_facts : states_ok st /\ (forall v, map fst (states_at st v) = declared S v) /\
    b_cpds b = map (fun vf => (fst vf, mkTable (f_names (snd vf)) (f_rows (snd vf)))) fs.
  Proof. destruct (fitted_tables b S fs F) as (st' & E & A & B & _ & C). rewrite ES in E. injection E as <-. auto. Qed.

  Lemma weight_joint w : (forall x, In x (b_nodes b) -> (code_in w x < List.length (declared S x))%nat) ->
    weight st (b_cpds b) w = jointf N (decode S w).
  Proof.
    intros H. destruct st_facts as (SO & D & Eb). destruct (fitted_inv b S fs F) as (NO & _ & _ & P & K).
    rewrite Eb, N_eq. unfold weight, jointf. rewrite !Qprod_map. apply Qprod_ext. intros [v f] Hf.
    assert (Hv : In v (b_nodes b)) by (apply (Permutation_in _ P), in_map_iff; exists (v, f); auto).
    unfold table_at, factor_at. cbn [fst snd t_parents t_values parents prob].
    destruct (K v f Hf) as (G & Ef & _). set (ps := ssort (get_parents b v)) in *.
    assert (Ip : incl ps (b_nodes b)) by (apply parents_nodes; auto).
    rewrite Ef. cbn [f_names f_rows].
    assert (Hu : In (map (code_in w) ps) (combinations st ps)).
    { unfold combinations. apply product_In. clear -H Ip D. induction ps as [|p ps IH]; cbn; constructor.
      - apply in_seq. rewrite (card_declared S st D). split; [lia|]. apply H, Ip. left; auto.
      - apply IH. intros q Hq. apply Ip. right; auto. }
    assert (Ec : product (map (declared S) ps) = map (fun us => map (fun pi => nth (snd pi) (declared S (fst pi)) (LInt 0)) (combine ps us)) (combinations st ps)).
    { rewrite (map_ext (declared S) (fun v => map fst (states_at st v))) by (intros x; symmetry; auto).
      rewrite (product_codes st). unfold combinations. apply map_ext. intros us. apply map_ext. intros pi. rewrite D. auto. }
    assert (Ed : map (fun pi => nth (snd pi) (declared S (fst pi)) (LInt 0)) (combine ps (map (code_in w) ps)) = map (decode S w) ps) by apply combine_self.
    assert (Hs : In (decode S w v) (declared S v)) by (apply nth_In; auto).
    assert (Hd : In (map (decode S w) ps) (product (map (declared S) ps))).
    { rewrite Ec. apply in_map_iff. exists (map (code_in w) ps). auto. }
    rewrite entry_conv by auto.
    rewrite (nth_indep _ [] (map (G (LInt 0)) (product (map (declared S) ps)))) by (rewrite map_length; auto).
    rewrite (map_nth (fun s => map (G s) (product (map (declared S) ps)))).
    change (nth (code_in w v) (declared S v) (LInt 0)) with (decode S w v).
    destruct (place_spec _ _ Hu) as [_ Pu].
    apply nth_of_error. rewrite Ec, map_map. rewrite nth_error_map, Pu. cbn. f_equal. f_equal. exact Ed.
  Qed.

  (** Evidence, and the axes of the missing variables in any order. *)
  Variable obs : list (string * label).
  Variable e : list (string * nat).
  Hypothesis En : encodes S obs e.
  Hypothesis NDo : NoDup (map fst obs).
  Hypothesis Io : incl (map fst obs) (b_nodes b).
  Variable ms : list string.
  Hypothesis Pm : Permutation ms (missing b e).

  Lemma ms_In x : In x ms <-> In x (b_nodes b) /\ ~ In x (map fst obs).
  Proof.
    rewrite <- (encodes_keys S obs e En). split.
    - intros H. apply (Permutation_in _ Pm) in H. apply filter_In in H as [H1 H2]. split; auto. intros X.
      apply (memb_In _ String.eqb_spec) in X. apply negb_true_iff in H2. destruct (eq_true_false_abs _ X H2).
    - intros [H1 H2]. apply (Permutation_in _ (Permutation_sym Pm)). apply filter_In. split; auto.
      destruct (smem x (dkeys e)) eqn:Q; auto. exfalso. apply H2. apply (memb_In _ String.eqb_spec). exact Q.
  Qed.

  Lemma ms_NoDup : NoDup ms.
  Proof.
    apply (Permutation_NoDup (Permutation_sym Pm)). apply NoDup_filter.
    destruct (fitted_inv b S fs F) as (NO & _). apply NO.
  Qed.

  Lemma all_vars : Permutation (vars N) (ms ++ map fst obs).
  Proof.
    rewrite N_vars. apply NoDup_Permutation.
    - destruct (fitted_inv b S fs F) as (NO & _). apply NO.
    - apply BbnProofs.NoDup_app_intro; auto using ms_NoDup. intros x Hx Ho. apply ms_In in Hx. tauto.
    - intros x. rewrite in_app_iff, ms_In. destruct (in_dec string_dec x (map fst obs)) as [H|H]; [|tauto].
      split; auto.
  Qed.

  Lemma Pr_missing (P : assign -> bool) : looks (fun v => In v (vars N)) P ->
    Pr N (fun w => (obsA obs (at_ w) && P (at_ w))%bool) =
    sumover (declared S) ms (fun a => if P a then jointf N a else 0%Qc) (decode S e).
  Proof.
    intros LP. destruct N_shape as [SO CS].
    assert (C : closed_in N) by (intros v c I; apply (ok_parents N SO v c I)).
    assert (Ov : forall x, In x (map fst obs) -> In x (vars N)) by (intros x Hx; apply (Permutation_in _ (Permutation_sym N_vars)); auto).
    assert (L2 : looks (fun v => In v (vars N)) (fun a => obsA obs a && P a)%bool) by (apply and_looks; auto; apply obsA_looks; auto).
    rewrite (Pr_mass N (fun a => obsA obs a && P a)%bool (decode S e) SO L2). unfold mass.
    set (g := fun a => if P a then jointf N a else 0%Qc).
    assert (Dg : dep (vars N) g) by (apply mass_dep; auto).
    rewrite (sumover_perm _ (vars N) (ms ++ map fst obs)); [|apply (dep_ext (vars N)), mass_dep; auto|apply all_vars].
    rewrite sumover_app.
    rewrite (sumover_dom_in (states_of N) (declared S)).
    2:{ intros x Hx. apply N_states. apply ms_In in Hx. tauto. }
    apply sumover_ext. intros a Ha _.
    assert (OA : forall c, obsA obs c = agree (map fst obs) c (decode S e)).
    { intros c. apply eq_true_iff_eq. rewrite agree_true. split.
      - intros H x Hx. apply in_map_iff in Hx as ([x' y] & <- & Hx). cbn [fst].
        rewrite (obsA_val obs c x' y H Hx). symmetry. apply (encodes_get S obs e En NDo x' y Hx).
      - intros H. unfold obsA. apply forallb_forall. intros [x y] Hx. cbn [fst snd].
        rewrite (H x) by (apply in_map_iff; exists (x, y); auto).
        rewrite (proj2 (encodes_get S obs e En NDo x y Hx)). destruct (label_eqb_spec y y); congruence. }
    rewrite (sumover_ext _ _ _ (fun c => if agree (map fst obs) c (decode S e) then g c else 0%Qc)).
    2:{ intros c _ _. rewrite <- OA. unfold g. destruct (obsA obs c); auto. }
    rewrite sumover_pin; auto.
    - apply (dep_ext _ g Dg). intros x. unfold ovr. destruct (smem x (map fst obs)) eqn:Q; auto.
      apply (memb_In _ String.eqb_spec) in Q. symmetry. apply Ha. intros X. apply ms_In in X. tauto.
    - apply (dep_ext _ g Dg).
    - intros x Hx. assert (Hn : In x (b_nodes b)) by auto. rewrite N_states by auto.
      destruct (fitted_inv b S fs F) as (_ & _ & DS & _). split; [|apply DS; auto].
      apply in_map_iff in Hx as ([x' y] & <- & Hx). cbn [fst]. apply nth_In. apply (encodes_get S obs e En NDo x' y Hx).
  Qed.

  Lemma cell_codes w : In w (cells st ms e) -> forall x, In x (b_nodes b) -> (code_in w x < List.length (declared S x))%nat.
  Proof.
    intros Hw x Hx. destruct st_facts as (SO & D & _). apply in_map_iff in Hw as (u & <- & Hu). rewrite code_in_app.
    destruct (smem x (dkeys e)) eqn:Q.
    - apply (memb_In _ String.eqb_spec) in Q. unfold dkeys in Q. rewrite (encodes_keys S obs e En) in Q.
      apply in_map_iff in Q as ([x' y] & E & Hy). cbn in E. subst x'. apply (encodes_get S obs e En NDo x y Hy).
    - assert (Hm : In x ms).
      { apply ms_In. split; auto. intros X. rewrite <- (encodes_keys S obs e En) in X.
        apply (memb_In _ String.eqb_spec) in X. destruct (eq_true_false_abs _ X Q). }
      apply product_In in Hu. clear -Hu Hm D. revert u Hu. induction ms as [|m l IH]; intros u Hu; [destruct Hm|].
      cbn [map] in Hu. inversion Hu as [|? i ? u' Hi Hu']; subst. cbn. unfold code_in. cbn.
      destruct (String.eqb_spec x m) as [->|Nx].
      + apply in_seq in Hi. rewrite (card_declared S st D) in Hi. lia.
      + destruct Hm as [->|Hm]; [congruence|]. apply (IH Hm u' Hu').
  Qed.

  Lemma total_weight : Qsum (weight st (b_cpds b)) (cells st ms e) = Pr N (observed obs).
  Proof.
    destruct st_facts as (SO & D & _). destruct N_shape as [Sh CS].
    assert (C : closed_in N) by (intros v c I; apply (ok_parents N Sh v c I)).
    rewrite (Qsum_ext _ (fun w => jointf N (decode S w))) by (intros w Hw; apply weight_joint, cell_codes; auto).
    rewrite (cells_sum S st D); auto using ms_NoDup.
    - transitivity (Pr N (fun w => (obsA obs (at_ w) && (fun _ => true) (at_ w))%bool)).
      + rewrite (Pr_missing (fun _ => true)); [reflexivity|]. intros ? ? ?. auto.
      + unfold Pr. f_equal. apply filter_ext. intros w. rewrite andb_true_r. reflexivity.
    - apply (dep_ext (vars N)), jointf_dep; auto.
    - intros m Hm Q. unfold dkeys in Q. rewrite (encodes_keys S obs e En) in Q. apply ms_In in Hm. tauto.
  Qed.

  Lemma state_weight v i s : In v (b_nodes b) -> nth_error (declared S v) i = Some s ->
    Qsum (weight st (b_cpds b)) (filter (fun w => Nat.eqb (code_in w v) i) (cells st ms e)) = Pr_and N obs v s.
  Proof.
    intros Hv Hi. destruct st_facts as (SO & D & _). destruct N_shape as [Sh CS].
    assert (C : closed_in N) by (intros u c I; apply (ok_parents N Sh u c I)).
    assert (L : looks (fun x => In x (vars N)) (fun a => label_eqb (a v) s)) by (apply is_looks, (Permutation_in _ (Permutation_sym N_vars)); auto).
    rewrite Qsum_filter.
    rewrite (Qsum_ext _ (fun w => if label_eqb (decode S w v) s then jointf N (decode S w) else 0%Qc)).
    - rewrite (cells_sum S st D (fun a => if label_eqb (a v) s then jointf N a else 0%Qc)); auto using ms_NoDup.
      + rewrite Pr_and_obs. rewrite (Pr_missing (fun a => label_eqb (a v) s)); auto.
      + apply (dep_ext (vars N)). apply (mass_dep N (fun a => label_eqb (a v) s)); auto.
      + intros m Hm Q. unfold dkeys in Q. rewrite (encodes_keys S obs e En) in Q. apply ms_In in Hm. tauto.
    - intros w Hw. rewrite weight_joint by (apply cell_codes; auto).
      assert (ND : NoDup (declared S v)) by (destruct (fitted_inv b S fs F) as (_ & _ & DS & _); apply DS; auto).
      pose proof (seq_lookup_eq (declared S v) (code_in w v) i s (LInt 0) ND (cell_codes w Hw v Hv) Hi) as Q.
      fold (decode S w v) in Q. change (nth (code_in w v) (declared S v) (LInt 0)) with (decode S w v) in Q.
      destruct (Nat.eqb_spec (code_in w v) i), (label_eqb_spec (decode S w v) s); tauto.
  Qed.
End Fitted.
