(** * NetBridge: a fitted BayesianNetwork is a network on which the inference engine is exact. *)
From Coq Require Import List Bool Arith ZArith Lia String QArith Qcanon Permutation Relations.
From Verif Require Import Base QcX Digraph BbnModel SumOver SmModel SmProofs SmHist SmThms NetModel NetProofs NetFit NetThms.
From Verif Require Kruskal InferModel InferSpec InferProofs InferEngine InferOps InferMain InferThms.
Import ListNotations.
Local Open Scope list_scope.

(** The data frames of [bn.cpds] as the engine reads them. *)
Definition conv (f : frame) : InferModel.frame := InferModel.mkFrame (f_index f) (f_names f) (f_columns f) (f_rows f).

Definition as_input (b : bn) (fs : list (string * frame)) : InferModel.bnet :=
  InferModel.mkBnet (b_nodes b) (map (fun vf => (fst vf, conv (snd vf))) fs).

Lemma find_combine {A B} (eqb : A -> A -> bool) (S : forall x y, reflect (x = y) (eqb x y)) (F : A -> B) l s : In s l ->
  find (fun sr => eqb (fst sr) s) (combine l (map F l)) = Some (s, F s).
Proof.
  induction l as [|x l IH]; [intros []|]. cbn. destruct (S x s) as [->|Ne]; auto. intros [->|H]; [congruence|auto].
Qed.

Lemma entry_conv idx ps cols G s u : In s idx -> In u cols ->
  InferOps.entry (conv (mkFrame idx ps cols (map (fun s => map (G s) cols) idx))) s u = G s u.
Proof.
  intros Hs Hu. unfold InferOps.entry, InferOps.row_of. cbn [conv InferModel.fr_index InferModel.fr_rows InferModel.fr_columns f_index f_rows f_columns].
  rewrite (find_combine label_eqb label_eqb_spec (fun s => map (G s) cols) idx s Hs). cbn [snd].
  rewrite (find_combine InferOps.labels_eqb InferOps.labels_eqb_spec (G s) cols u Hu). auto.
Qed.

(** ** Connectivity *)
Definition joined_by (es : list (string * string)) : string -> string -> Prop :=
  clos_refl_trans string (fun u v => In (u, v) es \/ In (v, u) es).

Lemma joined_by_sym es x y : joined_by es x y -> joined_by es y x.
Proof.
  induction 1 as [x y H|x|x y z H1 IH1 H2 IH2]; [apply rt_step; tauto|apply rt_refl|eapply rt_trans; eauto].
Qed.

Lemma linked_names g b x y : reached g -> named g -> bn_init g = Ok b -> linked (edges g) x y ->
  joined_by (b_edges b) (name_of x) (name_of y).
Proof.
  intros R N E. pose proof (reached_wf g R) as W. destruct (constructor_spec g R N) as [C _].
  destruct (C (linked_dec_init g b W E)) as (b' & E' & HE & _). rewrite E in E'. injection E' as <-.
  induction 1 as [x y H|x|x y H IH|x y z H1 IH1 H2 IH2].
  - apply rt_step. left. apply HE. destruct (edges_nodes g x y W H) as [Hx Hy].
    rewrite <- (named_node g x N Hx), <- (named_node g y N Hy). auto.
  - apply rt_refl.
  - apply joined_by_sym; auto.
  - eapply rt_trans; eauto.
Qed.

Lemma nstep_same b op : b_nodes (fst (nstep b op)) = b_nodes b /\ b_edges (fst (nstep b op)) = b_edges b.
Proof.
  assert (S : forall arg, b_nodes (fst (set_node_states b arg)) = b_nodes b /\ b_edges (fst (set_node_states b arg)) = b_edges b).
  { intros arg. unfold set_node_states. destruct (negb _); [auto|]. destruct (existsb _ _); [auto|]. destruct (mapM _ _); auto. }
  destruct op as [arg|d|d m p e]; cbn [nstep]; [auto|apply S|].
  pose proof (fit_cpds_cases b d m p e) as C. destruct (b_states b) as [st|]; [|rewrite C; auto].
  destruct (forallb _ _); [|rewrite C; auto]. destruct (way m p e); [rewrite C; auto|]. destruct C as (x & ->). auto.
Qed.

Lemma nrun_same ops : forall b, b_nodes (nrun b ops) = b_nodes b /\ b_edges (nrun b ops) = b_edges b.
Proof.
  induction ops as [|op ops IH]; intros b; [auto|].
  change (nrun b (op :: ops)) with (nrun (fst (nstep b op)) ops). destruct (IH (fst (nstep b op))) as [-> ->]. apply nstep_same.
Qed.

Lemma reached_joined b x y : reached_net b -> In x (b_nodes b) -> In y (b_nodes b) -> joined_by (b_edges b) x y.
Proof.
  intros (g & ops & R & N & K & b0 & E & ->). destruct (nrun_same ops b0) as [-> ->]. clear K ops.
  pose proof (reached_wf g R) as W. pose proof (linked_dec_init g b0 W E) as [AC AL]. intros Hx Hy.
  destruct (init_spec g W N) as [C _]. destruct (C (conj AC AL)) as (b' & E' & _ & _ & _ & _ & HE & HN).
  rewrite E in E'. injection E' as <-.
  assert (I : forall z, In z (b_nodes b0) -> In (LStr z) (nodes g)).
  { intros z Hz. apply HN in Hz as (t & [H|H]); apply HE in H; apply (edges_nodes g) in H; tauto. }
  apply (linked_names g b0 (LStr x) (LStr y)); auto.
Qed.

Lemma fitted_joined b S fs x y : fitted b S fs -> In x (b_nodes b) -> In y (b_nodes b) -> joined_by (b_edges b) x y.
Proof.
  intros (b0 & d & m & p & e & R & _ & _ & _ & _ & E & _).
  destruct (nstep_same b0 (FitCpds d m p e)) as [En Ee]. cbn [nstep] in En, Ee. rewrite E in En, Ee. cbn [fst] in En, Ee.
  rewrite En, Ee. apply reached_joined; auto.
Qed.

(** ** The engine's requirements *)
Theorem fitted_good b S fs : fitted b S fs -> b_nodes b <> [] ->
  (forall v, In v (b_nodes b) -> InferModel.is_identifier v = true) -> ~ In "self"%string (b_nodes b) ->
  InferOps.good_bn (as_input b fs).
Proof.
  intros F Ne Id Self. destruct (fitted_inv b S fs F) as (NO & NS & DS & P & K).
  assert (NDf : NoDup (map fst fs)) by (eapply Permutation_NoDup; [symmetry; exact P|apply NO]).
  set (bi := as_input b fs). set (N := InferOps.net_of bi).
  assert (Vars : InferSpec.vars N = map fst fs).
  { unfold N, InferOps.net_of, InferSpec.vars, bi, as_input. cbn [InferModel.bn_cpds]. rewrite !map_map. auto. }
  assert (NIn : forall v c, In (v, c) N <-> exists f, In (v, f) fs /\ c = InferSpec.mkCpd (f_index f) (f_names f) (InferOps.entry (conv f))).
  { intros v c. unfold N, InferOps.net_of, bi, as_input. cbn [InferModel.bn_cpds]. rewrite map_map, in_map_iff. cbn [fst snd conv InferModel.fr_index InferModel.fr_names]. split.
    - intros ([u f] & [= <- <-] & H). eauto.
    - intros (f & H & ->). exists (v, f). auto. }
  assert (FV : forall v f, In (v, f) fs -> In v (b_nodes b)).
  { intros v f H. apply (Permutation_in _ P), in_map_iff. exists (v, f). auto. }
  assert (VF : forall v, In v (b_nodes b) -> exists f, In (v, f) fs).
  { intros v H. destruct (fitted_frame_for b S fs v F H) as (f & _ & X). eauto. }
  assert (FI : forall v f, In (v, f) fs -> f_index f = declared S v /\ f_names f = ssort (get_parents b v) /\ f_columns f = product (map (declared S) (ssort (get_parents b v)))).
  { intros v f H. destruct (K v f H) as (G & -> & _). auto. }
  assert (SO : forall v, In v (b_nodes b) -> InferSpec.states_of N v = declared S v).
  { intros v Hv. unfold InferSpec.states_of. destruct (find _ N) as [[u c]|] eqn:E.
    - apply find_some in E as [E X]. cbn in X. apply String.eqb_eq in X. subst u. apply NIn in E as (f & H & ->). cbn. apply FI; auto.
    - exfalso. destruct (VF v Hv) as (f & H).
      assert (X : In (v, InferSpec.mkCpd (f_index f) (f_names f) (InferOps.entry (conv f))) N) by (apply NIn; eauto).
      apply (find_none _ _ E) in X. cbn in X. rewrite String.eqb_refl in X. discriminate. }
  assert (PN : forall v, incl (ssort (get_parents b v)) (b_nodes b)) by (intros v; apply parents_nodes; auto).
  assert (FA : forall v f cs, In (v, f) fs -> In cs (f_columns f) <-> Forall2 (fun p x => In x (InferSpec.states_of N p)) (f_names f) cs).
  { intros v f cs H. destruct (FI v f H) as (_ & -> & ->). rewrite product_In. specialize (PN v). revert cs PN.
    generalize (ssort (get_parents b v)). intros l. induction l as [|p l IH]; intros cs I; split; intros X; inversion X; subst; constructor.
    - rewrite SO; auto. apply I; left; auto.
    - apply IH; auto. intros q Hq; apply I; right; auto.
    - rewrite <- SO; auto. apply I; left; auto.
    - apply IH; auto. intros q Hq; apply I; right; auto. }
  assert (Arrows : forall x y, In (x, y) (InferSpec.parent_arrows N) <-> In (x, y) (b_edges b)).
  { intros x y. unfold InferSpec.parent_arrows. rewrite in_flat_map. split.
    - intros ([v c] & H & X). apply NIn in H as (f & H & ->). cbn in X. apply in_map_iff in X as (p & [= -> ->] & Hp).
      apply get_parents_In. rewrite (proj1 (proj2 (FI y f H))) in Hp. apply (Permutation_in _ (ssort_Perm _)). auto.
    - intros H. assert (Hy : In y (b_nodes b)) by (apply (no_touch _ NO); exists x; auto).
      destruct (VF y Hy) as (f & Hf). exists (y, InferSpec.mkCpd (f_index f) (f_names f) (InferOps.entry (conv f))).
      split; [apply NIn; eauto|]. cbn. apply in_map_iff. exists x. split; auto.
      rewrite (proj1 (proj2 (FI y f Hf))). apply (Permutation_in _ (Permutation_sym (ssort_Perm _))). apply get_parents_In; auto. }
  assert (EN : forall v f s ps, In (v, f) fs -> In s (f_index f) -> In ps (f_columns f) ->
     (0 <= InferOps.entry (conv f) s ps)%Qc /\ Qsum (fun s => InferOps.entry (conv f) s ps) (f_index f) = 1%Qc).
  { intros v f s ps H Hs Hp. destruct (K v f H) as (G & -> & GK). cbn [f_index f_columns] in *.
    destruct (GK ps Hp) as [G1 G2]. split.
    - rewrite entry_conv; auto.
    - rewrite <- G2. apply Qsum_ext. intros t Ht. apply entry_conv; auto. }
  split; [|split; [|split; [|split]]]; fold N.
  - constructor; unfold bi, as_input; cbn [InferModel.bn_cpds InferModel.bn_nodes].
    + intros v fr H. apply in_map_iff in H as ([u f] & [= <- <-] & H). cbn. destruct (K u f H) as (G & -> & _). cbn. apply map_length.
    + intros v fr rw H. apply in_map_iff in H as ([u f] & [= <- <-] & H). cbn. destruct (K u f H) as (G & -> & _). cbn.
      intros X. apply in_map_iff in X as (s & <- & _). apply map_length.
    + intros v fr H. apply in_map_iff in H as ([u f] & [= <- <-] & H). cbn. rewrite (proj2 (proj2 (FI u f H))).
      apply product_NoDup. apply Forall_forall. intros l Hl. apply in_map_iff in Hl as (p & <- & Hp). apply DS. apply (PN u). auto.
    + intros v fr cs H. apply in_map_iff in H as ([u f] & [= <- <-] & H). cbn [snd conv InferModel.fr_columns InferModel.fr_names].
      apply (FA u f); auto.
    + intros v. rewrite map_map. cbn [fst]. split; apply Permutation_in; [symmetry|]; exact P.
  - constructor.
    + rewrite Vars. auto.
    + intros X. assert (Z : map fst fs = []) by (rewrite <- Vars, X; auto). rewrite Z in P. apply Permutation_nil in P. auto.
    + intros v c H. apply NIn in H as (f & H & ->). cbn. rewrite (proj1 (FI v f H)). destruct (DS v (FV v f H)) as (A & B & _). auto.
    + intros v c H. apply NIn in H as (f & H & ->). cbn [InferSpec.parents]. destruct (FI v f H) as (_ & -> & _).
      split; [apply ssort_NoDup, get_parents_NoDup, NO|]. intros p Hp. rewrite Vars. apply (Permutation_in _ (Permutation_sym P)). apply (PN v); auto.
    + intros x X. apply (no_dag _ NO x). eapply path_mono; [|exact X]. intros [u v]. apply Arrows.
    + intros v c s ps H. apply NIn in H as (f & H & ->). cbn [InferSpec.states InferSpec.parents InferSpec.prob]. intros Hs Hp.
      apply (EN v f s ps); auto. apply (FA v f ps H). auto.
  - intros v c ps H. apply NIn in H as (f & H & ->). cbn [InferSpec.states InferSpec.parents InferSpec.prob]. intros Hp.
    apply (FA v f ps H) in Hp. destruct (DS v (FV v f H)) as (A & _). rewrite <- (proj1 (FI v f H)) in A.
    destruct (f_index f) as [|s l] eqn:El; [congruence|]. rewrite <- El. apply (EN v f s ps); auto. rewrite El. left; auto.
  - split; rewrite Vars.
    + intros v Hv. apply Id. apply (Permutation_in _ P); auto.
    + intros X. apply Self. apply (Permutation_in _ P); auto.
  - intros x y Hx Hy. rewrite Vars in Hx, Hy. apply (Permutation_in _ P) in Hx, Hy.
    pose proof (fitted_joined b S fs x y F Hx Hy) as J. clear -J Arrows.
    induction J as [x y H|x|x y z H1 IH1 H2 IH2]; [apply rt_step; rewrite !Arrows; auto|apply rt_refl|eapply rt_trans; eauto].
Qed.

(** ** From data to answers *)
Section EndToEnd.
  Import InferSpec InferMain InferEngine InferOps InferThms.

  (** Two networks whose tables agree on the states have the same probabilities. *)
  Definition same_tables (N N' : net) : Prop :=
    Forall2 (fun vc vc' => fst vc = fst vc' /\ states (snd vc) = states (snd vc') /\ parents (snd vc) = parents (snd vc') /\
      forall s ps, In s (states (snd vc)) -> Forall2 (fun p x => In x (states_of N p)) (parents (snd vc)) ps ->
        prob (snd vc) s ps = prob (snd vc') s ps) N N'.

  Lemma same_worlds N N' : Forall2 (fun vc vc' : string * cpd => fst vc = fst vc' /\ states (snd vc) = states (snd vc')) N N' ->
    all_worlds N = all_worlds N'.
  Proof.
    induction 1 as [|[v c] [v' c'] N N' [E1 E2] F IH]; cbn in *; auto. subst. rewrite E2, IH. auto.
  Qed.

  Lemma same_joint N N' w : shape_ok N -> same_tables N N' -> In w (all_worlds N) -> joint N w = joint N' w.
  Proof.
    intros SO F Hw. unfold joint.
    assert (G : forall M M', incl M N -> Forall2 (fun vc vc' => fst vc = fst vc' /\ states (snd vc) = states (snd vc') /\ parents (snd vc) = parents (snd vc') /\
        forall s ps, In s (states (snd vc)) -> Forall2 (fun p x => In x (states_of N p)) (parents (snd vc)) ps ->
        prob (snd vc) s ps = prob (snd vc') s ps) M M' ->
      Qprod (fun vc => prob (snd vc) (at_ w (fst vc)) (map (at_ w) (parents (snd vc)))) M =
      Qprod (fun vc => prob (snd vc) (at_ w (fst vc)) (map (at_ w) (parents (snd vc)))) M').
    { intros M M' I X. induction X as [|[v c] [v' c'] M M' (E1 & E2 & E3 & E4) X IH]; [auto|].
      unfold Qprod in *. cbn [fold_right]. rewrite IH by (intros z Hz; apply I; right; auto). f_equal.
      cbn [fst snd] in *. subst v'. rewrite <- E3.
      assert (Hvc : In (v, c) N) by (apply I; left; auto).
      apply E4.
      - assert (S : states_of N v = states c).
        { unfold states_of. destruct (find _ N) as [[u c2]|] eqn:Ef.
          - apply find_some in Ef as [Ef Y]. cbn in Y. apply String.eqb_eq in Y. subst u. cbn. f_equal.
            assert (D : dget String.eqb N v = Some c) by (apply (In_dget _ String.eqb_spec); [apply SO|auto]).
            assert (D2 : dget String.eqb N v = Some c2) by (apply (In_dget _ String.eqb_spec); [apply SO|auto]). congruence.
          - apply (find_none _ _ Ef) in Hvc. cbn in Hvc. rewrite String.eqb_refl in Hvc. discriminate. }
        rewrite <- S. apply all_worlds_state; auto. apply SO. apply in_map_iff. exists (v, c). auto.
      - destruct (ok_parents N SO v c Hvc) as [_ PI]. clear -PI Hw SO. induction (parents c) as [|p ps IHp]; cbn; constructor.
        + apply all_worlds_state; auto. apply SO. apply PI; left; auto.
        + apply IHp. intros q Hq; apply PI; right; auto. }
    apply G; auto. apply incl_refl.
  Qed.

  Lemma same_Pr N N' P : shape_ok N -> same_tables N N' -> Pr N P = Pr N' P.
  Proof.
    intros SO F. unfold Pr. rewrite <- (same_worlds N N').
    - apply Qsum_ext. intros w Hw. apply filter_In in Hw as [Hw _]. apply same_joint; auto.
    - clear -F. unfold same_tables in F. induction F as [|x y M M' (A & B & _) F IH]; constructor; auto.
  Qed.

  Lemma same_cond N N' obs v s : shape_ok N -> same_tables N N' -> cond_prob N obs v s = cond_prob N' obs v s.
  Proof.
    intros SO F. unfold cond_prob, Pr_and. rewrite !(same_Pr N N') by auto. auto.
  Qed.

  (** The network with the structure's parents and the relative frequencies of the data as tables. *)
  Definition learned (S : list (string * list label)) (b : bn) (d : df) method prior ess : net :=
    map (fun v =>
      let ps := ssort (get_parents b v) in
      let m := List.length (product (map (declared S) ps)) in
      (v, mkCpd (declared S v) ps
            (frequency (asked_smoothing method prior ess (List.length (declared S v)) m) (declared S)
               (filter (usable (declared S) (b_nodes b)) (d_rows d)) v ps))) (ssort (b_nodes b)).

  (** Complete data: distinct columns, at least one row, no missing value, one kind of value per column. *)
  Definition complete (d : df) : Prop :=
    NoDup (d_cols d) /\ d_rows d <> [] /\
    (forall r c, In r (d_rows d) -> In c (d_cols d) -> at_col r c <> None) /\
    (forall c, In c (d_cols d) -> one_kind (drop_none (map (fun r => at_col r c) (d_rows d)))).

  (** Both networks are well formed together. *)
  Lemma same_vars N N' : same_tables N N' -> vars N = vars N'.
  Proof. unfold same_tables, vars. induction 1 as [|x y M M' (A & _) F IH]; cbn; congruence. Qed.

  Lemma same_states N N' v : same_tables N N' -> states_of N v = states_of N' v.
  Proof.
    unfold same_tables, states_of. induction 1 as [|x y M M' (A & B & _) F IH]; cbn; auto. rewrite A. destruct (String.eqb (fst y) v); auto.
  Qed.

  Lemma same_arrows N N' : same_tables N N' -> parent_arrows N = parent_arrows N'.
  Proof. unfold same_tables, parent_arrows. induction 1 as [|x y M M' (A & _ & B & _) F IH]; cbn; auto. rewrite A, B, IH. auto. Qed.

  Lemma same_In N N' v c' : same_tables N N' -> In (v, c') N' -> exists c, In (v, c) N /\ states c = states c' /\ parents c = parents c' /\
    forall s ps, In s (states c) -> Forall2 (fun p x => In x (states_of N p)) (parents c) ps -> prob c s ps = prob c' s ps.
  Proof.
    intros F. set (so := states_of N) in *.  unfold same_tables in F.
    change (Forall2 (fun vc vc' => fst vc = fst vc' /\ states (snd vc) = states (snd vc') /\ parents (snd vc) = parents (snd vc') /\
      forall s ps, In s (states (snd vc)) -> Forall2 (fun p x => In x (so p)) (parents (snd vc)) ps ->
        prob (snd vc) s ps = prob (snd vc') s ps) N N') in F. clearbody so. revert N' F.
    induction N as [|[u c] M IH]; intros N' F; inversion F as [|? [u' d] ? M' H F']; subst; [intros []|].
    destruct H as (A & B & C & D). cbn [fst snd] in *. subst u'. intros [[= -> <-]|H].
    - exists c. repeat split; auto. left; auto.
    - destruct (IH M' F' H) as (c2 & I2 & E). exists c2. split; auto. right; auto.
  Qed.

  Lemma same_shape N N' : same_tables N N' -> shape_ok N -> shape_ok N'.
  Proof.
    intros F SO. pose proof (same_vars _ _ F) as EV. constructor.
    - rewrite <- EV. apply SO.
    - intros Z. subst. inversion F. subst. apply (ok_ne _ SO). auto.
    - intros v c' H. destruct (same_In N N' v c' F H) as (c & I & A & B & C). rewrite <- A. apply (ok_states _ SO v c I).
    - intros v c' H. destruct (same_In N N' v c' F H) as (c & I & A & B & C). rewrite <- B, <- EV. apply (ok_parents _ SO v c I).
    - rewrite <- (same_arrows _ _ F). apply SO.
    - intros v c' s ps H Hs Hp. destruct (same_In N N' v c' F H) as (c & I & A & B & C). rewrite <- A in Hs. rewrite <- B in Hp.
      assert (Hp' : Forall2 (fun p x => In x (states_of N p)) (parents c) ps).
      { clear -Hp F. induction Hp as [|p x l ps X Hp IH]; constructor; auto. rewrite (same_states _ _ p F). auto. }
      rewrite <- (C s ps Hs Hp'). apply (ok_nonneg _ SO v c s ps I Hs Hp').
  Qed.

  Lemma same_columns N N' : same_tables N N' -> columns_sum_1 N -> columns_sum_1 N'.
  Proof.
    intros F CS v c' ps H Hp. destruct (same_In N N' v c' F H) as (c & I & A & B & C). rewrite <- B in Hp.
    assert (Hp' : Forall2 (fun p x => In x (states_of N p)) (parents c) ps).
    { clear -Hp F. induction Hp as [|p x l ps X Hp IH]; constructor; auto. rewrite (same_states _ _ p F). auto. }
    rewrite <- A, <- (CS v c ps I Hp'). apply Qsum_ext. intros s Hs. symmetry. apply C; auto.
  Qed.

  Theorem data_to_net_full g d method prior ess : SmThms.reached g -> named g ->
    acyclic (edges g) -> all_linked g -> edges g <> [] ->
    (forall x, In (LStr x) (nodes g) -> In x (d_cols d) /\ InferModel.is_identifier x = true /\ x <> "self"%string) ->
    complete d -> sound_way method prior ess ->
    exists b0 b1 b2 S fs e, bn_init g = Ok b0 /\ fit_node_states b0 d = (b1, Ok tt) /\ node_states b2 = Ok S /\
      fit_cpds b1 d method prior ess = (b2, Ok tt) /\ cpds b2 = Ok fs /\
      InferModel.engine_new (as_input b2 fs) = Ok e /\
      (net_ok b2 /\ shape_ok (learned S b2 d method prior ess) /\ columns_sum_1 (learned S b2 d method prior ess)) /\
      (good_bn (as_input b2 fs) /\ same_tables (net_of (as_input b2 fs)) (learned S b2 d method prior ess)) /\
      (forall x y, In (x, y) (b_edges b2) <-> In (LStr x, LStr y) (edges g)) /\
      (forall x, In x (b_nodes b2) <-> In (LStr x) (nodes g)) /\
      (forall v s, In v (d_cols d) -> In s (declared S v) <-> exists r, In r (d_rows d) /\ at_col r v = Some s) /\
      filter (usable (declared S) (b_nodes b2)) (d_rows d) = d_rows d /\
      forall sc obs, Kruskal.good_sched sc -> NoDup (map fst obs) ->
        (forall v x, In (v, x) obs -> In v (b_nodes b2) /\ In x (declared S v)) ->
        exists r, InferModel.engine_query sc e obs = Ok r /\ Permutation (map fst r) (b_nodes b2) /\
          forall v s, In v (b_nodes b2) -> In s (declared S v) ->
            answer r v s = Some (cond_prob (learned S b2 d method prior ess) obs v s).
  Proof.
    intros R N AC AL NE Names (NDc & NR & Full & Kinds) SW.
    pose proof (reached_wf g R) as W.
    destruct (proj1 (constructor_spec g R N) (conj AC AL)) as (b0 & E0 & HE & NDe & NDn & HN). specialize (HN NE).
    destruct (states_fitted b0 d NDc) as (Ef & DA & Kf & Uf).
    set (arg := map (fun c => (c, unique olabel_eqb (map (fun r => at_col r c) (d_rows d)))) (d_cols d)) in *.
    assert (Acc : acceptable b0 arg).
    { split.
      - intros v Hv. unfold dkeys. rewrite Kf. apply HN in Hv. apply (Names v Hv).
      - intros c s H. pose proof (Uf c s H) as U. assert (Hc : In c (d_cols d)) by (rewrite <- Kf; apply in_map_iff; exists (c, s); auto).
        split.
        + intros X. apply U in X as (r & Hr & X). apply (Full r c); auto.
        + apply (one_kind_sub (drop_none (map (fun r => at_col r c) (d_rows d)))); auto.
          intros x Hx. apply drop_none_In. apply drop_none_In in Hx. apply U in Hx as (r & Hr & X). apply in_map_iff. eauto. }
    destruct (proj1 (states_set b0 arg DA) Acc) as (b1 & E1 & En1 & Ee1 & _ & S & NS & KS & DS).
    rewrite <- Ef in E1.
    assert (R1 : reached_net b1).
    { exists g, [FitStates d]. split; [auto|]. split; [auto|]. split; [constructor; [exact NDc|constructor]|].
      exists b0. split; [auto|]. cbn. rewrite E1. auto. }
    assert (Dec : forall v s, In v (d_cols d) -> In s (declared S v) <-> exists r, In r (d_rows d) /\ at_col r v = Some s).
    { intros v s Hv. assert (Ha : In (v, unique olabel_eqb (map (fun r => at_col r v) (d_rows d))) arg) by (apply in_map_iff; eauto).
      destruct (DS _ _ Ha) as (l & El & _ & Hl). unfold declared. rewrite El, Hl. apply (Uf _ _ Ha). }
    assert (Ne1 : forall v, In v (b_nodes b1) -> declared S v <> []).
    { intros v Hv X. rewrite En1 in Hv. apply HN, Names in Hv as [Hv _].
      destruct (d_rows d) as [|r rs] eqn:Er; [congruence|]. destruct (at_col r v) as [s|] eqn:Ea.
      - assert (Y : In s (declared S v)) by (apply Dec; auto; exists r; split; [left; auto|auto]). rewrite X in Y. destruct Y.
      - apply (Full r v (or_introl eq_refl)); auto. }
    assert (I1 : incl (b_nodes b1) (d_cols d)).
    { intros v Hv. rewrite En1 in Hv. apply HN, Names in Hv as [Hv _]. auto. }
    destruct (fit_frames b1 d method prior ess S R1 NS Ne1 I1 SW) as (b2 & E2 & En2 & Ee2 & NS2 & Ec2).
    set (fs := map (fun v => (v, fitted_frame_of S b1 d method prior ess v)) (ssort (b_nodes b1))) in *.
    assert (F : fitted b2 S fs) by (exists b1, d, method, prior, ess; repeat (split; [auto; fail|]); auto).
    assert (HN2 : forall x, In x (b_nodes b2) <-> In (LStr x) (nodes g)) by (intros x; rewrite En2, En1; apply HN).
    assert (Good : good_bn (as_input b2 fs)).
    { apply (fitted_good b2 S fs F).
      - destruct (edges g) as [|[u v] es] eqn:Eg; [congruence|]. rewrite <- Eg in *.
        assert (Huv : In (u, v) (edges g)) by (rewrite Eg; left; auto). apply edges_nodes in Huv as [Hu _]; auto.
        rewrite (named_node g u N Hu) in Hu. apply HN2 in Hu. intros X. rewrite X in Hu. destruct Hu.
      - intros v Hv. apply HN2, Names in Hv. tauto.
      - intros X. apply HN2, Names in X. tauto. }
    destruct (fitted_inv b2 S fs F) as (NO2 & _ & DS2 & P2 & _).
    assert (GP : forall v, get_parents b2 v = get_parents b1 v) by (intros v; unfold get_parents; rewrite Ee2; auto).
    assert (Same : same_tables (net_of (as_input b2 fs)) (learned S b2 d method prior ess)).
    { unfold same_tables. set (N0 := net_of (as_input b2 fs)). unfold N0 at 2, net_of, as_input, learned, fs. cbn [InferModel.bn_cpds].
      rewrite !map_map. rewrite En2.
      assert (SoN : forall v, In v (b_nodes b1) -> states_of N0 v = declared S v).
      { intros v Hv. unfold N0, net_of, as_input, fs, states_of. cbn [InferModel.bn_cpds]. rewrite !map_map. cbn [fst snd].
        apply (Permutation_in _ (Permutation_sym (ssort_Perm _))) in Hv. revert Hv.
        generalize (ssort (b_nodes b1)). intros l. induction l as [|x l IH]; [intros []|]. cbn [map find fst].
        destruct (String.eqb_spec x v) as [->|Nx]; [auto|]. intros [->|H]; [congruence|auto]. }
      assert (X : forall l, incl l (b_nodes b1) -> Forall2 (fun vc vc' => fst vc = fst vc' /\ states (snd vc) = states (snd vc') /\ parents (snd vc) = parents (snd vc') /\
          forall s ps, In s (states (snd vc)) -> Forall2 (fun p x => In x (states_of N0 p)) (parents (snd vc)) ps ->
          prob (snd vc) s ps = prob (snd vc') s ps)
        (map (fun v => (v, mkCpd (f_index (fitted_frame_of S b1 d method prior ess v)) (f_names (fitted_frame_of S b1 d method prior ess v))
                              (entry (conv (fitted_frame_of S b1 d method prior ess v))))) l)
        (map (fun v => (v, mkCpd (declared S v) (ssort (get_parents b2 v))
            (frequency (asked_smoothing method prior ess (List.length (declared S v)) (List.length (product (map (declared S) (ssort (get_parents b2 v))))))
               (declared S) (filter (usable (declared S) (b_nodes b1)) (d_rows d)) v (ssort (get_parents b2 v))))) l)).
      { induction l as [|v l IH]; intros Il; cbn [map]; constructor.
        - cbn [fst snd states parents prob]. rewrite GP. split; [auto|]. split; [auto|]. split; [auto|].
          intros s ps Hs Hp. unfold fitted_frame_of. unfold fitted_frame_of in Hs, Hp. cbn [f_index f_names] in Hs, Hp.
          apply entry_conv; auto. apply product_In.
          assert (PI : incl (ssort (get_parents b1 v)) (b_nodes b1)) by (apply parents_nodes, reached_net_ok; auto).
          clear -Hp SoN PI. induction Hp as [|p x l ps H Hp IH]; cbn; constructor.
          + rewrite <- SoN; auto. apply PI; left; auto.
          + apply IH. intros q Hq; apply PI; right; auto.
        - apply IH. intros x Hx; apply Il; right; auto. }
      apply X. intros x Hx. apply (Permutation_in _ (ssort_Perm _)); auto. }
    assert (SO2 : shape_ok (net_of (as_input b2 fs))) by (apply Good).
    assert (V2 : vars (net_of (as_input b2 fs)) = map fst fs).
    { unfold net_of, vars, as_input. cbn [InferModel.bn_cpds]. rewrite !map_map. auto. }
    assert (St2 : forall v, In v (b_nodes b2) -> states_of (net_of (as_input b2 fs)) v = declared S v).
    { intros v Hv. rewrite En2 in Hv. unfold net_of, as_input, fs, states_of. cbn [InferModel.bn_cpds]. rewrite !map_map. cbn [fst snd].
      apply (Permutation_in _ (Permutation_sym (ssort_Perm _))) in Hv. revert Hv.
      generalize (ssort (b_nodes b1)). intros l. induction l as [|x l IH]; [intros []|]. cbn [map find fst].
      destruct (String.eqb_spec x v) as [->|Nx]; [auto|]. intros [->|H]; [congruence|auto]. }
    assert (Enew : exists e, InferModel.engine_new (as_input b2 fs) = Ok e).
    { destruct Good as (G1 & G2 & _ & G4 & _). destruct (engine_new_ok (as_input b2 fs) G1 G2 G4) as (e & Ee & _). eauto. }
    destruct Enew as (e & Ee).
    exists b0, b1, b2, S, fs, e. split; [auto|]. split; [auto|]. split; [auto|]. split; [auto|]. split; [auto|]. split; [auto|].
    split; [split; [exact NO2|split; [apply (same_shape _ _ Same), SO2|apply (same_columns _ _ Same), Good]]|].
    split; [split; [exact Good|exact Same]|].
    split; [intros x y; rewrite Ee2, Ee1; apply HE|]. split; [auto|]. split; [auto|]. split.
    - apply filter_all. intros r Hr. unfold usable. apply forallb_forall. intros v Hv. rewrite En2 in Hv. apply I1 in Hv.
      destruct (at_col r v) as [s|] eqn:Ea; [|exfalso; apply (Full r v); auto].
      apply existsb_exists. exists s. split; [apply Dec; eauto|]. unfold holds. rewrite Ea. destruct (label_eqb_spec s s); auto.
    - intros sc obs GS NDo HO.
      destruct (query_exact (as_input b2 fs) sc obs Good GS) as (e' & r & Ee' & Eq & Ev & Ans & _).
      { split; auto. intros v x H. destruct (HO v x H) as [H1 H2]. rewrite V2, St2 by auto. split; auto.
        apply (Permutation_in _ (Permutation_sym P2)); auto. }
      rewrite Ee in Ee'. injection Ee' as <-. exists r. split; [auto|]. split; [rewrite Ev, V2; exact P2|].
      intros v s Hv Hs. rewrite Ans.
      + f_equal. apply same_cond; auto.
      + rewrite V2. apply (Permutation_in _ (Permutation_sym P2)); auto.
      + rewrite St2; auto.
  Qed.

  Theorem data_to_net g d method prior ess : SmThms.reached g -> named g ->
    acyclic (edges g) -> all_linked g -> edges g <> [] ->
    (forall x, In (LStr x) (nodes g) -> In x (d_cols d) /\ InferModel.is_identifier x = true /\ x <> "self"%string) ->
    complete d -> sound_way method prior ess ->
    exists b0 b1 b2 S fs e, bn_init g = Ok b0 /\ fit_node_states b0 d = (b1, Ok tt) /\ node_states b2 = Ok S /\
      fit_cpds b1 d method prior ess = (b2, Ok tt) /\ cpds b2 = Ok fs /\
      InferModel.engine_new (as_input b2 fs) = Ok e /\
      (net_ok b2 /\ shape_ok (learned S b2 d method prior ess) /\ columns_sum_1 (learned S b2 d method prior ess)) /\
      (forall x y, In (x, y) (b_edges b2) <-> In (LStr x, LStr y) (edges g)) /\
      (forall x, In x (b_nodes b2) <-> In (LStr x) (nodes g)) /\
      (forall v s, In v (d_cols d) -> In s (declared S v) <-> exists r, In r (d_rows d) /\ at_col r v = Some s) /\
      filter (usable (declared S) (b_nodes b2)) (d_rows d) = d_rows d /\
      forall sc obs, Kruskal.good_sched sc -> NoDup (map fst obs) ->
        (forall v x, In (v, x) obs -> In v (b_nodes b2) /\ In x (declared S v)) ->
        exists r, InferModel.engine_query sc e obs = Ok r /\ Permutation (map fst r) (b_nodes b2) /\
          forall v s, In v (b_nodes b2) -> In s (declared S v) ->
            answer r v s = Some (cond_prob (learned S b2 d method prior ess) obs v s).
  Proof.
    intros R N AC AL NE Names CD SW.
    destruct (data_to_net_full g d method prior ess R N AC AL NE Names CD SW)
      as (b0 & b1 & b2 & S & fs & e & E0 & E1 & ES & E2 & Ec & Ee & W & _ & Rest).
    exists b0, b1, b2, S, fs, e. do 7 (split; [auto|]). exact Rest.
  Qed.

  Theorem data_to_answers g d method prior ess : SmThms.reached g -> named g ->
    acyclic (edges g) -> all_linked g -> edges g <> [] ->
    (forall x, In (LStr x) (nodes g) -> In x (d_cols d) /\ InferModel.is_identifier x = true /\ x <> "self"%string) ->
    complete d -> sound_way method prior ess ->
    exists b0 b1 b2 S fs e, bn_init g = Ok b0 /\ fit_node_states b0 d = (b1, Ok tt) /\ node_states b2 = Ok S /\
      fit_cpds b1 d method prior ess = (b2, Ok tt) /\ cpds b2 = Ok fs /\
      InferModel.engine_new (as_input b2 fs) = Ok e /\
      (forall x y, In (x, y) (b_edges b2) <-> In (LStr x, LStr y) (edges g)) /\
      (forall x, In x (b_nodes b2) <-> In (LStr x) (nodes g)) /\
      (forall v s, In v (d_cols d) -> In s (declared S v) <-> exists r, In r (d_rows d) /\ at_col r v = Some s) /\
      filter (usable (declared S) (b_nodes b2)) (d_rows d) = d_rows d /\
      forall sc obs, Kruskal.good_sched sc -> NoDup (map fst obs) ->
        (forall v x, In (v, x) obs -> In v (b_nodes b2) /\ In x (declared S v)) ->
        exists r, InferModel.engine_query sc e obs = Ok r /\ Permutation (map fst r) (b_nodes b2) /\
          forall v s, In v (b_nodes b2) -> In s (declared S v) ->
            answer r v s = Some (cond_prob (learned S b2 d method prior ess) obs v s).
  Proof.
    intros R N AC AL NE Names CD SW.
    destruct (data_to_net g d method prior ess R N AC AL NE Names CD SW)
      as (b0 & b1 & b2 & S & fs & e & E0 & E1 & ES & E2 & Ec & Ee & _ & Rest).
    exists b0, b1, b2, S, fs, e. do 6 (split; [auto|]). exact Rest.
  Qed.
End EndToEnd.
