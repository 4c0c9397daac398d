(** * NetThms: theorems about histories of BayesianNetwork calls. *)
From Coq Require Import List Bool Arith ZArith Lia String Ascii QArith Qcanon Permutation Sorted Relations Decimal DecimalString DecimalZ.
From Verif Require Import Base QcX Digraph SmModel SmProofs SmHist SmThms NetModel NetProofs NetFit.
Import ListNotations.
Local Open Scope string_scope.
Local Open Scope list_scope.

(** ** Histories of calls on one network *)
Inductive nop :=
| SetStates (arg : list (string * list (option label)))
| FitStates (d : df)
| FitCpds (d : df) (method : string) (prior : option string) (ess : option Qc).

Definition nstep (b : bn) (op : nop) : bn * res unit :=
  match op with
  | SetStates arg => set_node_states b arg
  | FitStates d => fit_node_states b d
  | FitCpds d m p e => fit_cpds b d m p e
  end.

(** Arguments are dictionaries of sets and data frames with distinct columns. *)
Definition nop_ok (op : nop) : Prop :=
  match op with
  | SetStates arg => dict_arg arg
  | FitStates d => NoDup (d_cols d)
  | FitCpds _ _ _ _ => True
  end.

Definition nrun (b : bn) (ops : list nop) : bn := fold_left (fun b op => fst (nstep b op)) ops b.

(** The network after its construction from a structure and a history of calls, successful or not. *)
Definition net_history (g : graph) (ops : list nop) (b : bn) : Prop :=
  reached g /\ named g /\ Forall nop_ok ops /\ exists b0, bn_init g = Ok b0 /\ b = nrun b0 ops.

Definition reached_net (b : bn) : Prop := exists g ops, net_history g ops b.

(** ** Invariant *)
Record net_ok (b : bn) : Prop := {
  no_nodes : NoDup (b_nodes b);
  no_edges : NoDup (b_edges b);
  no_touch : forall x, In x (b_nodes b) <-> touched (b_edges b) x;
  no_dag : acyclic (b_edges b);
  no_states : forall st, b_states b = Some st -> states_ok st /\ incl (b_nodes b) (dkeys st)
}.

Lemma fit_arg_dict d : NoDup (d_cols d) ->
  dict_arg (map (fun c => (c, unique olabel_eqb (map (fun r => at_col r c) (d_rows d)))) (d_cols d)).
Proof.
  intros ND. split.
  - unfold dkeys. rewrite map_map, map_id. auto.
  - intros v s H. apply in_map_iff in H as (c & [= <- <-] & _). apply (unique_spec _ olabel_eqb_spec).
Qed.

Lemma same_net_ok b b' : net_ok b -> b_nodes b' = b_nodes b -> b_edges b' = b_edges b ->
  (forall st, b_states b' = Some st -> states_ok st /\ incl (b_nodes b) (dkeys st)) -> net_ok b'.
Proof.
  intros [A1 A2 A3 A4 A5] En Ee Es. constructor; rewrite ?En, ?Ee; auto.
Qed.

Lemma set_states_ok b arg : net_ok b -> dict_arg arg -> net_ok (fst (set_node_states b arg)).
Proof.
  intros NO DA. destruct (set_states_spec b arg DA) as [(_ & ->)|[(_ & _ & ->)|[(_ & _ & _ & ->)|(I & K & ->)]]]; auto.
  cbn [fst]. eapply same_net_ok; eauto. cbn [b_states b_nodes]. intros st [= <-].
  split; [apply map_states_ok; auto; intros v s H; apply (K v s H)|].
  unfold dkeys. rewrite map_map. cbn [fst]. exact I.
Qed.

(** What [fit_cpds] does to the network: nothing, or it replaces the CPDs. *)
Definition way (method : string) (prior : option string) (ess : option Qc) : option (nat -> nat -> smoothing) :=
  if String.eqb method "MaximumLikelihoodEstimator" then Some (fun _ _ => MLE)
  else if String.eqb method "BayesianEstimator" then
    match prior with
    | Some p => if String.eqb p "K2" then Some (fun _ _ => Pseudo 1%Qc)
                else if String.eqb p "BDeu" then
                  match ess with
                  | Some e => Some (fun n m => Pseudo (e / Qc_of_nat (n * m))%Qc)
                  | None => None
                  end
                else None
    | None => None
    end
  else None.

Definition prod_card (st : list (string * list (label * nat))) (ps : list string) : nat :=
  fold_right Nat.mul 1%nat (map (card st) ps).

Definition fitted_cpds (st : list (string * list (label * nat))) (b : bn) (d : df) (sm : nat -> nat -> smoothing) : list (string * table) :=
  map (fun v => let ps := ssort (get_parents b v) in
                (v, estimate_cpd st (filter full (map (coded st (b_nodes b)) (d_rows d))) (sm (card st v) (prod_card st ps)) ps v))
      (ssort (b_nodes b)).

Lemma fit_cpds_cases b d method prior ess :
  match b_states b with
  | None => fit_cpds b d method prior ess = (b, Err AttributeError)
  | Some st =>
      if forallb (fun v => smem v (d_cols d)) (b_nodes b) then
        match way method prior ess with
        | Some sm => fit_cpds b d method prior ess = (mkBn (b_nodes b) (b_edges b) (b_states b) (fitted_cpds st b d sm), Ok tt)
        | None => exists x, fit_cpds b d method prior ess = (b, Err x)
        end
      else fit_cpds b d method prior ess = (b, Err KeyError)
  end.
Proof.
  unfold fit_cpds, way, fitted_cpds. destruct (b_states b) as [st|]; auto.
  destruct (forallb _ (b_nodes b)); cbn [negb]; auto.
  destruct (String.eqb method "MaximumLikelihoodEstimator"); auto.
  destruct (String.eqb method "BayesianEstimator"); [|eauto].
  destruct prior as [p|]; [|eauto].
  destruct (String.eqb p "K2"); auto. destruct (String.eqb p "BDeu"); [|eauto].
  destruct ess as [e|]; [|eauto]. auto.
Qed.

Lemma nstep_ok b op : net_ok b -> nop_ok op -> net_ok (fst (nstep b op)).
Proof.
  intros NO K. destruct op as [arg|d|d m p e]; cbn [nstep nop_ok] in *.
  - apply set_states_ok; auto.
  - unfold fit_node_states. apply set_states_ok; auto. apply fit_arg_dict; auto.
  - pose proof (fit_cpds_cases b d m p e) as C. destruct (b_states b) as [st|] eqn:ES.
    + destruct (forallb _ _); [destruct (way m p e)|].
      * rewrite C. cbn [fst]. eapply same_net_ok; eauto. cbn. intros st' E. apply (no_states _ NO). congruence.
      * destruct C as (x & ->). auto.
      * rewrite C. auto.
    + rewrite C. auto.
Qed.

Lemma path_mono {A} (E F : list (A * A)) x y : incl E F -> path E x y -> path F x y.
Proof. intros I P. induction P; [constructor; auto|econstructor 2; eauto]. Qed.

Lemma path_labels (es : list (string * string)) (E : list (label * label)) x y :
  (forall x y, In (x, y) es -> In (LStr x, LStr y) E) -> path es x y -> path E (LStr x) (LStr y).
Proof. intros I P. induction P; [constructor; auto|econstructor 2; eauto]. Qed.

Lemma linked_dec_init g b : wf g -> bn_init g = Ok b -> acyclic (edges g) /\ all_linked g.
Proof.
  intros W E. unfold bn_init in E.
  destruct (1 <? List.length (components g))%nat eqn:C; [discriminate|].
  destruct (is_dag label_eqb (edges g)) eqn:D; cbn [negb] in E; [|discriminate].
  split.
  - apply (is_dag_acyclic label_eqb label_eqb_spec); auto.
  - apply components_le_1; auto. apply Nat.ltb_ge in C. auto.
Qed.

Lemma init_ok g b : reached g -> named g -> bn_init g = Ok b -> net_ok b /\ b_states b = None /\ b_cpds b = [].
Proof.
  intros R N E. pose proof (reached_wf g R) as W. destruct (init_spec g W N) as [H1 _].
  pose proof (linked_dec_init g b W E) as C.
  destruct (H1 C) as (b' & E' & S & P & Nn & Ne & HE & HN). rewrite E in E'. injection E' as <-.
  split; [|auto]. constructor; auto.
  - intros x Hx. apply (proj1 C (LStr x)). eapply path_labels; [|exact Hx]. intros u v. apply HE.
  - intros st Hs. congruence.
Qed.

Lemma reached_net_ok b : reached_net b -> net_ok b.
Proof.
  intros (g & ops & R & N & K & b0 & E & ->). destruct (init_ok g b0 R N E) as [NO _].
  clear E. revert b0 NO K. induction ops as [|op ops IH]; cbn; auto.
  intros b0 NO K. inversion K; subst. apply IH; auto. apply nstep_ok; auto.
Qed.

(** ** C18 *)
Theorem constructor_spec g : reached g -> named g ->
  (acyclic (edges g) /\ all_linked g -> exists b, bn_init g = Ok b /\
     (forall x y, In (x, y) (b_edges b) <-> In (LStr x, LStr y) (edges g)) /\ NoDup (b_edges b) /\ NoDup (b_nodes b) /\
     (edges g <> [] -> forall x, In x (b_nodes b) <-> In (LStr x) (nodes g))) /\
  (~ (acyclic (edges g) /\ all_linked g) -> bn_init g = Err ValueError).
Proof.
  intros R N. pose proof (reached_wf g R) as W. destruct (init_spec g W N) as [H1 H2]. split; auto.
  intros C. destruct (H1 C) as (b & E & S & P & Nn & Ne & HE & HN). exists b. repeat split; auto; try apply HE.
  - eapply init_nodes; eauto.
  - eapply init_nodes; eauto.
Qed.

(** ** C19 *)

(** Specification of the states that were set. *)
Definition declared (S : list (string * list label)) (v : string) : list label :=
  match dget String.eqb S v with Some l => l | None => [] end.

Definition same_set {A} (l m : list A) : Prop := forall x, In x l <-> In x m.

Definition acceptable (b : bn) (arg : list (string * list (option label))) : Prop :=
  incl (b_nodes b) (dkeys arg) /\ forall v s, In (v, s) arg -> ~ In None s /\ one_kind (drop_none s).

Lemma dget_map_snd {A B} (f : A -> B) (l : list (string * A)) v :
  dget String.eqb (map (fun x => (fst x, f (snd x))) l) v = match dget String.eqb l v with Some a => Some (f a) | None => None end.
Proof.
  induction l as [|[k a] l IH]; cbn; auto. destruct (String.eqb v k); auto.
Qed.

Lemma lsort_In x l : In x (lsort l) <-> In x l.
Proof. apply isort_In. Qed.

Theorem states_set b arg : dict_arg arg ->
  (acceptable b arg -> exists b', set_node_states b arg = (b', Ok tt) /\
     b_nodes b' = b_nodes b /\ b_edges b' = b_edges b /\ b_cpds b' = b_cpds b /\
     exists S, node_states b' = Ok S /\ map fst S = map fst arg /\
       forall v s, In (v, s) arg -> exists l, dget String.eqb S v = Some l /\ NoDup l /\ (forall x, In x l <-> In (Some x) s)) /\
  (~ acceptable b arg -> exists x, set_node_states b arg = (b, Err x)).
Proof.
  intros DA. destruct (set_states_spec b arg DA) as [((v & Hv & Nv) & E)|[(I & (v & s & H & Hn) & E)|[(I & _ & (v & s & H & Nk) & E)|(I & K & E)]]].
  - split; [intros [A _]; exfalso; auto|intros _; eauto].
  - split; [intros [_ A]; exfalso; destruct (A v s H); auto|eauto].
  - split; [intros [_ A]; exfalso; destruct (A v s H); auto|eauto].
  - split; [intros _|intros X; exfalso; apply X; split; auto]. rewrite E.
    eexists. split; [reflexivity|]. cbn [b_nodes b_edges b_cpds]. repeat split; auto.
    eexists. unfold node_states. cbn [b_states]. split; [reflexivity|]. rewrite !map_map. cbn [fst snd].
    split; [auto|]. intros v s H. exists (lsort (drop_none s)).
    assert (G : dget String.eqb arg v = Some s) by (apply (In_dget _ String.eqb_spec); [apply DA|auto]).
    split; [|split].
    + rewrite (map_ext (fun x : string * list (option label) => (fst x, map fst (number (lsort (drop_none (snd x))))))
                 (fun x => (fst x, lsort (drop_none (snd x))))) by (intros [a l]; cbn [fst snd]; rewrite number_keys; auto).
      rewrite (dget_map_snd (fun s => lsort (drop_none s))). rewrite G. auto.
    + eapply Permutation_NoDup; [apply isort_perm|]. apply drop_none_NoDup. apply DA in H. auto.
    + intros x. rewrite lsort_In. apply drop_none_In.
Qed.

(** The numbering that [_state_to_index] applies to the data. *)
Theorem numbering b st v : reached_net b -> b_states b = Some st -> In v (dkeys st) ->
  let l := map fst (states_at st v) in
  NoDup l /\ StronglySorted (fun x y => label_leb x y = true) l /\
  (forall i s, code (states_at st v) (Some s) = Some i <-> nth_error l i = Some s) /\
  (forall s, code (states_at st v) (Some s) = None <-> ~ In s l).
Proof.
  intros R E Hv l. destruct (no_states _ (reached_net_ok b R) st E) as [SO _].
  destruct (L_spec st SO v) as (_ & ND & _ & SL). fold l in ND, SL. split; [auto|]. split; [rewrite <- SL; apply lsort_sorted|].
  split.
  - intros i s. rewrite (code_iff st SO). split; [intros (s' & [= <-] & H); auto|eauto].
  - intros s. split.
    + intros C H. apply In_nth_error in H as (i & H).
      assert (C' : code (states_at st v) (Some s) = Some i) by (apply (code_iff st SO); eauto). congruence.
    + intros H. destruct (code _ _) as [i|] eqn:C; auto. apply (code_iff st SO) in C as (s' & [= <-] & C).
      exfalso. apply H. eapply nth_error_In; eauto.
Qed.

Theorem states_fitted b d : NoDup (d_cols d) ->
  let arg := map (fun c => (c, unique olabel_eqb (map (fun r => at_col r c) (d_rows d)))) (d_cols d) in
  fit_node_states b d = set_node_states b arg /\ dict_arg arg /\ map fst arg = d_cols d /\
  forall c s, In (c, s) arg -> forall x, In x s <-> exists r, In r (d_rows d) /\ at_col r c = x.
Proof.
  intros ND arg. split; [reflexivity|]. split; [apply fit_arg_dict; auto|]. split.
  - unfold arg. rewrite map_map, map_id. auto.
  - intros c s H x. apply in_map_iff in H as (c' & [= <- <-] & _).
    rewrite (proj2 (unique_spec _ olabel_eqb_spec _)), in_map_iff. split; intros (r & A & B); eauto.
Qed.

(** ** C20 *)

Lemma ssort_Perm l : Permutation (ssort l) l.
Proof. symmetry. apply isort_perm. Qed.

Lemma get_parents_In b v p : In p (get_parents b v) <-> In (p, v) (b_edges b).
Proof.
  unfold get_parents. rewrite in_map_iff. split.
  - intros ([a c] & <- & H). apply filter_In in H as [H E]. apply String.eqb_eq in E. cbn in *. subst. auto.
  - intros H. exists (p, v). split; auto. apply filter_In. cbn. rewrite String.eqb_refl. auto.
Qed.

Lemma get_parents_NoDup b v : NoDup (b_edges b) -> NoDup (get_parents b v).
Proof.
  unfold get_parents. intros ND. induction ND as [|[a c] l Hn ND IH]; cbn; [constructor|].
  destruct (String.eqb_spec c v) as [->|]; cbn; auto. constructor; auto.
  intros H. apply in_map_iff in H as ([a' c'] & <- & H). apply filter_In in H as [H E]. apply String.eqb_eq in E. cbn in E, H. subst. auto.
Qed.

Lemma parents_nodes b v : net_ok b -> incl (ssort (get_parents b v)) (b_nodes b).
Proof.
  intros NO p H. apply (Permutation_in _ (ssort_Perm _)) in H. apply get_parents_In in H.
  apply (no_touch _ NO). exists v. auto.
Qed.

Definition sound_way (method : string) (prior : option string) (ess : option Qc) : Prop :=
  method = "MaximumLikelihoodEstimator" \/
  method = "BayesianEstimator" /\ (prior = Some "K2" \/ prior = Some "BDeu" /\ exists e, ess = Some e /\ (0 < e)%Qc).

(** What is added to each count of a column: nothing, 1, or the equivalent sample size divided by the
    number of cells of the table ([n] states, [m] combinations of the parents' states). *)
Definition asked_smoothing (method : string) (prior : option string) (ess : option Qc) (n m : nat) : smoothing :=
  if String.eqb method "MaximumLikelihoodEstimator" then MLE
  else match prior with
       | Some "K2" => Pseudo 1
       | _ => Pseudo ((match ess with Some e => e | None => 0 end) / Qc_of_nat (n * m))%Qc
       end.

Lemma sound_way_spec method prior ess : sound_way method prior ess ->
  exists sm, way method prior ess = Some sm /\ (forall n m, sm n m = asked_smoothing method prior ess n m) /\
    (forall n m, (0 < n)%nat -> (0 < m)%nat -> smooth_ok (sm n m)).
Proof.
  unfold way, asked_smoothing. intros [->|[-> [->|[-> (e & -> & He)]]]]; cbn [String.eqb Ascii.eqb Bool.eqb].
  - eexists. split; [reflexivity|]. split; auto. intros; exact I.
  - eexists. split; [reflexivity|]. split; auto. intros. cbn. reflexivity.
  - eexists. split; [reflexivity|]. split; auto. intros n m Hn Hm. cbn [smooth_ok].
    assert (P : (0 < Qc_of_nat (n * m))%Qc) by (apply Qc_of_nat_lt; nia).
    apply Qcnot_le_lt. intros Le.
    assert (E : (e = (e / Qc_of_nat (n * m)) * Qc_of_nat (n * m))%Qc).
    { unfold Qcdiv. rewrite <- Qcmult_assoc, (Qcmult_comm (/ _)), Qc_inv_r, Qcmult_1_r; auto.
      intros Z. rewrite Z in P. apply (Qclt_not_eq _ _ P). auto. }
    apply (Qclt_not_le _ _ He). rewrite E. rewrite <- (Qcmult_0_l (Qc_of_nat (n * m))).
    apply Qcmult_le_compat_r; auto. apply Qclt_le_weak; auto.
Qed.

Lemma product_length {A} (ls : list (list A)) : List.length (product ls) = fold_right Nat.mul 1%nat (map (@List.length A) ls).
Proof.
  induction ls as [|l ls IH]; cbn [product map fold_right]; auto. rewrite <- IH.
  generalize (product ls). intros m. induction l as [|x l IHl]; cbn [flat_map]; auto.
  rewrite app_length, map_length, IHl. cbn. lia.
Qed.

Lemma node_states_declared b S : node_states b = Ok S -> exists st, b_states b = Some st /\
  (forall v, map fst (states_at st v) = declared S v) /\ dkeys st = dkeys S.
Proof.
  unfold node_states. destruct (b_states b) as [st|]; [|discriminate]. intros [= <-]. exists st. split; auto. split.
  - intros v. unfold declared, states_at. rewrite (dget_map_snd (fun s => map fst s)). destruct (dget _ st v); auto.
  - unfold dkeys. rewrite map_map. auto.
Qed.

Lemma frequency_ext sm L L' rows v ps s u : L v = L' v -> frequency sm L rows v ps s u = frequency sm L' rows v ps s u.
Proof. intros E. unfold frequency. rewrite E. auto. Qed.

Lemma usable_ext L L' vs r : (forall v, L v = L' v) -> usable L vs r = usable L' vs r.
Proof. intros E. unfold usable. induction vs; cbn; auto. rewrite E, IHvs. auto. Qed.

Lemma map_forall_eq {A B} (f g : A -> B) l : (forall x, f x = g x) -> map f l = map g l.
Proof. intros. apply map_ext; auto. Qed.

(** The CPD of one node after fitting. *)
Definition fitted_frame_of (S : list (string * list label)) (b : bn) (d : df) method prior ess (v : string) : frame :=
  let ps := ssort (get_parents b v) in
  let cols := product (map (declared S) ps) in
  let sm := asked_smoothing method prior ess (List.length (declared S v)) (List.length cols) in
  let rows := filter (usable (declared S) (b_nodes b)) (d_rows d) in
  mkFrame (declared S v) ps cols (map (fun s => map (frequency sm (declared S) rows v ps s) cols) (declared S v)).

Lemma fit_frames b d method prior ess S : reached_net b -> node_states b = Ok S ->
  (forall v, In v (b_nodes b) -> declared S v <> []) -> incl (b_nodes b) (d_cols d) -> sound_way method prior ess ->
  exists b', fit_cpds b d method prior ess = (b', Ok tt) /\
    b_nodes b' = b_nodes b /\ b_edges b' = b_edges b /\ node_states b' = Ok S /\
    cpds b' = Ok (map (fun v => (v, fitted_frame_of S b d method prior ess v)) (ssort (b_nodes b))).
Proof.
  intros R NS NE I SW. pose proof (reached_net_ok b R) as NO.
  destruct (node_states_declared b S NS) as (st & ES & D & _).
  destruct (no_states _ NO st ES) as [SO KS].
  destruct (sound_way_spec _ _ _ SW) as (sm & W & A & _).
  pose proof (fit_cpds_cases b d method prior ess) as C. rewrite ES in C.
  replace (forallb (fun v => smem v (d_cols d)) (b_nodes b)) with true in C.
  2:{ symmetry. apply forallb_forall. intros v Hv. apply (memb_In _ String.eqb_spec). auto. }
  rewrite W in C. eexists. split; [exact C|]. cbn [b_nodes b_edges b_states]. repeat split; auto.
  - unfold node_states in *. cbn [b_states]. rewrite ES in NS. auto.
  - unfold cpds. cbn [b_states b_cpds]. unfold fitted_cpds.
    set (G := fun v => fitted_frame_of S b d method prior ess v).
    assert (E : forall l, incl l (b_nodes b) ->
      mapM (fun vt => do f <- cpd_frame st (fst vt) (snd vt); Ok (fst vt, f))
        (map (fun v => (v, estimate_cpd st (filter full (map (coded st (b_nodes b)) (d_rows d)))
                             (sm (card st v) (prod_card st (ssort (get_parents b v)))) (ssort (get_parents b v)) v)) l)
      = Ok (map (fun v => (v, G v)) l)).
    { induction l as [|v l IH]; intros Hl; cbn [map mapM]; auto. cbn [fst snd].
      assert (Hv : In v (b_nodes b)) by (apply Hl; left; auto).
      rewrite (fitted_frame st SO (b_nodes b) KS (d_rows d)); auto.
      2:{ apply parents_nodes; auto. }
      2:{ rewrite D. auto. }
      cbn [bind]. rewrite IH by (intros x Hx; apply Hl; right; auto). cbn [bind]. do 3 f_equal.
      unfold G, fitted_frame_of. rewrite !D.
      assert (EL : map (fun v => map fst (states_at st v)) (ssort (get_parents b v)) = map (declared S) (ssort (get_parents b v)))
        by (apply map_ext; auto).
      assert (EP : prod_card st (ssort (get_parents b v)) = List.length (product (map (declared S) (ssort (get_parents b v))))).
      { unfold prod_card. rewrite product_length, map_map. f_equal. apply map_ext. intros p. unfold card.
        rewrite <- D, map_length. auto. }
      assert (EC : card st v = List.length (declared S v)) by (unfold card; rewrite <- D, map_length; auto).
      rewrite EL. f_equal. apply map_ext. intros s. apply map_ext. intros u.
      rewrite (frequency_ext _ _ (declared S)) by auto. rewrite A, EC, EP.
      rewrite (filter_ext _ (usable (declared S) (b_nodes b))); auto.
      intros r. apply usable_ext; auto. }
    apply E. intros x Hx. apply (Permutation_in _ (ssort_Perm _)). auto.
Qed.

Theorem fit_spec b d method prior ess S : reached_net b -> node_states b = Ok S ->
  (forall v, In v (b_nodes b) -> declared S v <> []) -> incl (b_nodes b) (d_cols d) -> sound_way method prior ess ->
  exists b' fs, fit_cpds b d method prior ess = (b', Ok tt) /\ cpds b' = Ok fs /\
    b_nodes b' = b_nodes b /\ b_edges b' = b_edges b /\ node_states b' = Ok S /\
    Permutation (map fst fs) (b_nodes b) /\
    forall v f, In (v, f) fs ->
      f_index f = declared S v /\ NoDup (f_names f) /\ (forall p, In p (f_names f) <-> In (p, v) (b_edges b)) /\
      NoDup (f_columns f) /\
      (forall u, In u (f_columns f) <-> Forall2 (fun p x => In x (declared S p)) (f_names f) u) /\
      forall u, In u (f_columns f) ->
        (forall s, In s (declared S v) ->
           cell_of f s u = frequency (asked_smoothing method prior ess (List.length (declared S v)) (List.length (f_columns f)))
                             (declared S) (filter (usable (declared S) (b_nodes b)) (d_rows d)) v (f_names f) s u /\
           (0 <= cell_of f s u)%Qc) /\
        Qsum (fun s => cell_of f s u) (declared S v) = 1%Qc.
Proof.
  intros R NS NE I SW. pose proof (reached_net_ok b R) as NO.
  destruct (fit_frames b d method prior ess S R NS NE I SW) as (b' & E & En & Ee & Es & Ec).
  destruct (node_states_declared b S NS) as (st & ES & D & _).
  destruct (no_states _ NO st ES) as [SO KS].
  destruct (sound_way_spec _ _ _ SW) as (sm & W & A & OK).
  eexists b', _. split; [exact E|]. split; [exact Ec|]. do 3 (split; [auto|]). split.
  { rewrite map_map, map_id. apply ssort_Perm. }
  intros v f H. apply in_map_iff in H as (v' & [= -> <-] & Hv). apply (Permutation_in _ (ssort_Perm _)) in Hv.
  unfold fitted_frame_of. cbn [f_index f_names f_columns].
  set (ps := ssort (get_parents b v)). set (cols := product (map (declared S) ps)).
  set (sm' := asked_smoothing _ _ _ _ _). set (rows := filter _ _).
  assert (ND : forall x, NoDup (declared S x)) by (intros x; rewrite <- D; apply (L_spec st SO x)).
  assert (PI : incl ps (b_nodes b)) by (apply parents_nodes; auto).
  assert (CI : forall u, In u cols <-> Forall2 (fun p x => In x (declared S p)) ps u).
  { intros u. unfold cols. rewrite product_In. clear. split.
    - revert u. induction ps as [|p ps IH]; intros u Hu; inversion Hu; subst; constructor; auto.
    - induction 1; cbn; constructor; auto. }
  assert (LP : forall x, In x (b_nodes b) -> (0 < List.length (declared S x))%nat).
  { intros x Hx. specialize (NE x Hx). destruct (declared S x); [congruence|cbn; lia]. }
  assert (CP : (0 < List.length cols)%nat).
  { unfold cols. rewrite product_length, map_map. clear -PI LP. induction ps as [|p ps IH]; cbn [map fold_right]; [lia|].
    assert (0 < List.length (declared S p))%nat by (apply LP, PI; left; auto).
    assert (0 < fold_right Nat.mul 1 (map (fun x => List.length (declared S x)) ps))%nat by (apply IH; intros x Hx; apply PI; right; auto).
    nia. }
  assert (SOK : smooth_ok sm') by (unfold sm'; rewrite <- A; apply OK; auto).
  split; [auto|]. split; [eapply Permutation_NoDup; [symmetry; apply ssort_Perm|]; apply get_parents_NoDup, NO|].
  split.
  { intros p. rewrite <- get_parents_In. split; apply Permutation_in; [|symmetry]; apply ssort_Perm. }
  split. { apply product_NoDup. apply Forall_forall. intros l Hl. apply in_map_iff in Hl as (p & <- & _). auto. }
  split; [auto|]. intros u Hu. split.
  - intros s Hs. rewrite cell_of_frame by auto. split; [auto|]. apply frequency_nonneg; auto.
  - rewrite (Qsum_ext _ (fun s => frequency sm' (declared S) rows v ps s u)) by (intros s Hs; apply cell_of_frame; auto).
    pose proof (frequency_sum st SO (b_nodes b) (d_rows d) sm' v ps u SOK Hv) as Q.
    cbn beta in Q. rewrite !D in Q. rewrite <- Q by auto. apply Qsum_ext. intros s Hs. unfold rows.
    rewrite (filter_ext (usable (declared S) (b_nodes b)) (usable (fun v => map fst (states_at st v)) (b_nodes b)))
      by (intros r; apply usable_ext; auto).
    apply frequency_ext. auto.
Qed.

(** ** C21 *)

(** A network whose CPDs were fitted and whose states were not changed since. *)
Definition fitted (b : bn) (S : list (string * list label)) (fs : list (string * frame)) : Prop :=
  exists b0 d method prior ess, reached_net b0 /\ node_states b0 = Ok S /\
    (forall v, In v (b_nodes b0) -> declared S v <> []) /\ incl (b_nodes b0) (d_cols d) /\ sound_way method prior ess /\
    fit_cpds b0 d method prior ess = (b, Ok tt) /\ cpds b = Ok fs.

Lemma ssort_NoDup l : NoDup l -> NoDup (ssort l).
Proof. apply isort_NoDup. Qed.

Lemma dget_fst_map {A} (F : string -> A) l v : In v l -> dget String.eqb (map (fun v => (v, F v)) l) v = Some (F v).
Proof.
  induction l as [|x l IH]; [intros []|]. cbn. destruct (String.eqb_spec v x) as [->|]; auto.
  intros [->|H]; [congruence|auto].
Qed.

Lemma fitted_inv b S fs : fitted b S fs ->
  net_ok b /\ node_states b = Ok S /\ (forall v, In v (b_nodes b) -> declared S v <> [] /\ NoDup (declared S v) /\ one_kind (declared S v)) /\
  Permutation (map fst fs) (b_nodes b) /\
  (forall v f, In (v, f) fs -> exists G, f = mkFrame (declared S v) (ssort (get_parents b v)) (product (map (declared S) (ssort (get_parents b v))))
       (map (fun s => map (G s) (product (map (declared S) (ssort (get_parents b v))))) (declared S v)) /\
     forall u, In u (product (map (declared S) (ssort (get_parents b v)))) ->
       (forall s, In s (declared S v) -> (0 <= G s u)%Qc) /\ Qsum (fun s => G s u) (declared S v) = 1%Qc).
Proof.
  intros (b0 & d & method & prior & ess & R & NS & NE & I & SW & E & Ec).
  pose proof (reached_net_ok b0 R) as NO.
  destruct (fit_frames b0 d method prior ess S R NS NE I SW) as (b' & E' & En & Ee & Es & Ec').
  rewrite E in E'. injection E' as <-. rewrite Ec in Ec'. injection Ec' as ->.
  destruct (fit_spec b0 d method prior ess S R NS NE I SW) as (b' & fs' & E' & Ec' & _ & _ & _ & PF & K).
  rewrite E in E'. injection E' as <-. rewrite Ec in Ec'. injection Ec' as <-.
  destruct (node_states_declared b0 S NS) as (st & ES & D & _).
  destruct (no_states _ NO st ES) as [SO KS].
  assert (GP : forall v, get_parents b v = get_parents b0 v) by (intros v; unfold get_parents; rewrite Ee; auto).
  split.
  { pose proof (nstep_ok b0 (FitCpds d method prior ess) NO Logic.I) as X. cbn [nstep] in X. rewrite E in X. exact X. }
  split; [auto|]. split.
  { intros v Hv. rewrite En in Hv. split; auto. rewrite <- D. split; apply (L_spec st SO v). }
  split; [rewrite En; auto|].
  intros v f H. destruct (K v f H) as (_ & _ & _ & _ & _ & Ku).
  apply in_map_iff in H as (v' & [= -> <-] & Hv). rewrite GP. unfold fitted_frame_of. eexists. split; [reflexivity|].
  intros u Hu. destruct (Ku u Hu) as [K1 K2]. unfold fitted_frame_of in K1, K2. cbn [f_columns f_names] in K1, K2.
  split.
  - intros s Hs. destruct (K1 s Hs) as [K3 K4]. rewrite K3 in K4. exact K4.
  - rewrite <- K2. apply Qsum_ext. intros s Hs. destruct (K1 s Hs) as [K3 _]. symmetry. exact K3.
Qed.

Lemma fitted_frame_for b S fs v : fitted b S fs -> In v (b_nodes b) -> exists f, dget String.eqb fs v = Some f /\ In (v, f) fs.
Proof.
  intros F Hv. destruct (fitted_inv b S fs F) as (_ & _ & _ & P & _).
  apply (Permutation_in _ (Permutation_sym P)) in Hv. apply (dget_key_Some _ String.eqb_spec) in Hv as (f & E).
  exists f. split; auto. apply (dget_In _ String.eqb_spec); auto.
Qed.

(** The parents' values in a row of the data. *)
Definition parent_values (r : list (string * option label)) (ps : list string) (u : list label) : Prop :=
  Forall2 (fun p x => at_col r p = Some x) ps u.

Lemma parent_key ps r u : Forall2 (fun p x => dget String.eqb r p = Some (CVal (Some x))) ps u ->
  mapM (fun p => match dget String.eqb r p with
                 | Some c => match cell_label c with Some l => Ok l | None => Err KeyError end
                 | None => Err KeyError
                 end) ps = Ok u.
Proof.
  induction 1 as [|p x ps u E F IH]; cbn [mapM]; auto. rewrite E. cbn [cell_label bind]. rewrite IH. auto.
Qed.

Lemma start_row_get r p x : at_col r p = Some x -> dget String.eqb (start_row r) p = Some (CVal (Some x)).
Proof.
  unfold at_col, start_row. rewrite (dget_map_snd (fun x => CVal x)).
  destruct (dget String.eqb r p) as [y|]; [intros ->; auto|discriminate].
Qed.

Lemma column_at idx ps cols G r u : In u cols ->
  Forall2 (fun p x => dget String.eqb r p = Some (CVal (Some x))) ps u ->
  cpd_column (mkFrame idx ps cols (map (fun s => map (G s) cols) idx)) ps r = Ok (map (fun s => G s u) idx).
Proof.
  intros Hu F. unfold cpd_column. rewrite (parent_key _ _ _ F). cbn [bind f_columns f_rows].
  destruct (index_of_nth _ list_eqb_spec _ _ Hu) as (j & -> & Ej). f_equal. rewrite map_map.
  apply map_ext. intros s. apply map_map_nth. auto.
Qed.

Lemma prob_of_at idx ps cols G r u s : In u cols -> In s idx ->
  Forall2 (fun p x => dget String.eqb r p = Some (CVal (Some x))) ps u ->
  prob_of (mkFrame idx ps cols (map (fun s => map (G s) cols) idx)) ps r s = Ok (G s u).
Proof.
  intros Hu Hs F. unfold prob_of. rewrite (column_at idx ps cols G r u Hu F). cbn [bind f_index].
  destruct (index_of_nth _ label_eqb_spec _ _ Hs) as (i & -> & Ei). f_equal. apply (map_map_nth (fun s => G s u)); auto.
Qed.

Lemma combine_map_r {A B} (g : A -> B) l : combine l (map g l) = map (fun x => (x, g x)) l.
Proof. induction l; cbn; auto. f_equal. auto. Qed.

(** [idxmax] returns a label of the list with the largest value. *)
Lemma idxmax_spec l best : exists q, In (idxmax best l, q) (best :: l) /\ forall x, In x (best :: l) -> (snd x <= q)%Qc.
Proof.
  revert best. induction l as [|y l IH]; intros best; cbn [idxmax].
  - exists (snd best). split; [left; destruct best; auto|]. intros x [->|[]]. apply Qcle_refl.
  - destruct (IH (if Qcltb (snd best) (snd y) then y else best)) as (q & H & M). exists q. split.
    + destruct H as [H|H]; [|right; right; auto]. destruct (Qcltb _ _); [right; left; auto|left; auto].
    + intros x Hx. assert (B : (snd (if Qcltb (snd best) (snd y) then y else best) <= q)%Qc) by (apply M; left; auto).
      destruct (Qcltb (snd best) (snd y)) eqn:C.
      * apply Qcltb_true in C. destruct Hx as [->|[->|Hx]]; auto; [|apply M; right; auto].
        eapply Qcle_trans; [apply Qclt_le_weak; exact C|exact B].
      * apply Qcltb_false in C. destruct Hx as [->|[->|Hx]]; auto; [|apply M; right; auto].
        eapply Qcle_trans; [exact C|exact B].
Qed.

(** ** Column names *)
Lemma to_int_isi z : NilZero.int_of_string (NilZero.string_of_int (Z.to_int z)) = Some (Z.to_int z).
Proof.
  apply NilZero.isi; intros E; assert (Z0 : z = 0%Z) by (rewrite <- (of_to z), E; reflexivity); subst; discriminate.
Qed.

Lemma string_of_int_inj a b : NilZero.string_of_int (Z.to_int a) = NilZero.string_of_int (Z.to_int b) -> a = b.
Proof.
  intros E. pose proof (to_int_isi a) as A. rewrite E, to_int_isi in A. injection A as A. symmetry. apply to_int_inj; auto.
Qed.

Lemma str_of_inj l x y : one_kind l -> In x l -> In y l -> str_of x = str_of y -> x = y.
Proof.
  intros [K|K] Hx Hy; destruct (K x Hx) as (a & ->), (K y Hy) as (c & ->); cbn [str_of]; intros E; f_equal; auto.
  apply string_of_int_inj; auto.
Qed.

Lemma append_inj_l (p a b : string) : (p ++ a)%string = (p ++ b)%string -> a = b.
Proof. induction p as [|c p IH]; cbn; auto. intros [= E]. auto. Qed.

Lemma col_name_inj l v x y : one_kind l -> In x l -> In y l -> col_name v x = col_name v y -> x = y.
Proof.
  intros K Hx Hy E. unfold col_name in E. apply append_inj_l in E. apply append_inj_l in E. eapply str_of_inj; eauto.
Qed.

(** Writing the columns one after the other. *)
Definition written (v : string) (P : label -> Qc) (order : list label) (r : list (string * cell)) : list (string * cell) :=
  fold_left (fun r s => dset String.eqb r (col_name v s) (CNum (P s))) order r.

Lemma written_other v P order r p : (forall s, In s order -> col_name v s <> p) ->
  dget String.eqb (written v P order r) p = dget String.eqb r p.
Proof.
  unfold written. revert r. induction order as [|s order IH]; intros r H; cbn [fold_left]; auto.
  rewrite IH by (intros x Hx; apply H; right; auto). apply (dget_dset_other _ String.eqb_spec). apply H. left; auto.
Qed.

Lemma written_get l v P order r s : one_kind l -> incl order l -> NoDup order -> In s order ->
  dget String.eqb (written v P order r) (col_name v s) = Some (CNum (P s)).
Proof.
  intros K. unfold written. revert r. induction order as [|x order IH]; intros r I ND; [intros []|].
  inversion ND; subst. cbn [fold_left]. intros [->|Hs].
  - fold (written v P order (dset String.eqb r (col_name v s) (CNum (P s)))). rewrite (written_other v P order).
    + apply (dget_dset_same _ String.eqb_spec).
    + intros y Hy E. apply (col_name_inj l) in E; auto; [subst; auto|apply I; right; auto|apply I; left; auto].
  - apply IH; auto. intros y Hy; apply I; right; auto.
Qed.

Lemma write_all idx ps cols G v order rows (U : list (string * option label) -> list label) :
  incl order idx -> (forall s p, In s order -> In p ps -> col_name v s <> p) ->
  (forall r, In r rows -> In (U r) cols) ->
  forall h : list (string * option label) -> list (string * cell),
  (forall r, In r rows -> Forall2 (fun p x => dget String.eqb (h r) p = Some (CVal (Some x))) ps (U r)) ->
  foldM (write_state (mkFrame idx ps cols (map (fun s => map (G s) cols) idx)) ps v) order (map h rows) =
  Ok (map (fun r => written v (fun s => G s (U r)) order (h r)) rows).
Proof.
  induction order as [|s order IH]; intros I Np HU h Hh; cbn [foldM].
  - f_equal.
  - unfold write_state at 1.
    assert (E : mapM (fun r => do p <- prob_of (mkFrame idx ps cols (map (fun s => map (G s) cols) idx)) ps r s;
                               Ok (dset String.eqb r (col_name v s) (CNum p))) (map h rows) =
                Ok (map (fun r => dset String.eqb (h r) (col_name v s) (CNum (G s (U r)))) rows)).
    { clear IH. induction rows as [|r rows IHr]; cbn [map mapM]; auto.
      rewrite (prob_of_at idx ps cols G (h r) (U r) s); [|apply HU; left; auto|apply I; left; auto|apply Hh; left; auto].
      cbn [bind]. rewrite IHr; [reflexivity| |]; intros r' Hr'; [apply HU|apply Hh]; right; auto. }
    rewrite E. cbn [bind]. rewrite (IH (fun x Hx => I x (or_intror Hx))); auto.
    + intros x p Hx. apply Np. right; auto.
    + intros r Hr. specialize (Hh r Hr).
      assert (Q : forall p, In p ps -> col_name v s <> p) by (intros p Hp; apply Np; auto; left; auto).
      generalize (CNum (G s (U r))). intros q0. clear -Hh Q. induction Hh as [|p x ps u E F IHF]; constructor.
      * rewrite (dget_dset_other _ String.eqb_spec); auto. apply Q. left; auto.
      * apply IHF. intros q Hq. apply Q. right; auto.
Qed.

Theorem predictions b S fs d v f order pg : fitted b S fs -> In (v, f) fs ->
  incl (f_names f) (d_cols d) ->
  Permutation order (declared S v) ->
  (forall s, In s (declared S v) -> ~ In (col_name v s) (f_names f)) ->
  (forall r, In r (d_rows d) -> exists u, parent_values r (f_names f) u /\ In u (f_columns f)) ->
  exists out, predict_probability order pg b d v = Ok (map (col_name v) order, out) /\
    Forall2 (fun r ps => exists u, parent_values r (f_names f) u /\ ps = map (fun s => CNum (cell_of f s u)) order /\
    Qsum (fun s => cell_of f s u) order = 1%Qc) (d_rows d) out.
Proof.
  intros F Hf Ic PO NC Rows. destruct (fitted_inv b S fs F) as (NO & NS & DS & P & K).
  assert (Hv : In v (b_nodes b)).
  { apply (Permutation_in _ P). apply in_map_iff. exists (v, f). auto. }
  destruct (DS v Hv) as (NE & ND & OK). destruct (K v f Hf) as (G & -> & GK).
  cbn [f_names f_columns] in *. set (ps := ssort (get_parents b v)) in *. set (cols := product (map (declared S) ps)) in *.
  assert (NDf : NoDup (map fst fs)) by (eapply Permutation_NoDup; [symmetry; exact P|apply NO]).
  assert (Df : dget String.eqb fs v = Some (mkFrame (declared S v) ps cols (map (fun s => map (G s) cols) (declared S v))))
    by (apply (In_dget _ String.eqb_spec); auto).
  unfold predict_probability, has_parents.
  replace (smem v (b_nodes b)) with true by (symmetry; apply (memb_In _ String.eqb_spec); auto). cbn [bind].
  replace (forallb (fun p => smem p (d_cols d)) (get_parents b v)) with true.
  2:{ symmetry. apply forallb_forall. intros p Hp. apply (memb_In _ String.eqb_spec). apply Ic.
      apply (Permutation_in _ (Permutation_sym (ssort_Perm _))). auto. }
  unfold predict_prob_complete, frame_of. fold ps.
  destruct F as (b0 & d0 & m & pr & es & _ & _ & _ & _ & _ & _ & Ec). rewrite Ec. cbn [bind]. rewrite Df. cbn [bind].
  set (U := fun r : list (string * option label) => map (fun p => match at_col r p with Some x => x | None => LInt 0 end) ps).
  assert (HU : forall r, In r (d_rows d) -> parent_values r ps (U r) /\ In (U r) cols).
  { intros r Hr. destruct (Rows r Hr) as (u & Pv & Hu).
    assert (E : U r = u) by (unfold U; clear -Pv; induction Pv as [|p x l u E Fo IH]; cbn; auto; rewrite E, IH; auto).
    rewrite E. auto. }
  rewrite (write_all (declared S v) ps cols G v order (d_rows d) U).
  - cbn [bind].
    assert (E : mapM (fun r => mapM (fun c => match dget String.eqb r c with Some x => Ok x | None => Err KeyError end) (map (col_name v) order))
                  (map (fun r => written v (fun s => G s (U r)) order (start_row r)) (d_rows d)) =
                Ok (map (fun r => map (fun s => CNum (G s (U r))) order) (d_rows d))).
    { generalize (d_rows d). intros l. induction l as [|r l IH]; cbn [map mapM]; auto. rewrite IH.
      assert (X : forall o, incl o order -> mapM (fun c => match dget String.eqb (written v (fun s => G s (U r)) order (start_row r)) c with Some x => Ok x | None => Err KeyError end) (map (col_name v) o)
                = Ok (map (fun s => CNum (G s (U r))) o)).
      { induction o as [|s o IHo]; intros Io; cbn [map mapM]; auto.
        rewrite (written_get (declared S v)); auto.
        - cbn [bind]. rewrite IHo; auto. intros x Hx; apply Io; right; auto.
        - intros x Hx. apply (Permutation_in _ PO); auto.
        - eapply Permutation_NoDup; [symmetry; exact PO|auto].
        - apply Io; left; auto. }
      rewrite X by apply incl_refl. auto. }
    rewrite E. cbn [bind]. eexists. split; [reflexivity|].
    assert (Y : forall l, incl l (d_rows d) -> Forall2 (fun r q => exists u, parent_values r ps u /\
    q = map (fun s => CNum (cell_of (mkFrame (declared S v) ps cols (map (fun s => map (G s) cols) (declared S v))) s u)) order /\
    Qsum (fun s => cell_of (mkFrame (declared S v) ps cols (map (fun s => map (G s) cols) (declared S v))) s u) order = 1%Qc)
        l (map (fun r => map (fun s => CNum (G s (U r))) order) l)).
    { induction l as [|r l IH]; intros Il; cbn [map]; constructor.
      - destruct (HU r (Il r (or_introl eq_refl))) as [Pv Hu]. exists (U r). split; [auto|].
        assert (C : forall s, In s order -> cell_of (mkFrame (declared S v) ps cols (map (fun s => map (G s) cols) (declared S v))) s (U r) = G s (U r)).
        { intros s Hs. apply cell_of_frame; auto. apply (Permutation_in _ PO); auto. }
        split.
        + apply map_ext_in. intros s Hs. rewrite C; auto.
        + rewrite (Qsum_ext _ (fun s => G s (U r))) by auto. rewrite (Qsum_perm _ _ _ PO). apply GK; auto.
      - apply IH. intros x Hx; apply Il; right; auto. }
    apply Y, incl_refl.
  - intros s Hs. apply (Permutation_in _ PO); auto.
  - intros s p Hs Hp E. subst p. apply (NC s); auto. apply (Permutation_in _ PO); auto.
  - intros r Hr. apply HU; auto.
  - intros r Hr. destruct (HU r Hr) as [Pv _]. clear -Pv. induction Pv as [|p x l u E Fo IH]; constructor; auto.
    apply start_row_get; auto.
Qed.

Theorem best_state b S fs d v f pg : fitted b S fs -> In (v, f) fs ->
  incl (f_names f) (d_cols d) ->
  (forall r, In r (d_rows d) -> exists u, parent_values r (f_names f) u /\ In u (f_columns f)) ->
  exists out, predict pg b d v = Ok out /\
    Forall2 (fun r x => exists u, parent_values r (f_names f) u /\ In x (declared S v) /\
    forall s, In s (declared S v) -> (cell_of f s u <= cell_of f x u)%Qc) (d_rows d) out.
Proof.
  intros F Hf Ic Rows. destruct (fitted_inv b S fs F) as (NO & NS & DS & P & K).
  assert (Hv : In v (b_nodes b)).
  { apply (Permutation_in _ P). apply in_map_iff. exists (v, f). auto. }
  destruct (DS v Hv) as (NE & ND & OK). destruct (K v f Hf) as (G & -> & GK).
  cbn [f_names f_columns] in *. set (ps := ssort (get_parents b v)) in *. set (cols := product (map (declared S) ps)) in *.
  assert (NDf : NoDup (map fst fs)) by (eapply Permutation_NoDup; [symmetry; exact P|apply NO]).
  assert (Df : dget String.eqb fs v = Some (mkFrame (declared S v) ps cols (map (fun s => map (G s) cols) (declared S v))))
    by (apply (In_dget _ String.eqb_spec); auto).
  unfold predict, has_parents.
  replace (smem v (b_nodes b)) with true by (symmetry; apply (memb_In _ String.eqb_spec); auto). cbn [bind].
  replace (forallb (fun p => smem p (d_cols d)) (get_parents b v)) with true.
  2:{ symmetry. apply forallb_forall. intros p Hp. apply (memb_In _ String.eqb_spec). apply Ic.
      apply (Permutation_in _ (Permutation_sym (ssort_Perm _))). auto. }
  unfold predict_complete, frame_of. fold ps.
  destruct F as (b0 & d0 & m & pr & es & _ & _ & _ & _ & _ & _ & Ec). rewrite Ec. cbn [bind]. rewrite Df. cbn [bind].
  cbn [f_index]. revert Rows. generalize (d_rows d). intros l Rows. induction l as [|r l IH].
  - exists []. split; auto.
  - destruct IH as (out & E & Fo); [intros r' Hr'; apply Rows; right; auto|].
    cbn [mapM]. destruct (Rows r (or_introl eq_refl)) as (u & Pv & Hu).
    rewrite (column_at (declared S v) ps cols G (start_row r) u Hu).
    2:{ clear -Pv. induction Pv; constructor; auto. apply start_row_get; auto. }
    cbn [bind f_index]. rewrite combine_map_r.
    destruct (map (fun s => (s, G s u)) (declared S v)) as [|x xs] eqn:EM.
    { destruct (declared S v); [congruence|discriminate]. }
    cbn [bind]. rewrite E. cbn [bind]. eexists. split; [reflexivity|]. constructor; auto.
    exists u. split; [auto|]. destruct (idxmax_spec xs x) as (q & Hq & M). rewrite <- EM in Hq, M.
    apply in_map_iff in Hq as (s0 & [= <- <-] & Hs0). split; [auto|].
    intros s Hs. rewrite !cell_of_frame by auto. apply (M (s, G s u)). apply in_map_iff. eauto.
Qed.

(** ** C22 *)
Lemma evidence_ok b S fs d v : fitted b S fs -> In v (d_cols d) -> incl (d_cols d) (b_nodes b) ->
  (forall r c, In r (d_rows d) -> In c (d_cols d) -> exists x, at_col r c = Some x /\ In x (declared S c)) ->
  exists es, evidence b d v = Ok es /\ List.length es = List.length (d_rows d).
Proof.
  intros F Hv I Rows. destruct (fitted_inv b S fs F) as (NO & NS & _).
  destruct (node_states_declared b S NS) as (st & ES & D & Dk). destruct (no_states _ NO st ES) as [SO KS].
  unfold evidence. rewrite ES.
  replace (forallb (fun c => smem c (dkeys st)) (d_cols d)) with true
    by (symmetry; apply forallb_forall; intros c Hc; apply (memb_In _ String.eqb_spec); auto).
  replace (smem v (d_cols d)) with true by (symmetry; apply (memb_In _ String.eqb_spec); auto). cbn [negb].
  set (cs := filter _ (d_cols d)).
  assert (Ic : incl cs (d_cols d)) by (intros c Hc; apply filter_In in Hc; tauto).
  replace (forallb (fun c => smem c (b_nodes b)) cs) with true
    by (symmetry; apply forallb_forall; intros c Hc; apply (memb_In _ String.eqb_spec); auto). cbn [negb].
  revert Rows. generalize (d_rows d). intros l. induction l as [|r l IH]; intros Rows; [exists []; auto|].
  destruct IH as (es & E & Le); [intros r' c Hr'; apply Rows; right; auto|].
  cbn [mapM]. 
  assert (X : exists e, mapM (fun c => match code (states_at st c) (at_col r c) with Some i => Ok (c, i) | None => Err KeyError end) cs = Ok e).
  { clear E. induction cs as [|c cs' IHc]; [exists []; auto|]. destruct IHc as (e & E); [intros x Hx; apply Ic; right; auto|].
    destruct (Rows r c (or_introl eq_refl) (Ic c (or_introl eq_refl))) as (x & Ex & Hx).
    rewrite <- D in Hx. apply In_nth_error in Hx as (i & Hi).
    assert (C : code (states_at st c) (Some x) = Some i) by (apply (code_iff st SO); eauto).
    cbn [mapM]. rewrite Ex, C. cbn [bind]. rewrite E. cbn [bind]. eauto. }
  destruct X as (e & X). rewrite X. cbn [bind]. rewrite E. cbn [bind]. eexists. split; [reflexivity|]. cbn. congruence.
Qed.

Theorem incomplete_predictions b S fs d v pg pgp order : fitted b S fs -> In v (b_nodes b) ->
  ~ incl (get_parents b v) (d_cols d) -> In v (d_cols d) -> incl (d_cols d) (b_nodes b) ->
  (forall r c, In r (d_rows d) -> In c (d_cols d) -> exists x, at_col r c = Some x /\ In x (declared S c)) ->
  (forall e, (pg e v < List.length (declared S v))%nat) ->
  exists out cols ps, predict pg b d v = Ok out /\ List.length out = List.length (d_rows d) /\
    (forall x, In x out -> exists i s, x = LInt (Z.of_nat i) /\ nth_error (declared S v) i = Some s) /\
    predict_probability order pgp b d v = Ok (cols, ps) /\ List.length cols = List.length (declared S v) /\
    (declared S v = map (fun i => LInt (Z.of_nat i)) (seq 0 (List.length (declared S v))) ->
       (forall x, In x out -> In x (declared S v)) /\ cols = map (col_name v) (declared S v)).
Proof.
  intros F Hv Np Hd I Rows PG. destruct (fitted_inv b S fs F) as (NO & NS & _).
  destruct (node_states_declared b S NS) as (st & ES & D & Dk). destruct (no_states _ NO st ES) as [SO KS].
  destruct (evidence_ok b S fs d v F Hd I Rows) as (es & Ee & Le).
  assert (HP : has_parents b d v = Ok false).
  { unfold has_parents. replace (smem v (b_nodes b)) with true by (symmetry; apply (memb_In _ String.eqb_spec); auto). f_equal.
    apply not_true_iff_false. intros X. apply Np. intros p Hp. rewrite forallb_forall in X. apply X in Hp.
    apply (memb_In _ String.eqb_spec) in Hp. auto. }
  unfold predict, predict_probability, predict_incomplete, predict_prob_incomplete. rewrite HP, Ee, ES. cbn [bind fst snd].
  assert (EC : card st v = List.length (declared S v)) by (unfold card; rewrite <- D, map_length; auto).
  do 3 eexists. split; [reflexivity|]. split; [rewrite map_length; auto|]. split.
  { intros x Hx. apply in_map_iff in Hx as (e & <- & _). specialize (PG e).
    destruct (nth_error (declared S v) (pg e v)) as [s|] eqn:En; [eauto|]. apply nth_error_None in En. lia. }
  split; [reflexivity|]. split; [rewrite map_length, seq_length; auto|].
  intros Codes. split.
  - intros x Hx. apply in_map_iff in Hx as (e & <- & _). rewrite Codes. apply in_map_iff. exists (pg e v). split; auto.
    apply in_seq. specialize (PG e). lia.
  - rewrite EC. rewrite Codes at 2. rewrite map_map. auto.
Qed.
