(** * Workflow: from learned weights to a network that answers queries. *)
From Coq Require Import List Bool Arith ZArith Lia String QArith Qcanon Permutation Relations.
From Verif Require Import Base Digraph SmModel SmProofs SmHist SmThms NotearsModel NotearsProofs NotearsThms.
From Verif Require Import NetModel NetProofs NetFit NetThms NetBridge CopyModel SmCopy.
From Verif Require DiscModel DiscThms InferModel InferEngine InferMain Kruskal.
Import ListNotations.
Local Open Scope string_scope.
Local Open Scope list_scope.

(** ** Structures a program can hold *)
Lemma add_nodes_empty ns : forall g, (forall u s, In (u, s) g -> s = []) -> forall u s, In (u, s) (fold_left add_node ns g) -> s = [].
Proof.
  induction ns as [|n ns IH]; intros g H; cbn [fold_left]; auto. apply IH. intros u s Hu. unfold add_node in Hu.
  destruct (dhas label_eqb g n); eauto. apply in_app_or in Hu as [Hu|[[= <- <-]|[]]]; eauto.
Qed.

Lemma set_origins_empty g o : (forall u s, In (u, s) g -> s = []) -> set_origins g o = g.
Proof.
  intros H. unfold set_origins. rewrite <- (map_id g) at 2. apply map_ext_in. intros [u s] Hu. cbn [fst snd]. rewrite (H u s Hu). reflexivity.
Qed.

Lemma nodes_new ns : sm_new ns [] "unknown" = Ok (fold_left add_node ns []).
Proof.
  unfold sm_new. cbn. f_equal. apply set_origins_empty. apply add_nodes_empty. intros u s [].
Qed.

Lemma reached_nodes ns : reached (fold_left add_node ns []).
Proof. exists ns, [], "unknown", [], (fold_left add_node ns []). split; [apply nodes_new|]. split; [constructor|reflexivity]. Qed.

Lemma srun_app ops ops' : forall g, srun g (ops ++ ops') = srun (srun g ops) ops'.
Proof. induction ops as [|o ops IH]; intros g; cbn; auto. Qed.

Lemma reached_step g op : reached g -> op_ok op -> reached (fst (sstep g op)).
Proof.
  intros (ns & es & o & ops & g0 & E & F & ->) K. exists ns, es, o, (ops ++ [op]), g0. split; auto. split.
  - apply Forall_app. split; auto.
  - rewrite srun_app. reflexivity.
Qed.

Lemma reached_copy g c : reached g -> reached (subgraph_copy g c).
Proof.
  intros R. pose proof (reached_wf g R) as W. unfold subgraph_copy.
  apply (reached_step (fold_left add_node _ []) (AddEdgesFrom _ "unknown" [])); [apply reached_nodes|].
  split; [constructor|]. intros u v d H. apply in_map_iff in H as ([[x y] a] & [= -> -> ->] & H). apply filter_In in H as [H _].
  apply (edges_data_keys g W u v d); auto.
Qed.

Lemma reached_largest g s : reached g -> get_largest_subgraph g = Some s -> reached s.
Proof.
  intros R E. unfold get_largest_subgraph in E.
  assert (H : forall cs best, (forall s, snd best = Some s -> reached s) -> forall s, snd (fold_left (fun (best : nat * option graph) s =>
         if (fst best <? List.length (edges s))%nat then (List.length (edges s), Some s) else best) (map (subgraph_copy g) cs) best) = Some s -> reached s).
  { induction cs as [|c cs IH]; intros best Hb s'; cbn [map fold_left]; auto. apply IH. intros s0. match goal with |- context[if ?c then _ else _] => destruct c end; cbn; auto. intros [= <-]. apply reached_copy; auto. }
  apply (H (components g) (0%nat, None)); auto. discriminate.
Qed.

Lemma reached_till_dag g g' : reached g -> threshold_till_dag g = (g', Ok tt) -> reached g'.
Proof. intros R E. change g' with (fst (g', Ok tt)). rewrite <- E. apply (reached_step g TillDag); cbn; auto. Qed.

Lemma reached_result g op g' : reached g -> op_ok op -> sm_result (sstep g op) = Ok g' -> reached g'.
Proof. intros R K E. unfold sm_result in E. destruct (snd (sstep g op)); [|discriminate]. injection E as <-. apply reached_step; auto. Qed.

Lemma reached_pandas learn X t g : from_pandas learn X t = Ok g -> reached g.
Proof.
  unfold from_pandas. destruct (negb _); [discriminate|]. intros H. apply bind_ok in H as (tz & _ & H). apply bind_ok in H as (g0 & _ & H). apply bind_ok in H as (es & _ & H).
  apply (reached_result (fold_left add_node (map fst (f_cols X)) []) (AddWeighted es "weight" "learned" [])); auto; [apply reached_nodes|constructor].
Qed.

(** ** The structure that goes into the network *)
Lemma till_dag_sub g gd : reached g -> weighted g -> threshold_till_dag g = (gd, Ok tt) ->
  nodes gd = nodes g /\ Digraph.acyclic (edges gd) /\ forall u v d, edge_attrs gd u v = Some d -> edge_attrs g u v = Some d.
Proof.
  intros R Wt E. destruct (till_dag_thm g R Wt) as (g' & E' & N & A & K & _). rewrite E in E'. injection E' as <-. auto.
Qed.

Theorem usable_structure g : reached g -> weighted g -> named g ->
  exists gd, threshold_till_dag g = (gd, Ok tt) /\
    match get_largest_subgraph gd with
    | None => edges gd = []
    | Some s => edges s <> [] /\ reached s /\ named s /\ Digraph.acyclic (edges s) /\ all_linked s /\ incl (nodes s) (nodes g) /\
        forall u v, In (u, v) (edges s) -> exists a b, edge_attrs s u v = Some a /\ edge_attrs g u v = Some b /\ same_map a b
    end.
Proof.
  intros R Wt Nm. destruct (till_dag_thm g R Wt) as (gd & E & N & A & K & _). exists gd. split; auto.
  pose proof (reached_till_dag g gd R E) as Rd. pose proof (largest_thm gd Rd) as L. destruct (get_largest_subgraph gd) as [s|] eqn:Es; auto.
  destruct L as (Ne & (x & Hx & C) & _). pose proof (reached_largest gd s Rd Es) as Rs. pose proof (reached_wf s Rs) as Ws. pose proof (reached_wf gd Rd) as Wd.
  assert (In1 : incl (nodes s) (nodes gd)).
  { intros y Hy. apply (co_nodes _ _ _ C) in Hy. apply (linked_node gd x y Wd Hy); auto. }
  split; auto. split; auto. split; [|split; [|split; [|split]]].
  - destruct Nm as (ns & En). rewrite N, En in In1. exists (map name_of (nodes s)). rewrite map_map. rewrite <- (map_id (nodes s)) at 1. apply map_ext_in.
    intros y Hy. apply In1 in Hy. apply in_map_iff in Hy as (z & <- & _). reflexivity.
  - apply (Digraph.acyclic_incl (edges s) (edges gd)); auto. intros [u v] H. apply (co_edges _ _ _ C) in H. tauto.
  - assert (K2 : forall a b, linked (edges gd) a b -> linked (edges gd) x a -> linked (edges s) a b).
    { intros a b L. induction L as [a b H|a|a b L IH|a b c L1 IH1 L2 IH2]; intros Lx.
      - apply rst_step. apply (co_edges _ _ _ C). auto.
      - apply rst_refl.
      - apply rst_sym, IH. apply rst_trans with b; auto. apply rst_sym; auto.
      - apply rst_trans with b; [exact (IH1 Lx)|]. apply IH2. apply rst_trans with a; auto. }
    intros y z Hy Hz. apply (co_nodes _ _ _ C) in Hy, Hz. apply K2; auto. apply rst_trans with x; auto. apply rst_sym; auto.
  - rewrite <- N. exact In1.
  - intros u v H. apply edges_In in H as (a & H); auto. destruct (co_attrs _ _ _ C u v a H) as (b & Hb & M). eauto 6.
Qed.

(** ** Learned structures *)
Lemma graph_of_weighted g d name o w keep : wf g -> graph_of g d name o w keep -> weighted g.
Proof.
  intros W (N & ND & E & A) u v a H. assert (I : In (u, v) (edges g)) by (apply edges_In; eauto).
  apply E in I as (i & j & Hi & Hj & -> & -> & K). rewrite (A i j Hi Hj K) in H. injection H as <-. eexists. reflexivity.
Qed.

Definition string_columns (cols : list label) : Prop := forall c, In c cols -> exists x, c = LStr x.

Lemma string_named g cols : string_columns cols -> incl (nodes g) cols -> named g.
Proof.
  intros S I. exists (map name_of (nodes g)). rewrite map_map. rewrite <- (map_id (nodes g)) at 1. apply map_ext_in.
  intros y Hy. apply I in Hy. destruct (S y Hy) as (x & ->). reflexivity.
Qed.

(** What the two learners for data frames give. *)
Definition learned_frame (fuel : nat) (opt : optimiser) (eh : penalty) (X : NotearsModel.frame) (p : params) (t : tabu label) (g : graph) : Prop :=
  notears_pandas fuel opt eh X p t = Ok g \/ notears_pandas_lasso fuel opt eh X p t = Ok g.

Lemma learned_facts fuel opt eh X p t g : NoDup (map fst (f_cols X)) -> learned_frame fuel opt eh X p t g ->
  reached g /\ weighted g /\ nodes g = map fst (f_cols X) /\ (respects_bounds opt -> forall u v, In (u, v) (edges g) -> u <> v /\ ~ banned t u v).
Proof.
  intros ND L. assert (R : reached g) by (destruct L as [L|L]; eapply reached_pandas; exact L). split; auto. pose proof (reached_wf g R) as W.
  assert (Nn : map (fun i => nth i (map fst (f_cols X)) (LInt 0)) (seq 0 (List.length (f_cols X))) = map fst (f_cols X)).
  { rewrite <- (map_length fst). apply map_nth_seq. }
  destruct L as [L|L].
  - destruct (pandas_result _ _ _ _ _ _ _ ND L) as (w & _ & G). split; [eapply graph_of_weighted; eauto|]. split; [rewrite (proj1 G); exact Nn|].
    intros RB u v H. destruct (pandas_plain_no_ban _ _ _ _ _ _ _ RB ND L u v H) as (_ & _ & A). exact A.
  - destruct (pandas_lasso_result _ _ _ _ _ _ _ ND L) as (w & _ & G). split; [eapply graph_of_weighted; eauto|]. split; [rewrite (proj1 G); exact Nn|].
    intros RB u v H. destruct (pandas_lasso_no_ban _ _ _ _ _ _ _ RB ND L u v H) as (_ & _ & A). exact A.
Qed.

(** ** The network and its answers *)
(** A network of the structure fitted on the data answers every query by the conditional probability under the tables
    estimated from the data. *)
Definition answers_from (g : graph) (d : df) (method : string) (prior : option string) (ess : option Qc) : Prop :=
  exists b0 b1 b2 S fs e, bn_init g = Ok b0 /\ fit_node_states b0 d = (b1, Ok tt) /\ node_states b2 = Ok S /\
    fit_cpds b1 d method prior ess = (b2, Ok tt) /\ cpds b2 = Ok fs /\
    InferModel.engine_new (as_input b2 fs) = Ok e /\
    (forall x y, In (x, y) (b_edges b2) <-> In (LStr x, LStr y) (edges g)) /\
    (forall x, In x (b_nodes b2) <-> In (LStr x) (nodes g)) /\
    (forall v s, In v (d_cols d) -> In s (declared S v) <-> exists r, In r (d_rows d) /\ at_col r v = Some s) /\
    forall sc obs, Kruskal.good_sched sc -> NoDup (map fst obs) ->
      (forall v x, In (v, x) obs -> In v (b_nodes b2) /\ In x (declared S v)) ->
      exists r, InferModel.engine_query sc e obs = Ok r /\ Permutation (map fst r) (b_nodes b2) /\
        forall v s, In v (b_nodes b2) -> In s (declared S v) ->
          InferEngine.answer r v s = Some (InferMain.cond_prob (learned S b2 d method prior ess) obs v s).

Definition good_names (cols : list label) : Prop :=
  forall c, In c cols -> exists x, c = LStr x /\ InferModel.is_identifier x = true /\ x <> "self".

Lemma good_strings cols : good_names cols -> string_columns cols.
Proof. intros G c H. destruct (G c H) as (x & -> & _). eauto. Qed.

Theorem workflow g cols : reached g -> weighted g -> incl (nodes g) cols -> good_names cols ->
  exists gd, threshold_till_dag g = (gd, Ok tt) /\
    match get_largest_subgraph gd with
    | None => edges gd = []
    | Some s => edges s <> [] /\ incl (nodes s) cols /\
        (forall u v, In (u, v) (edges s) -> exists a b, edge_attrs s u v = Some a /\ edge_attrs g u v = Some b /\ same_map a b) /\
        forall d method prior ess, complete d -> (forall c, In (LStr c) (nodes s) -> In c (d_cols d)) -> sound_way method prior ess ->
          answers_from s d method prior ess
    end.
Proof.
  intros R Wt I G. assert (Nm : named g) by (eapply string_named; eauto using good_strings).
  destruct (usable_structure g R Wt Nm) as (gd & E & H). exists gd. split; auto. destruct (get_largest_subgraph gd) as [s|]; auto.
  destruct H as (Ne & Rs & Ns & Ac & Al & In1 & At). split; auto. assert (Is : incl (nodes s) cols) by (eapply incl_tran; eauto). split; auto. split; auto.
  intros d method prior ess Cd Cols Sw.
  destruct (data_to_answers s d method prior ess Rs Ns Ac Al Ne) as (b0 & b1 & b2 & S & fs & e & H1 & H2 & H3 & H4 & H5 & H6 & H7 & H8 & H9 & _ & H10); auto.
  - intros x Hx. split; auto. destruct (G _ (Is _ Hx)) as (y & [= <-] & Y). exact Y.
  - exists b0, b1, b2, S, fs, e. auto 12.
Qed.

(** ** Discretised numbers *)
(** Each column of numbers goes through the fit_transform of its own discretiser. *)
Definition discretised (names : list string) (ds : nat -> DiscModel.disc) (vals : list (list Qc)) (d : df) : Prop :=
  d_cols d = names /\ List.length (d_rows d) = List.length vals /\
  forall j c, nth_error names j = Some c -> exists out, DiscModel.disc_fit_transform (ds j) (map (fun r => nth j r 0%Qc) vals) = Ok out /\
    forall i r, nth_error (d_rows d) i = Some r -> at_col r c = option_map (fun k => LInt (Z.of_nat k)) (nth_error out i).

Lemma fit_transform_length d data : DiscThms.reached_disc d -> DiscThms.fits d data ->
  exists out, DiscModel.disc_fit_transform d data = Ok out /\ List.length out = List.length data.
Proof.
  intros R F. destruct (DiscThms.fit_spec d data R F) as (d' & l & E & -> & _). unfold DiscModel.disc_fit_transform. rewrite E. cbn [bind].
  destruct (DiscThms.transform_spec (DiscModel.set_splits d l) l data) as (out & Eo & F2 & _); auto.
  - destruct R as (a & d0 & calls & Ei & ->). exists a, d0, (calls ++ [data]). split; auto. rewrite fold_left_app. cbn [fold_left].
    set (d1 := fold_left DiscThms.try_fit calls d0) in *. unfold DiscThms.try_fit. rewrite E. reflexivity.
  - exists out. split; auto. symmetry. clear - F2. induction F2; cbn; auto.
Qed.

Lemma dget_pairs {B} (f : nat -> B) c j : forall names k, NoDup names -> nth_error names j = Some c ->
  dget String.eqb (combine names (map f (seq k (List.length names)))) c = Some (f (k + j)%nat).
Proof.
  revert j. intros j names. revert j. induction names as [|n names IH]; intros j k ND H; [destruct j; discriminate|]. cbn [List.length seq map combine].
  apply NoDup_cons_iff in ND as [Nn ND]. cbn [dget]. destruct j as [|j]; cbn in H.
  - injection H as ->. rewrite String.eqb_refl. rewrite Nat.add_0_r. reflexivity.
  - destruct (String.eqb_spec c n) as [->|Ne]; [exfalso; apply Nn; eapply nth_error_In; eauto|].
    rewrite (IH j (Datatypes.S k) ND H). f_equal. f_equal. lia.
Qed.

Theorem discretised_ok names ds vals : NoDup names -> vals <> [] ->
  (forall j, (j < List.length names)%nat -> DiscThms.reached_disc (ds j) /\ DiscThms.fits (ds j) (map (fun r => nth j r 0%Qc) vals)) ->
  (exists d, discretised names ds vals d) /\ forall d, discretised names ds vals d -> complete d.
Proof.
  intros ND Ne F. set (col j := map (fun r : list Qc => nth j r 0%Qc) vals) in *.
  assert (Out : forall j, (j < List.length names)%nat -> exists out, DiscModel.disc_fit_transform (ds j) (col j) = Ok out /\ List.length out = List.length vals).
  { intros j Hj. destruct (F j Hj) as [R Ft]. destruct (fit_transform_length _ _ R Ft) as (out & E & L). exists out. split; auto. unfold col in L. rewrite map_length in L. exact L. }
  split.
  - set (out j := match DiscModel.disc_fit_transform (ds j) (col j) with Ok o => o | Err _ => [] end).
    exists (mkDf names (map (fun i => combine names (map (fun j => option_map (fun k => LInt (Z.of_nat k)) (nth_error (out j) i)) (seq 0 (List.length names)))) (seq 0 (List.length vals)))).
    split; auto. split; [cbn [d_rows]; rewrite map_length, seq_length; auto|].
    intros j c H. assert (Hj : (j < List.length names)%nat) by (apply nth_error_Some; congruence). destruct (Out j Hj) as (o & E & L). exists o. split; auto.
    intros i r Hi. cbn [d_rows] in Hi. assert (Li : (i < List.length vals)%nat).
    { assert (X : nth_error (map (fun i => combine names (map (fun j => option_map (fun k => LInt (Z.of_nat k)) (nth_error (out j) i)) (seq 0 (List.length names)))) (seq 0 (List.length vals))) i <> None) by congruence.
      apply nth_error_Some in X. rewrite map_length, seq_length in X. exact X. }
    rewrite nth_error_map in Hi. rewrite (nth_error_nth' _ 0%nat) in Hi by (rewrite seq_length; auto). rewrite seq_nth in Hi by auto. cbn [option_map plus] in Hi. injection Hi as <-.
    unfold at_col. rewrite (dget_pairs _ c j names 0 ND H). cbn [plus]. unfold out. rewrite E. reflexivity.
  - intros d (Dc & Dl & Dv). split; [rewrite Dc; auto|]. split.
    { intros Er. rewrite Er in Dl. destruct vals; auto. discriminate. }
    assert (Cell : forall r c, In r (d_rows d) -> In c (d_cols d) -> exists k, at_col r c = Some (LInt (Z.of_nat k))).
    { intros r c Hr Hc. rewrite Dc in Hc. apply In_nth_error in Hc as (j & Hj). apply In_nth_error in Hr as (i & Hi).
      assert (Lj : (j < List.length names)%nat) by (apply nth_error_Some; congruence).
      destruct (Out j Lj) as (o & E & L). destruct (Dv j c Hj) as (o' & E' & H). fold (col j) in E'. rewrite E in E'. injection E' as <-. rewrite (H i r Hi).
      assert (Li : (i < List.length o)%nat) by (rewrite L, <- Dl; apply nth_error_Some; congruence).
      destruct (nth_error o i) as [k|] eqn:Ek; [exists k; reflexivity|]. apply nth_error_None in Ek. lia. }
    split.
    + intros r c Hr Hc. destruct (Cell r c Hr Hc) as (k & ->). discriminate.
    + intros c Hc. left. intros x Hx. apply drop_none_In in Hx. apply in_map_iff in Hx as (r & Er & Hr).
      destruct (Cell r c Hr Hc) as (k & E). rewrite E in Er. injection Er as <-. eauto.
Qed.
