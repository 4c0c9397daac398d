(** * PropsWork: property C120 (from data to answers through a learned structure). *)
From Coq Require Import List Bool Arith ZArith Lia String QArith Qcanon Permutation Relations.
From Verif Require Import Base Digraph SmModel SmProofs SmHist SmThms NotearsModel NotearsProofs NotearsThms.
From Verif Require Import NetModel NetProofs NetFit NetThms NetBridge Workflow.
From Verif Require TorchModel TorchSpec TorchResult TorchFinal WorkTorch DiscModel DiscThms InferModel Kruskal PropsNotears InferWit PropsDisc PropsTorch.
Import ListNotations.
Local Open Scope string_scope.
Local Open Scope list_scope.

(** Any structure whose edges have weights: threshold_till_dag, then get_largest_subgraph, gives None exactly if no edge
    is left, and otherwise a structure with edges of the original (and their attributes) that a BayesianNetwork accepts,
    fits on any complete data with its columns, and answers queries with (answers_from is the conclusion of C54). *)
Theorem C120_any_structure : forall g cols, reached g -> weighted g -> incl (nodes g) cols -> good_names cols ->
  exists gd, threshold_till_dag g = (gd, Ok tt) /\
    match get_largest_subgraph gd with
    | None => edges gd = []
    | Some s => edges s <> [] /\ incl (nodes s) cols /\
        (forall u v, In (u, v) (edges s) -> exists a b, edge_attrs s u v = Some a /\ edge_attrs g u v = Some b /\ same_map a b) /\
        forall d method prior ess, complete d -> (forall c, In (LStr c) (nodes s) -> In c (d_cols d)) -> sound_way method prior ess ->
          answers_from s d method prior ess
    end.
Proof. exact workflow. Qed.
Print Assumptions C120_any_structure.

(** The structures that NOTEARS learns from a data frame, with or without lasso. *)
Theorem C120_notears : forall fuel opt eh X p t g, respects_bounds opt -> NoDup (map fst (f_cols X)) -> good_names (map fst (f_cols X)) ->
  notears_pandas fuel opt eh X p t = Ok g \/ notears_pandas_lasso fuel opt eh X p t = Ok g ->
  exists gd, threshold_till_dag g = (gd, Ok tt) /\
    match get_largest_subgraph gd with
    | None => edges gd = []
    | Some s => edges s <> [] /\ (forall u v, In (u, v) (edges s) -> In (u, v) (edges g) /\ u <> v /\ ~ banned t u v) /\
        forall d method prior ess, complete d -> d_cols d = map name_of (map fst (f_cols X)) -> sound_way method prior ess ->
          answers_from s d method prior ess
    end.
Proof.
  intros fuel opt eh X p t g RB ND GN L. destruct (learned_facts fuel opt eh X p t g ND L) as (R & Wt & Nn & Bn).
  destruct (workflow g (map fst (f_cols X)) R Wt) as (gd & E & H); [rewrite Nn; apply incl_refl|auto|]. exists gd. split; auto.
  destruct (get_largest_subgraph gd) as [s|]; auto. destruct H as (Ne & Ic & At & An). split; auto. split.
  - intros u v H. destruct (At u v H) as (a & b & _ & Hb & _). assert (I : In (u, v) (edges g)) by (apply edges_In; [apply reached_wf; auto|eauto]). split; auto.
  - intros d m pr es Cd Ed Sw. apply An; auto. intros c Hc. rewrite Ed. apply Ic in Hc. apply in_map_iff. exists (LStr c). auto.
Qed.
Print Assumptions C120_notears.

(** The collapsed structure of the torch version (it has a node for each column), with any schema. *)
Theorem C120_torch : forall fuel opt eh act grad rnd order X schema p t l, respects_bounds opt -> TorchSpec.gradient_local grad \/ TorchResult.linear p ->
  NoDup (map fst (f_cols X)) -> good_names (map fst (f_cols X)) -> Forall (fun r => List.length r = List.length (f_cols X)) (NotearsModel.f_rows X) ->
  (forall s, schema = Some s -> NoDup (map fst s)) -> (forall ds, Permutation (order ds) ds) ->
  TorchModel.torch_pandas fuel opt eh act grad rnd order X schema p t = Ok l ->
  let g := TorchModel.l_collapsed l in
  exists gd, threshold_till_dag g = (gd, Ok tt) /\
    match get_largest_subgraph gd with
    | None => edges gd = []
    | Some s => edges s <> [] /\ (forall u v, In (u, v) (edges s) -> In (u, v) (edges g) /\ u <> v /\ ~ banned t u v) /\
        forall d method prior ess, complete d -> d_cols d = map name_of (map fst (f_cols X)) -> sound_way method prior ess ->
          answers_from s d method prior ess
    end.
Proof.
  intros fuel opt eh act grad rnd order X schema p t l RB Gl ND GN Rc Ns Po E. cbv zeta.
  destruct (WorkTorch.torch_collapsed_facts _ _ _ _ _ _ _ _ _ _ _ _ ND Rc Ns Po E) as (R & Wt & In1).
  destruct (TorchFinal.torch_pandas_no_ban _ _ _ _ _ _ _ _ _ _ _ _ RB Gl ND Rc Ns Po E) as [_ Bn].
  destruct (workflow _ _ R Wt In1 GN) as (gd & Ed & H). exists gd. split; auto.
  destruct (get_largest_subgraph gd) as [s|]; auto. destruct H as (Ne & Ic & At & An). split; auto. split.
  - intros u v H. destruct (At u v H) as (a & b & _ & Hb & _). assert (I : In (u, v) (edges (TorchModel.l_collapsed l))) by (apply edges_In; [apply reached_wf; auto|eauto]).
    split; auto. destruct (Bn u v I) as (_ & _ & B). exact B.
  - intros d m pr es Cd Ec Sw. apply An; auto. intros c Hc. rewrite Ec. apply Ic in Hc. apply in_map_iff. exists (LStr c). auto.
Qed.
Print Assumptions C120_torch.

(** The same numbers, each column discretised by a discretiser that fits it, are data for the network. *)
Theorem C120_discretised : forall names ds vals, NoDup names -> vals <> [] ->
  (forall j, (j < List.length names)%nat -> DiscThms.reached_disc (ds j) /\ DiscThms.fits (ds j) (map (fun r => nth j r 0%Qc) vals)) ->
  (exists d, discretised names ds vals d) /\ forall d, discretised names ds vals d -> complete d.
Proof. exact discretised_ok. Qed.
Print Assumptions C120_discretised.

(** All together: a frame of numbers is learned from, discretised column by column, and fitted. *)
Theorem C120_end_to_end : forall fuel opt eh names vals p t g ds method prior ess,
  let X := NotearsModel.mkFrame (map (fun x => (LStr x, true)) names) (map (map Fin) vals) in
  NoDup names -> (forall x, In x names -> InferModel.is_identifier x = true /\ x <> "self") -> vals <> [] ->
  (forall j, (j < List.length names)%nat -> DiscThms.reached_disc (ds j) /\ DiscThms.fits (ds j) (map (fun r => nth j r 0%Qc) vals)) ->
  sound_way method prior ess ->
  notears_pandas fuel opt eh X p t = Ok g \/ notears_pandas_lasso fuel opt eh X p t = Ok g ->
  exists gd d, threshold_till_dag g = (gd, Ok tt) /\ discretised names ds vals d /\
    match get_largest_subgraph gd with None => edges gd = [] | Some s => edges s <> [] /\ answers_from s d method prior ess end.
Proof.
  intros fuel opt eh names vals p t g ds method prior ess X ND Id Nv Fd Sw L.
  assert (Ec : map fst (f_cols X) = map LStr names) by (unfold X; cbn [f_cols]; rewrite map_map; reflexivity).
  assert (NDc : NoDup (map fst (f_cols X))).
  { rewrite Ec. apply FinFun.Injective_map_NoDup; auto. intros x y [= E]. exact E. }
  destruct (learned_facts fuel opt eh X p t g NDc L) as (R & Wt & Nn & _).
  destruct (workflow g (map fst (f_cols X)) R Wt) as (gd & E & H).
  - rewrite Nn. apply incl_refl.
  - intros c Hc. rewrite Ec in Hc. apply in_map_iff in Hc as (x & <- & Hx). exists x. split; auto.
  - destruct (discretised_ok names ds vals ND Nv Fd) as ((d & Dd) & Dc). exists gd, d. split; auto. split; auto.
    destruct (get_largest_subgraph gd) as [s|]; auto. destruct H as (Ne & Ic & _ & An). split; auto. apply An; auto.
    intros c Hc. rewrite (proj1 Dd). apply Ic in Hc. rewrite Ec in Hc. apply in_map_iff in Hc as (x & [= <-] & Hx). exact Hx.
Qed.
Print Assumptions C120_end_to_end.

(** The frame of C29: two rows, a -> b banned, c not a parent.  Here everything is learned, thresholded, discretised, fitted
    and asked for P(c | b = 0). *)
Definition ex_disc : DiscModel.disc := PropsDisc.unif 2.
Definition ex_numbers : list (list Qc) := [[1; 0; 1]; [0; 1; 1]]%Qc.
Definition ex_data : df := mkDf ["a"; "b"; "c"]
  [[("a", Some (LInt 1)); ("b", Some (LInt 0)); ("c", Some (LInt 1))]; [("a", Some (LInt 0)); ("b", Some (LInt 1)); ("c", Some (LInt 1))]].
Example C120_met : good_names (map fst (f_cols PropsNotears.ex_frame)) /\ discretised ["a"; "b"; "c"] (fun _ => ex_disc) ex_numbers ex_data /\
  (forall j, (j < 3)%nat -> DiscThms.reached_disc ex_disc /\ DiscThms.fits ex_disc (map (fun r => nth j r 0%Qc) ex_numbers)) /\
  exists g gd s, notears_pandas 21 PropsNotears.ex_opt PropsNotears.ex_eh PropsNotears.ex_frame PropsNotears.ex_par PropsNotears.ex_tabu = Ok g /\
    threshold_till_dag g = (gd, Ok tt) /\ get_largest_subgraph gd = Some s /\
    edges s = [(LStr "a", LStr "c"); (LStr "b", LStr "a"); (LStr "b", LStr "c")] /\
    exists b0 b1 b2 fs e r, bn_init s = Ok b0 /\ fit_node_states b0 ex_data = (b1, Ok tt) /\
      fit_cpds b1 ex_data "BayesianEstimator" (Some "K2") None = (b2, Ok tt) /\ cpds b2 = Ok fs /\
      InferModel.engine_new (as_input b2 fs) = Ok e /\ InferModel.engine_query InferWit.ids e [("b", LInt 0)] = Ok r /\
      InferEngine.answer r "a" (LInt 1) = Some (Q2Qc (2 # 3)).
Proof.
  split; [|split; [|split]].
  - intros c [<-|[<-|[<-|[]]]]; eexists; (split; [reflexivity|split; [reflexivity|discriminate]]).
  - split; [reflexivity|]. split; [reflexivity|]. intros j c H. destruct j as [|[|[|j]]]; cbn in H; try discriminate; try (destruct j; discriminate); injection H as <-;
      (eexists; split; [vm_compute; reflexivity|]); intros i r H; destruct i as [|[|i]]; cbn in H; try (destruct i; discriminate); injection H as <-; reflexivity.
  - intros j Hj. split.
    + exists (PropsDisc.unif_args 2), ex_disc, []. split; reflexivity.
    + split; [discriminate|]. split; [discriminate|]. intros [Q _]. discriminate.
  - eexists. eexists. eexists. split; [vm_compute; reflexivity|]. split; [vm_compute; reflexivity|]. split; [vm_compute; reflexivity|]. split; [vm_compute; reflexivity|].
    eexists. eexists. eexists. eexists. eexists. eexists. split; [vm_compute; reflexivity|]. split; [vm_compute; reflexivity|]. split; [vm_compute; reflexivity|].
    split; [vm_compute; reflexivity|]. split; [vm_compute; reflexivity|]. split; [vm_compute; reflexivity|]. vm_compute. reflexivity.
Qed.
