(** * PropsEquiv: properties C94-C96 (equivalent structures, frequencies reproduced, more edges). *)
From Coq Require Import List Bool Arith ZArith Lia String QArith Qcanon Permutation Relations.
From Verif Require Import Base QcX Digraph SmModel SmProofs SmHist SmThms NetModel NetProofs NetFit NetThms NetBridge NetMle NetEquiv NetMoral NetNested.
From Verif Require InferModel InferSpec InferEngine InferOps InferMain InferWit Kruskal.
Import ListNotations.
Local Open Scope string_scope.
Local Open Scope list_scope.

(** ** C94 *)

(** [markov_equivalent]: the same nodes, the same links and the same v-structures [x -> z <- y] with [x]
    and [y] not linked.  [equivalent_way]: maximum likelihood, or the BDeu prior with a positive equivalent
    sample size. *)
Theorem C94_equivalent_structures : forall g g' d method prior ess, reached g -> named g -> reached g' -> named g' ->
  acyclic (edges g) -> acyclic (edges g') -> all_linked g -> edges g <> [] -> markov_equivalent g g' ->
  (forall x, In (LStr x) (nodes g) -> In x (d_cols d) /\ InferModel.is_identifier x = true /\ x <> "self") ->
  complete d -> equivalent_way method prior ess ->
  exists e e', trained g d method prior ess e /\ trained g' d method prior ess e' /\
    forall sc sc' obs, Kruskal.good_sched sc -> Kruskal.good_sched sc' -> NoDup (map fst obs) ->
      (forall v x, In (v, x) obs -> In (LStr v) (nodes g) /\ exists row, In row (d_rows d) /\ at_col row v = Some x) ->
      exists r r', InferModel.engine_query sc e obs = Ok r /\ InferModel.engine_query sc' e' obs = Ok r' /\
        forall v s, In (LStr v) (nodes g) -> (exists row, In row (d_rows d) /\ at_col row v = Some s) ->
          exists p, InferEngine.answer r v s = Some p /\ InferEngine.answer r' v s = Some p.
Proof. exact equivalent_answers. Qed.
Print Assumptions C94_equivalent_structures.

(** The structures a -> b -> c, a <- b -> c and a -> b <- c, and data. *)
Definition arcs (l : list (string * string)) : list sop := map (fun e => AddEdge (LStr (fst e)) (LStr (snd e)) "unknown" []) l.
Definition chain : graph := srun [] (arcs [("a", "b"); ("b", "c")]).
Definition fork : graph := srun [] (arcs [("b", "a"); ("b", "c")]).
Definition vee : graph := srun [] (arcs [("a", "b"); ("c", "b")]).
Definition row (a b c : Z) : list (string * option label) := [("a", Some (LInt a)); ("b", Some (LInt b)); ("c", Some (LInt c))].
Definition survey : df := mkDf ["a"; "b"; "c"] [row 0 0 0; row 0 0 1; row 0 1 1; row 1 1 1; row 1 1 0]%Z.

Lemma built l : reached (srun [] (arcs l)).
Proof.
  exists [], [], "unknown", (arcs l). exists []. split; [reflexivity|]. split; [|reflexivity].
  apply Forall_forall. intros o H. apply in_map_iff in H as (x & <- & _). cbn. constructor.
Qed.
Lemma fine l : is_dag label_eqb (edges (srun [] (arcs l))) = true -> (List.length (components (srun [] (arcs l))) <= 1)%nat ->
  acyclic (edges (srun [] (arcs l))) /\ all_linked (srun [] (arcs l)).
Proof.
  intros A B. split; [apply (is_dag_acyclic _ label_eqb_spec); auto|]. apply components_le_1; auto. apply reached_wf, built.
Qed.
Example chain_ok : reached chain /\ named chain /\ acyclic (edges chain) /\ all_linked chain /\ edges chain <> [].
Proof.
  split; [apply built|]. split; [exists ["a"; "b"; "c"]; reflexivity|].
  destruct (fine [("a", "b"); ("b", "c")]) as [A B]; [reflexivity|vm_compute; lia|]. split; [exact A|]. split; [exact B|discriminate].
Qed.
Example fork_ok : reached fork /\ named fork /\ acyclic (edges fork) /\ all_linked fork /\ edges fork <> [].
Proof.
  split; [apply built|]. split; [exists ["b"; "a"; "c"]; reflexivity|].
  destruct (fine [("b", "a"); ("b", "c")]) as [A B]; [reflexivity|vm_compute; lia|]. split; [exact A|]. split; [exact B|discriminate].
Qed.
Example vee_ok : reached vee /\ named vee /\ acyclic (edges vee) /\ all_linked vee /\ edges vee <> [].
Proof.
  split; [apply built|]. split; [exists ["a"; "b"; "c"]; reflexivity|].
  destruct (fine [("a", "b"); ("c", "b")]) as [A B]; [reflexivity|vm_compute; lia|]. split; [exact A|]. split; [exact B|discriminate].
Qed.
Example survey_ok : complete survey /\
  forall x, In (LStr x) [LStr "a"; LStr "b"; LStr "c"] -> In x (d_cols survey) /\ InferModel.is_identifier x = true /\ x <> "self".
Proof.
  split; [|intros x [E|[E|[E|[]]]]; injection E as <-; (split; [cbn; auto|split; [reflexivity|discriminate]])].
  split; [repeat constructor; cbn; intuition discriminate|]. split; [discriminate|]. split.
  - intros r c H K. cbn in H, K. decompose [or] H; decompose [or] K; subst; try discriminate; tauto.
  - intros c K. left. intros x H. cbn in K. decompose [or] K; subst; cbn in H; decompose [or] H; subst; eauto; tauto.
Qed.

Example chain_fork : markov_equivalent chain fork.
Proof.
  split; [intros x; cbn; tauto|]. split; [intros x y; unfold adjacent; cbn; intuition congruence|].
  intros x z y. unfold v_structure. cbn. split; intros (A & B & C & _); exfalso; apply C; intuition congruence.
Qed.
Example chain_vee : ~ markov_equivalent chain vee.
Proof.
  intros (_ & _ & H). destruct (proj2 (H (LStr "a") (LStr "b") (LStr "c"))) as (_ & A & _).
  - repeat split; cbn; auto; [discriminate|]. unfold adjacent. cbn. intuition congruence.
  - cbn in A. intuition congruence.
Qed.

(** All answers of the engine trained on [d]. *)
Definition engine_for (g : graph) (d : df) method prior ess : res InferModel.eng :=
  do b0 <- bn_init g;
  match fit_node_states b0 d with
  | (b1, Ok _) => match fit_cpds b1 d method prior ess with
                  | (b2, Ok _) => do fs <- cpds b2; InferModel.engine_new (as_input b2 fs)
                  | (_, Err x) => Err x
                  end
  | (_, Err x) => Err x
  end.
Lemma engine_for_trained g d method prior ess e : engine_for g d method prior ess = Ok e -> trained g d method prior ess e.
Proof.
  unfold engine_for. intros H. destruct (bn_init g) as [b0|] eqn:E0; cbn [bind] in H; [|discriminate].
  destruct (fit_node_states b0 d) as [b1 [[]|]] eqn:E1; [|discriminate].
  destruct (fit_cpds b1 d method prior ess) as [b2 [[]|]] eqn:E2; [|discriminate].
  destruct (cpds b2) as [fs|] eqn:E3; cbn [bind] in H; [|discriminate]. exists b0, b1, b2, fs. auto.
Qed.
Definition number_of (o : option Qc) : option Q := match o with Some x => Some (this x) | None => None end.
Definition told_by (e : res InferModel.eng) obs v s : option Q :=
  match e with Ok e => match InferModel.engine_query InferWit.ids e obs with Ok r => number_of (InferEngine.answer r v s) | _ => None end | _ => None end.
Definition mle := "MaximumLikelihoodEstimator".
Definition bay := "BayesianEstimator".

Example chain_fork_answers :
  told_by (engine_for chain survey mle None None) [("c", LInt 1)] "a" (LInt 0) = Some (5 # 9) /\
  told_by (engine_for fork survey mle None None) [("c", LInt 1)] "a" (LInt 0) = Some (5 # 9).
Proof. split; vm_compute; reflexivity. Qed.
Example chain_fork_bdeu : forall obs, In obs [[]; [("c", LInt 1)]; [("b", LInt 0); ("c", LInt 0)]] ->
  told_by (engine_for chain survey bay (Some "BDeu") (Some (Q2Qc 3))) obs "a" (LInt 0) <> None /\
  told_by (engine_for chain survey bay (Some "BDeu") (Some (Q2Qc 3))) obs "a" (LInt 0) =
  told_by (engine_for fork survey bay (Some "BDeu") (Some (Q2Qc 3))) obs "a" (LInt 0).
Proof. intros obs [<-|[<-|[<-|[]]]]; vm_compute; split; [discriminate|reflexivity| discriminate|reflexivity|discriminate|reflexivity]. Qed.

Lemma answers_differ e e' obs v s : told_by e obs v s <> None -> told_by e' obs v s <> None -> told_by e obs v s <> told_by e' obs v s ->
  exists x x' r r', e = Ok x /\ e' = Ok x' /\ InferModel.engine_query InferWit.ids x obs = Ok r /\ InferModel.engine_query InferWit.ids x' obs = Ok r' /\
    InferEngine.answer r v s <> InferEngine.answer r' v s.
Proof.
  unfold told_by. destruct e as [x|]; [|congruence]. destruct e' as [x'|]; [|congruence].
  destruct (InferModel.engine_query InferWit.ids x obs) as [r|] eqn:E; [|congruence].
  destruct (InferModel.engine_query InferWit.ids x' obs) as [r'|] eqn:E'; [|congruence].
  intros _ _ H. exists x, x', r, r'. repeat split; auto. congruence.
Qed.

(** With the K2 prior equivalent structures get different answers. *)
Theorem C94_k2_differs : exists g g' d e e' sc v s r r', reached g /\ named g /\ reached g' /\ named g' /\
  acyclic (edges g) /\ acyclic (edges g') /\ all_linked g /\ edges g <> [] /\ markov_equivalent g g' /\ complete d /\
  trained g d "BayesianEstimator" (Some "K2") None e /\ trained g' d "BayesianEstimator" (Some "K2") None e' /\ Kruskal.good_sched sc /\
  InferModel.engine_query sc e [] = Ok r /\ InferModel.engine_query sc e' [] = Ok r' /\ InferEngine.answer r v s <> InferEngine.answer r' v s.
Proof.
  destruct chain_ok as (A1 & A2 & A3 & A4 & A5), fork_ok as (B1 & B2 & B3 & _).
  destruct (answers_differ (engine_for chain survey bay (Some "K2") None) (engine_for fork survey bay (Some "K2") None) [] "a" (LInt 0))
    as (e & e' & r & r' & E & E' & Q & Q' & D).
  - vm_compute. discriminate.
  - vm_compute. discriminate.
  - vm_compute. discriminate.
  - exists chain, fork, survey, e, e', InferWit.ids, "a", (LInt 0), r, r'.
    do 8 (split; [assumption|]). split; [exact chain_fork|]. split; [apply survey_ok|].
    split; [apply engine_for_trained; exact E|]. split; [apply engine_for_trained; exact E'|]. split; [apply InferWit.ids_good|]. auto.
Qed.
Print Assumptions C94_k2_differs.

(** The equivalent structures agree on observations only: after the same intervention the answers differ. *)
Definition doing (e : res InferModel.eng) v a : res InferModel.eng :=
  match e with Ok e => match InferModel.do_intervention e v a with (e', Ok _) => Ok e' | (_, Err x) => Err x end | Err x => Err x end.
Lemma doing_ok e x v a : doing e v a = Ok x -> exists y, e = Ok y /\ InferModel.do_intervention y v a = (x, Ok tt).
Proof.
  unfold doing. destruct e as [y|]; [|discriminate]. destruct (InferModel.do_intervention y v a) as [z [[]|]] eqn:E; [|discriminate]. intros [= <-]. eauto.
Qed.
Definition tri : graph := srun [] (arcs [("a", "b"); ("a", "c"); ("b", "c")]).
Definition tri' : graph := srun [] (arcs [("b", "a"); ("a", "c"); ("b", "c")]).
Example tri_ok : (reached tri /\ named tri /\ acyclic (edges tri) /\ all_linked tri /\ edges tri <> []) /\
  reached tri' /\ named tri' /\ acyclic (edges tri').
Proof.
  split; (split; [apply built|]).
  - split; [exists ["a"; "b"; "c"]; reflexivity|].
    destruct (fine [("a", "b"); ("a", "c"); ("b", "c")]) as [A B]; [reflexivity|vm_compute; lia|]. split; [exact A|]. split; [exact B|discriminate].
  - split; [exists ["b"; "a"; "c"]; reflexivity|].
    destruct (fine [("b", "a"); ("a", "c"); ("b", "c")]) as [A B]; [reflexivity|vm_compute; lia|]. exact A.
Qed.
Example tri_tri' : markov_equivalent tri tri'.
Proof.
  split; [intros x; cbn; tauto|]. split; [intros x y; unfold adjacent; cbn; intuition congruence|].
  intros x z y. unfold v_structure, adjacent. cbn. split; intros (A & B & C & D); exfalso; apply D; clear D; intuition congruence.
Qed.
Theorem C94_interventions_differ : exists g g' d e e' e1 e1' node z sc v s r r', reached g /\ named g /\ reached g' /\ named g' /\
  acyclic (edges g) /\ acyclic (edges g') /\ all_linked g /\ edges g <> [] /\ markov_equivalent g g' /\ complete d /\
  trained g d "MaximumLikelihoodEstimator" None None e /\ trained g' d "MaximumLikelihoodEstimator" None None e' /\ Kruskal.good_sched sc /\
  InferModel.do_intervention e node (InferModel.IvInt z) = (e1, Ok tt) /\ InferModel.do_intervention e' node (InferModel.IvInt z) = (e1', Ok tt) /\
  InferModel.engine_query sc e1 [] = Ok r /\ InferModel.engine_query sc e1' [] = Ok r' /\ InferEngine.answer r v s <> InferEngine.answer r' v s.
Proof.
  destruct tri_ok as ((A1 & A2 & A3 & A4 & A5) & B1 & B2 & B3).
  destruct (answers_differ (doing (engine_for tri survey mle None None) "b" (InferModel.IvInt 1)) (doing (engine_for tri' survey mle None None) "b" (InferModel.IvInt 1)) [] "a" (LInt 0))
    as (e1 & e1' & r & r' & E & E' & Q & Q' & D).
  - vm_compute. discriminate.
  - vm_compute. discriminate.
  - vm_compute. discriminate.
  - apply doing_ok in E as (e & E & F). apply doing_ok in E' as (e' & E' & F').
    exists tri, tri', survey, e, e', e1, e1', "b", 1%Z, InferWit.ids, "a", (LInt 0), r, r'.
    do 8 (split; [assumption|]). split; [exact tri_tri'|]. split; [apply survey_ok|].
    split; [apply engine_for_trained; exact E|]. split; [apply engine_for_trained; exact E'|]. split; [apply InferWit.ids_good|]. auto.
Qed.
Print Assumptions C94_interventions_differ.

(** ** C95 *)

(** [parents_linked g t]: any two parents of [t] are joined by an edge.  [occurrences] and
    [occurrences_with] count the rows of the data with the given values. *)
Theorem C95_frequencies : forall g d prior ess, reached g -> named g -> acyclic (edges g) -> all_linked g -> edges g <> [] ->
  (forall x, In (LStr x) (nodes g) -> In x (d_cols d) /\ InferModel.is_identifier x = true /\ x <> "self") ->
  complete d ->
  exists e, trained g d "MaximumLikelihoodEstimator" prior ess e /\
    forall sc obs v s, Kruskal.good_sched sc -> NoDup (v :: map fst obs) ->
      (forall u x, In (u, x) ((v, s) :: obs) -> In (LStr u) (nodes g) /\ exists row, In row (d_rows d) /\ at_col row u = Some x) ->
      (forall x y, In x (v :: map fst obs) -> In y (v :: map fst obs) -> x <> y -> adjacent g (LStr x) (LStr y)) ->
      (forall x t, In x (v :: map fst obs) -> t = LStr x \/ path (edges g) t (LStr x) -> parents_linked g t) ->
      occurrences (d_rows d) (map fst obs) (map snd obs) <> 0%nat ->
      exists r, InferModel.engine_query sc e obs = Ok r /\
        InferEngine.answer r v s = Some (Qc_of_nat (occurrences_with (d_rows d) v s (map fst obs) (map snd obs)) /
                                         Qc_of_nat (occurrences (d_rows d) (map fst obs) (map snd obs)))%Qc.
Proof. exact frequencies_reproduced. Qed.
Print Assumptions C95_frequencies.

(** In a tree every node has at most one parent: every marginal is the frequency in the data, also against
    the direction of the edges. *)
Example fork_linked : forall t, parents_linked fork t.
Proof. intros t x y. cbn. intros A B C. exfalso. apply C. intuition congruence. Qed.
Example fork_frequencies :
  told_by (engine_for fork survey mle None None) [] "a" (LInt 1) = Some (2 # 5) /\
  told_by (engine_for fork survey mle None None) [("a", LInt 0)] "b" (LInt 1) = Some (1 # 3) /\
  occurrences_with (d_rows survey) "b" (LInt 1) ["a"] [LInt 0] = 1%nat /\ occurrences (d_rows survey) ["a"] [LInt 0] = 3%nat.
Proof. repeat split; vm_compute; reflexivity. Qed.

(** Where two parents are not linked, the frequencies of the child need not come out; nor those of two nodes
    that are not linked. *)
Theorem C95_unlinked_parents_differ : exists g d e sc v s r, reached g /\ named g /\ acyclic (edges g) /\ all_linked g /\ edges g <> [] /\ complete d /\
  trained g d "MaximumLikelihoodEstimator" None None e /\ Kruskal.good_sched sc /\ InferModel.engine_query sc e [] = Ok r /\
  (exists row, In row (d_rows d) /\ at_col row v = Some s) /\
  exists p, InferEngine.answer r v s = Some p /\
    p <> (Qc_of_nat (occurrences_with (d_rows d) v s [] []) / Qc_of_nat (occurrences (d_rows d) [] []))%Qc.
Proof.
  destruct vee_ok as (A1 & A2 & A3 & A4 & A5).
  assert (T : told_by (engine_for vee survey mle None None) [] "b" (LInt 0) = Some (21 # 50)) by (vm_compute; reflexivity).
  unfold told_by in T. destruct (engine_for vee survey mle None None) as [e|] eqn:E; [|discriminate].
  destruct (InferModel.engine_query InferWit.ids e []) as [r|] eqn:Q; [|discriminate].
  exists vee, survey, e, InferWit.ids, "b", (LInt 0), r. do 5 (split; [assumption|]). split; [apply survey_ok|].
  split; [apply engine_for_trained; exact E|]. split; [apply InferWit.ids_good|]. split; [auto|]. split; [exists (row 0 0 0); cbn; auto|].
  destruct (InferEngine.answer r "b" (LInt 0)) as [p|]; [|discriminate]. exists p. split; auto.
  intros Z. cbn in T. injection T as T. rewrite Z in T. vm_compute in T. discriminate.
Qed.
Print Assumptions C95_unlinked_parents_differ.

(** ** C96 *)

(** [fit_likelihood S vs d fs]: the product over the rows of [d] in which the nodes [vs] have one of their
    states, and over the nodes, of the entries of the CPDs [fs]. *)
Theorem C96_more_edges : forall b b' d prior ess prior' ess' S c c' fs fs', reached_net b -> reached_net b' ->
  node_states b = Ok S -> node_states b' = Ok S ->
  (forall v, In v (b_nodes b) <-> In v (b_nodes b')) -> incl (b_edges b) (b_edges b') ->
  (forall v, In v (b_nodes b) -> declared S v <> []) -> incl (b_nodes b) (d_cols d) ->
  fit_cpds b d "MaximumLikelihoodEstimator" prior ess = (c, Ok tt) -> cpds c = Ok fs ->
  fit_cpds b' d "MaximumLikelihoodEstimator" prior' ess' = (c', Ok tt) -> cpds c' = Ok fs' ->
  (fit_likelihood S (b_nodes b) d fs <= fit_likelihood S (b_nodes b') d fs')%Qc.
Proof. exact more_edges. Qed.
Print Assumptions C96_more_edges.

(** The chain a -> b -> c against the same with a -> c as well. *)
Definition prepared (g : graph) (d : df) : bn := match bn_init g with Ok b => fst (fit_node_states b d) | Err _ => mkBn [] [] None [] end.
Lemma prepared_reached l d b : bn_init (srun [] (arcs l)) = Ok b -> named (srun [] (arcs l)) -> NoDup (d_cols d) -> reached_net (prepared (srun [] (arcs l)) d).
Proof.
  intros E N ND. exists (srun [] (arcs l)), [FitStates d]. split; [apply built|]. split; [auto|].
  split; [constructor; [exact ND|constructor]|]. exists b. split; auto. unfold prepared. rewrite E. reflexivity.
Qed.
Definition states3 : list (string * list label) := [("a", [LInt 0; LInt 1]); ("b", [LInt 0; LInt 1]); ("c", [LInt 0; LInt 1])].
Definition fit3 (g : graph) : res (list (string * frame)) := cpds (fst (fit_cpds (prepared g survey) survey mle None None)).
Definition score (g : graph) : option Q := match fit3 g with Ok fs => Some (this (fit_likelihood states3 (b_nodes (prepared g survey)) survey fs)) | Err _ => None end.
Example nested_hyps : reached_net (prepared chain survey) /\ reached_net (prepared tri survey) /\
  node_states (prepared chain survey) = Ok states3 /\ node_states (prepared tri survey) = Ok states3 /\
  b_nodes (prepared chain survey) = ["a"; "b"; "c"] /\ b_nodes (prepared tri survey) = ["a"; "b"; "c"] /\
  incl (b_edges (prepared chain survey)) (b_edges (prepared tri survey)) /\
  snd (fit_cpds (prepared chain survey) survey mle None None) = Ok tt /\ snd (fit_cpds (prepared tri survey) survey mle None None) = Ok tt.
Proof.
  split; [eapply prepared_reached; [reflexivity|apply chain_ok|apply survey_ok]|].
  split; [eapply prepared_reached; [reflexivity|apply tri_ok|apply survey_ok]|].
  repeat (split; [reflexivity|]). split; [intros e H; vm_compute in H |- *; tauto|]. split; reflexivity.
Qed.
Example nested_scores : score chain = Some (16 # 84375)%Q /\ score tri = Some (1 # 3125)%Q.
Proof. split; vm_compute; reflexivity. Qed.
