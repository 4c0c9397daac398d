(** * PropsNet: properties C18-C22 and C54 (BayesianNetwork). *)
From Coq Require Import List Bool Arith ZArith Lia String QArith Qcanon Permutation Sorted Relations.
From Verif Require Import Base QcX Digraph SmModel SmProofs SmHist SmThms NetModel NetProofs NetFit NetThms NetBridge.
From Verif Require InferModel InferSpec InferEngine InferOps InferMain Kruskal.
Import ListNotations.
Local Open Scope string_scope.
Local Open Scope list_scope.

Definition q (n : Z) (d : positive) : Qc := Q2Qc (n # d).

(** ** C18 *)

(** [named]: the nodes are strings, as the type of BayesianNetwork.nodes says. *)
Theorem C18_constructor_partial : forall g, reached g -> named g ->
  (acyclic (edges g) /\ all_linked g -> exists b, bn_init g = Ok b /\
     (forall x y, In (x, y) (b_edges b) <-> In (LStr x, LStr y) (edges g)) /\ NoDup (b_edges b) /\ NoDup (b_nodes b) /\
     (edges g <> [] -> forall x, In x (b_nodes b) <-> In (LStr x) (nodes g))) /\
  (~ (acyclic (edges g) /\ all_linked g) -> bn_init g = Err ValueError).
Proof. exact constructor_spec. Qed.
Print Assumptions C18_constructor_partial.

(** A structure with one node and no edge is accepted, but the network has no node. *)
Theorem C18_single_node_refuted :
  exists g b, reached g /\ named g /\ nodes g = [LStr "a"] /\ bn_init g = Ok b /\ b_nodes b = [].
Proof.
  exists (add_node [] (LStr "a")). eexists. split.
  - exists [LStr "a"], [], "unknown", []. eexists. split; [reflexivity|]. split; [constructor|reflexivity].
  - split; [exists ["a"]; reflexivity|]. split; [reflexivity|]. split; reflexivity.
Qed.
Print Assumptions C18_single_node_refuted.

(** The structure a -> b <- c, and one with a cycle, and one with two components. *)
Definition calls : list sop := [AddEdge (LStr "a") (LStr "b") "unknown" []; AddEdge (LStr "c") (LStr "b") "expert" []].
Definition g1 : graph := srun [] calls.
Example g1_reached : reached g1 /\ named g1.
Proof.
  split; [|exists ["a"; "b"; "c"]; reflexivity]. exists [], [], "unknown", calls. exists []. split; [reflexivity|].
  split; [|reflexivity]. repeat apply Forall_cons; try apply Forall_nil; cbn [op_ok]; try constructor.
Qed.
Example g1_good : acyclic (edges g1) /\ all_linked g1.
Proof.
  split.
  - apply (is_dag_acyclic _ label_eqb_spec). reflexivity.
  - apply components_le_1; [apply reached_wf; apply g1_reached|]. vm_compute. lia.
Qed.
Definition b0 : bn := mkBn ["a"; "b"; "c"] [("a", "b"); ("c", "b")] None [].
Example g1_init : bn_init g1 = Ok b0.
Proof. reflexivity. Qed.
Example cycle_rejected :
  bn_init (srun [] [AddEdge (LStr "a") (LStr "b") "unknown" []; AddEdge (LStr "b") (LStr "a") "unknown" []]) = Err ValueError.
Proof. reflexivity. Qed.
Example islands_rejected :
  bn_init (srun [] [AddEdge (LStr "a") (LStr "b") "unknown" []; AddEdge (LStr "c") (LStr "d") "unknown" []]) = Err ValueError.
Proof. reflexivity. Qed.

(** ** C19 *)

(** [acceptable]: every node has an entry, no state is missing (None) and the states of a node can be
    compared with each other. *)
Theorem C19_states_set : forall b arg, dict_arg arg ->
  (acceptable b arg -> exists b', set_node_states b arg = (b', Ok tt) /\
     b_nodes b' = b_nodes b /\ b_edges b' = b_edges b /\ b_cpds b' = b_cpds b /\
     exists S, node_states b' = Ok S /\ map fst S = map fst arg /\
       forall v s, In (v, s) arg -> exists l, dget String.eqb S v = Some l /\ NoDup l /\ (forall x, In x l <-> In (Some x) s)) /\
  (~ acceptable b arg -> exists x, set_node_states b arg = (b, Err x)).
Proof. exact states_set. Qed.
Print Assumptions C19_states_set.

(** [code] is what the code maps a value of the data to: the position in the sorted list of states,
    nothing (NaN) for another value. *)
Theorem C19_numbering : forall b st v, reached_net b -> b_states b = Some st -> In v (dkeys st) ->
  let l := map fst (states_at st v) in
  NoDup l /\ StronglySorted (fun x y => label_leb x y = true) l /\
  (forall i s, code (states_at st v) (Some s) = Some i <-> nth_error l i = Some s) /\
  (forall s, code (states_at st v) (Some s) = None <-> ~ In s l).
Proof. exact numbering. Qed.
Print Assumptions C19_numbering.

(** fit_node_states sets the values that occur in each column. *)
Theorem C19_states_fitted : forall b d, NoDup (d_cols d) ->
  let arg := map (fun c => (c, unique olabel_eqb (map (fun r => at_col r c) (d_rows d)))) (d_cols d) in
  fit_node_states b d = set_node_states b arg /\ dict_arg arg /\ map fst arg = d_cols d /\
  forall c s, In (c, s) arg -> forall x, In x s <-> exists r, In r (d_rows d) /\ at_col r c = x.
Proof. exact states_fitted. Qed.
Print Assumptions C19_states_fitted.

Definition row3 (x y z : label) : list (string * option label) := [("a", Some x); ("c", Some z); ("b", Some y)].
Definition data : df := mkDf ["a"; "c"; "b"]
  [row3 (LStr "y") (LInt 10) (LInt 1); row3 (LStr "x") (LInt 2) (LInt 0); row3 (LStr "y") (LInt 2) (LInt 1);
   row3 (LStr "y") (LInt 10) (LInt 1)].
Definition b1 : bn := fst (fit_node_states b0 data).
Definition S1 : list (string * list label) :=
  [("a", [LStr "x"; LStr "y"]); ("c", [LInt 0; LInt 1]); ("b", [LInt 2; LInt 10])].
Example b1_states : fit_node_states b0 data = (b1, Ok tt) /\ node_states b1 = Ok S1.
Proof. split; vm_compute; reflexivity. Qed.
Lemma data_cols : NoDup (d_cols data).
Proof. apply (NoDup_cons "a"); [simpl; intuition discriminate|]. apply (NoDup_cons "c"); [simpl; intuition discriminate|]. apply (NoDup_cons "b"); [simpl; tauto|constructor]. Qed.
Example b1_reached : reached_net b1.
Proof.
  exists g1, [FitStates data]. split; [apply g1_reached|]. split; [apply g1_reached|]. split.
  - apply Forall_cons; [|apply Forall_nil]. exact data_cols.
  - exists b0. split; [exact g1_init|reflexivity].
Qed.
Example acceptable_case : dict_arg [("c", [Some (LInt 1)]); ("a", [Some (LStr "y"); Some (LStr "x")]); ("b", [Some (LInt 10); Some (LInt 2)])] /\
  acceptable b0 [("c", [Some (LInt 1)]); ("a", [Some (LStr "y"); Some (LStr "x")]); ("b", [Some (LInt 10); Some (LInt 2)])].
Proof.
  split; split.
  - cbn. apply NoDup_cons; [simpl; intuition discriminate|]. apply NoDup_cons; [simpl; intuition discriminate|]. apply NoDup_cons; [simpl; tauto|constructor].
  - intros v s [E|[E|[E|[]]]]; injection E as <- <-; repeat (apply NoDup_cons; [simpl; intuition discriminate|]); constructor.
  - intros x. cbn. intuition.
  - intros v s [E|[E|[E|[]]]]; injection E as <- <-; (split; [simpl; intuition discriminate|]).
    + left. intros x [<-|[]]. eauto.
    + right. intros x [<-|[<-|[]]]; eauto.
    + left. intros x [<-|[<-|[]]]; eauto.
Qed.
Example b1_code : match b_states b1 with Some st => code (states_at st "b") (Some (LInt 10)) = Some 1%nat | None => False end.
Proof. vm_compute. reflexivity. Qed.
(** A missing value makes the call fail and keeps the old states. *)
Example rejected_kept : set_node_states b1 [("a", [Some (LInt 1); None]); ("b", []); ("c", [])] = (b1, Err ValueError).
Proof. reflexivity. Qed.

(** ** C20 *)

(** [frequency] counts rows of the data; rows with a missing or undeclared value of a node are left
    out ([usable]), as pgmpy does.  pgmpy is given at least one usable row. *)
Theorem C20_fitted_cpds : forall b d method prior ess S, reached_net b -> node_states b = Ok S ->
  (forall v, In v (b_nodes b) -> declared S v <> []) -> incl (b_nodes b) (d_cols d) -> sound_way method prior ess ->
  exists b' fs, fit_cpds b d method prior ess = (b', Ok tt) /\ cpds b' = Ok fs /\
    b_nodes b' = b_nodes b /\ b_edges b' = b_edges b /\ node_states b' = Ok S /\
    Permutation (map fst fs) (b_nodes b) /\
    forall v f, In (v, f) fs ->
      f_index f = declared S v /\ NoDup (f_names f) /\ (forall p, In p (f_names f) <-> In (p, v) (b_edges b)) /\
      NoDup (f_columns f) /\
      (forall u, In u (f_columns f) <-> Forall2 (fun p x => In x (declared S p)) (f_names f) u) /\
      forall u, In u (f_columns f) ->
        (forall s, In s (declared S v) ->
           cell_of f s u = frequency (asked_smoothing method prior ess (List.length (declared S v)) (List.length (f_columns f)))
                             (declared S) (filter (usable (declared S) (b_nodes b)) (d_rows d)) v (f_names f) s u /\
           (0 <= cell_of f s u)%Qc) /\
        Qsum (fun s => cell_of f s u) (declared S v) = 1%Qc.
Proof. exact fit_spec. Qed.
Print Assumptions C20_fitted_cpds.

Example b1_fit_hyps : (forall v, In v (b_nodes b1) -> declared S1 v <> []) /\ incl (b_nodes b1) (d_cols data) /\
  sound_way "BayesianEstimator" (Some "BDeu") (Some (q 4 1)) /\ sound_way "MaximumLikelihoodEstimator" None None.
Proof.
  split; [|split; [|split]].
  - intros v [<-|[<-|[<-|[]]]]; discriminate.
  - intros v [<-|[<-|[<-|[]]]]; simpl; auto.
  - right. split; auto. right. split; auto. exists (q 4 1). split; auto. reflexivity.
  - left; auto.
Qed.
Definition b2 : bn := fst (fit_cpds b1 data "MaximumLikelihoodEstimator" None None).
Definition fs2 : list (string * frame) :=
  [("a", mkFrame [LStr "x"; LStr "y"] [] [[]] [[q 1 4]; [q 3 4]]);
   ("b", mkFrame [LInt 2; LInt 10] ["a"; "c"]
           [[LStr "x"; LInt 0]; [LStr "x"; LInt 1]; [LStr "y"; LInt 0]; [LStr "y"; LInt 1]]
           [[q 1 1; q 1 2; q 1 2; q 1 3]; [q 0 1; q 1 2; q 1 2; q 2 3]]);
   ("c", mkFrame [LInt 0; LInt 1] [] [[]] [[q 1 4]; [q 3 4]])].
Example b2_cpds : cpds b2 = Ok fs2.
Proof. vm_compute. reflexivity. Qed.
Example bdeu_entry : exists f, frame_of (fst (fit_cpds b1 data "BayesianEstimator" (Some "BDeu") (Some (q 4 1)))) "b" = Ok f /\
  cell_of f (LInt 10) [LStr "y"; LInt 1] = q 5 8.
Proof. eexists. split; vm_compute; reflexivity. Qed.
(** A state that was not declared: its row does not count. *)
Example undeclared_dropped :
  let b := fst (set_node_states b0 [("a", [Some (LStr "y")]); ("b", [Some (LInt 2); Some (LInt 10)]); ("c", [Some (LInt 0); Some (LInt 1)])]) in
  exists f, frame_of (fst (fit_cpds b data "MaximumLikelihoodEstimator" None None)) "c" = Ok f /\ cell_of f (LInt 1) [] = 1%Qc.
Proof. eexists. split; [vm_compute; reflexivity|]. apply Qc_is_canon. vm_compute. reflexivity. Qed.

(** ** C21 *)
Example b2_fitted : fitted b2 S1 fs2.
Proof.
  exists b1, data, "MaximumLikelihoodEstimator", None, None. split; [exact b1_reached|].
  split; [apply b1_states|]. destruct b1_fit_hyps as (A & B & _ & C). split; [auto|]. split; [auto|]. split; [auto|].
  split; [reflexivity|exact b2_cpds].
Qed.

(** [order] is the order in which Python iterates over the set of states.  Proved when no parent of
    the node is named like a result column "{node}_{state}"; otherwise see below. *)
Theorem C21_probabilities_partial : forall b S fs d v f order pg, fitted b S fs -> In (v, f) fs ->
  incl (f_names f) (d_cols d) -> Permutation order (declared S v) ->
  (forall s, In s (declared S v) -> ~ In (col_name v s) (f_names f)) ->
  (forall r, In r (d_rows d) -> exists u, parent_values r (f_names f) u /\ In u (f_columns f)) ->
  exists out, predict_probability order pg b d v = Ok (map (col_name v) order, out) /\
    Forall2 (fun r ps => exists u, parent_values r (f_names f) u /\ ps = map (fun s => CNum (cell_of f s u)) order /\
                         Qsum (fun s => cell_of f s u) order = 1%Qc) (d_rows d) out.
Proof. exact predictions. Qed.
Print Assumptions C21_probabilities_partial.

Theorem C21_best_state : forall b S fs d v f pg, fitted b S fs -> In (v, f) fs ->
  incl (f_names f) (d_cols d) ->
  (forall r, In r (d_rows d) -> exists u, parent_values r (f_names f) u /\ In u (f_columns f)) ->
  exists out, predict pg b d v = Ok out /\
    Forall2 (fun r x => exists u, parent_values r (f_names f) u /\ In x (declared S v) /\
               forall s, In s (declared S v) -> (cell_of f s u <= cell_of f x u)%Qc) (d_rows d) out.
Proof. exact best_state. Qed.
Print Assumptions C21_best_state.

Example data_rows_ok : forall f, In ("b", f) fs2 -> forall r, In r (d_rows data) ->
  exists u, parent_values r (f_names f) u /\ In u (f_columns f).
Proof.
  intros f [E|[E|[E|[]]]]; try discriminate. injection E as <-.
  intros r [<-|[<-|[<-|[<-|[]]]]].
  - exists [LStr "y"; LInt 1]. split; [repeat constructor|cbn; auto 10].
  - exists [LStr "x"; LInt 0]. split; [repeat constructor|cbn; auto 10].
  - exists [LStr "y"; LInt 1]. split; [repeat constructor|cbn; auto 10].
  - exists [LStr "y"; LInt 1]. split; [repeat constructor|cbn; auto 10].
Qed.
Definition no_pg : predictor := fun _ _ => 0%nat.
Definition no_pgp : prob_predictor := fun _ _ => [].
Example b2_predict : predict no_pg b2 data "b" = Ok [LInt 10; LInt 2; LInt 10; LInt 10].
Proof. vm_compute. reflexivity. Qed.
Example b2_probs : exists out, predict_probability [LInt 10; LInt 2] no_pgp b2 data "b" = Ok (["b_10"; "b_2"], out) /\
  nth 1 out [] = [CNum (q 0 1); CNum (q 1 1)].
Proof. eexists. split; vm_compute; reflexivity. Qed.

(** The parent "b_u" of "b" has the name of the column for state "u": the loop over the states
    overwrites it and the lookup for the next state fails. *)
Definition calls3 : list sop := [AddEdge (LStr "b_u") (LStr "b") "unknown" []].
Definition data3 : df := mkDf ["b_u"; "b"] [[("b_u", Some (LStr "s")); ("b", Some (LStr "u"))]; [("b_u", Some (LStr "s")); ("b", Some (LStr "w"))]].
Definition b3 : bn := mkBn ["b_u"; "b"] [("b_u", "b")] None [].
Definition b4 : bn := fst (fit_node_states b3 data3).
Definition b5 : bn := fst (fit_cpds b4 data3 "MaximumLikelihoodEstimator" None None).
Definition S5 : list (string * list label) := [("b_u", [LStr "s"]); ("b", [LStr "u"; LStr "w"])].
Theorem C21_parent_named_like_result_refuted :
  exists b S fs d f order pg, fitted b S fs /\ In ("b", f) fs /\ incl (f_names f) (d_cols d) /\
    Permutation order (declared S "b") /\
    (forall r, In r (d_rows d) -> exists u, parent_values r (f_names f) u /\ In u (f_columns f)) /\
    predict_probability order pg b d "b" = Err KeyError.
Proof.
  exists b5, S5.
  exists [("b", mkFrame [LStr "u"; LStr "w"] ["b_u"] [[LStr "s"]] [[q 1 2]; [q 1 2]]); ("b_u", mkFrame [LStr "s"] [] [[]] [[q 2 2]])].
  exists data3. eexists. exists [LStr "u"; LStr "w"], no_pgp. split; [|split; [left; reflexivity|]].
  - exists b4, data3, "MaximumLikelihoodEstimator", None, None. split.
    + exists (srun [] calls3), [FitStates data3]. split.
      { exists [], [], "unknown", calls3. exists []. split; [reflexivity|]. split; [|reflexivity]. repeat apply Forall_cons; try apply Forall_nil; cbn [op_ok]; constructor. }
      split; [exists ["b_u"; "b"]; reflexivity|]. split.
      { apply Forall_cons; [|apply Forall_nil]. cbn. apply NoDup_cons; [simpl; intuition discriminate|]. apply NoDup_cons; [simpl; tauto|constructor]. }
      exists b3. split; reflexivity.
    + split; [vm_compute; reflexivity|]. split; [intros v [<-|[<-|[]]]; discriminate|].
      split; [intros v [<-|[<-|[]]]; cbn; auto|]. split; [left; auto|]. split; [reflexivity|vm_compute; reflexivity].
  - cbn [f_names f_columns]. split; [intros v [<-|[]]; cbn; auto|]. split; [apply Permutation_refl|]. split.
    + intros r [<-|[<-|[]]]; exists [LStr "s"]; (split; [repeat constructor|cbn; auto]).
    + vm_compute. reflexivity.
Qed.
Print Assumptions C21_parent_named_like_result_refuted.

(** ** C22 *)

(** [pg e v] is the code that pgmpy predicts for [v] from the evidence [e].  When parents are missing
    the code itself is returned: predict answers 0 or 1 for the node b with the states 2 and 10, and
    the columns of predict_probability are b_0 and b_1. *)
Theorem C22_labels_refuted :
  exists b S fs d, fitted b S fs /\
    (forall pg, (forall e, (pg e "b" < List.length (declared S "b"))%nat) ->
       exists out, predict pg b d "b" = Ok out /\ out <> [] /\ forall x, In x out -> ~ In x (declared S "b")) /\
    (forall order pg, exists out, predict_probability order pg b d "b" = Ok (["b_0"; "b_1"], out)) /\
    map (col_name "b") (declared S "b") = ["b_2"; "b_10"].
Proof.
  exists b2, S1, fs2, (mkDf ["a"; "b"] [[("a", Some (LStr "y")); ("b", Some (LInt 2))]]).
  split; [exact b2_fitted|]. split; [|split].
  - intros pg H. eexists. split; [reflexivity|]. split; [discriminate|].
    intros x [<-|[]]. specialize (H [("a", 1%nat)]). change (List.length (declared S1 "b")) with 2%nat in H.
    change (declared S1 "b") with [LInt 2; LInt 10].
    intros [E|[E|[]]]; injection E as E.
    + assert (pg [("a", 1%nat)] "b" = 2)%nat by lia. lia.
    + assert (pg [("a", 1%nat)] "b" = 10)%nat by lia. lia.
  - intros order pg. eexists. reflexivity.
  - vm_compute. reflexivity.
Qed.
Print Assumptions C22_labels_refuted.

(** Without a column for the node itself the call fails. *)
Theorem C22_node_column_needed_refuted :
  exists b S fs d, fitted b S fs /\ (forall c, In c (d_cols d) -> In c (b_nodes b)) /\
    (forall pg, predict pg b d "b" = Err KeyError) /\ (forall order pg, predict_probability order pg b d "b" = Err KeyError).
Proof.
  exists b2, S1, fs2, (mkDf ["a"] [[("a", Some (LStr "y"))]]). split; [exact b2_fitted|].
  split; [intros c [<-|[]]; cbn; auto|]. split; reflexivity.
Qed.
Print Assumptions C22_node_column_needed_refuted.

(** What holds: the answer is the position of a state in the sorted list of states, so it is a state
    when the states are 0, ..., n-1. *)
Theorem C22_labels_partial : forall b S fs d v pg pgp order, fitted b S fs -> In v (b_nodes b) ->
  ~ incl (get_parents b v) (d_cols d) -> In v (d_cols d) -> incl (d_cols d) (b_nodes b) ->
  (forall r c, In r (d_rows d) -> In c (d_cols d) -> exists x, at_col r c = Some x /\ In x (declared S c)) ->
  (forall e, (pg e v < List.length (declared S v))%nat) ->
  exists out cols ps, predict pg b d v = Ok out /\ List.length out = List.length (d_rows d) /\
    (forall x, In x out -> exists i s, x = LInt (Z.of_nat i) /\ nth_error (declared S v) i = Some s) /\
    predict_probability order pgp b d v = Ok (cols, ps) /\ List.length cols = List.length (declared S v) /\
    (declared S v = map (fun i => LInt (Z.of_nat i)) (seq 0 (List.length (declared S v))) ->
       (forall x, In x out -> In x (declared S v)) /\ cols = map (col_name v) (declared S v)).
Proof. exact incomplete_predictions. Qed.
Print Assumptions C22_labels_partial.

(** ** C54 *)

(** From data to answers: fit a network of a connected DAG on complete data, query the engine. *)
Theorem C54_data_to_answers : forall g d method prior ess, reached g -> named g ->
  acyclic (edges g) -> all_linked g -> edges g <> [] ->
  (forall x, In (LStr x) (nodes g) -> In x (d_cols d) /\ InferModel.is_identifier x = true /\ x <> "self"%string) ->
  complete d -> sound_way method prior ess ->
  exists b0 b1 b2 S fs e, bn_init g = Ok b0 /\ fit_node_states b0 d = (b1, Ok tt) /\ node_states b2 = Ok S /\
    fit_cpds b1 d method prior ess = (b2, Ok tt) /\ cpds b2 = Ok fs /\
    InferModel.engine_new (as_input b2 fs) = Ok e /\
    (forall x y, In (x, y) (b_edges b2) <-> In (LStr x, LStr y) (edges g)) /\
    (forall x, In x (b_nodes b2) <-> In (LStr x) (nodes g)) /\
    (forall v s, In v (d_cols d) -> In s (declared S v) <-> exists r, In r (d_rows d) /\ at_col r v = Some s) /\
    filter (usable (declared S) (b_nodes b2)) (d_rows d) = d_rows d /\
    forall sc obs, Kruskal.good_sched sc -> NoDup (map fst obs) ->
      (forall v x, In (v, x) obs -> In v (b_nodes b2) /\ In x (declared S v)) ->
      exists r, InferModel.engine_query sc e obs = Ok r /\ Permutation (map fst r) (b_nodes b2) /\
        forall v s, In v (b_nodes b2) -> In s (declared S v) ->
          InferEngine.answer r v s = Some (InferMain.cond_prob (learned S b2 d method prior ess) obs v s).
Proof. exact data_to_answers. Qed.
Print Assumptions C54_data_to_answers.

Example g1_data_ok : edges g1 <> [] /\ complete data /\
  (forall x, In (LStr x) (nodes g1) -> In x (d_cols data) /\ InferModel.is_identifier x = true /\ x <> "self"%string).
Proof.
  split; [discriminate|]. split.
  - split; [exact data_cols|]. split; [discriminate|]. split.
    + intros r c [<-|[<-|[<-|[<-|[]]]]] [<-|[<-|[<-|[]]]]; discriminate.
    + intros c [<-|[<-|[<-|[]]]].
      * right. intros x H. cbn in H. decompose [or] H; subst; eauto; tauto.
      * left. intros x H. cbn in H. decompose [or] H; subst; eauto; tauto.
      * left. intros x H. cbn in H. decompose [or] H; subst; eauto; tauto.
  - intros x [E|[E|[E|[]]]]; injection E as <-; (split; [cbn; auto|split; [reflexivity|discriminate]]).
Qed.
(** P(a = "y" | b = 10) in the network learned from the four rows. *)
Example learned_cond : InferMain.cond_prob (learned S1 b2 data "MaximumLikelihoodEstimator" None None) [("b", LInt 10)] "a" (LStr "y") = q 5 6.
Proof. apply Qc_is_canon. vm_compute. reflexivity. Qed.
