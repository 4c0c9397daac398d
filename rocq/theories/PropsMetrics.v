(** * PropsMetrics: properties C97 and C98 (the numbers that the evaluation functions return). *)
From Coq Require Import List Bool Arith ZArith Lia String QArith Qcanon Permutation.
From Verif Require Import Base QcX Digraph SmModel SmProofs SmHist SmThms NetModel NetProofs NetFit NetThms EvalModel EvalProofs
  MetricsModel MetricsRoc MetricsThms PropsEval.
Import ListNotations.
Local Open Scope string_scope.
Local Open Scope list_scope.
Local Open Scope Qc_scope.

(** ** C97 *)

(** [observations] lists, for each row and state, whether the row has the state and the probability of the
    state given the row's parents; [wins] adds up 1 for each true observation that scores higher than a
    false one and 1/2 for each tie.  The names of the states are as for C23. *)
Theorem C97_area : forall b S fs d v f order pg U, fitted b S fs -> In (v, f) fs ->
  incl (f_names f) (d_cols d) -> In v (d_cols d) -> Permutation order (declared S v) ->
  (forall s, In s (declared S v) -> ~ In (col_name v s) (f_names f)) ->
  (forall r, In r (d_rows d) -> parent_values r (f_names f) (U r) /\ In (U r) (f_columns f) /\
     exists s, at_col r v = Some s /\ In s (declared S v)) ->
  (forall s, In s (declared S v) -> plain v s) -> string_order (declared S v) ->
  d_rows d <> [] -> (2 <= List.length (declared S v))%nat ->
  let obs := observations f v (declared S v) (d_rows d) U in
  exists roc a, roc_auc order pg b d v = Ok (map known roc, Some a) /\
    a = wins obs obs / (Qc_of_nat (poss obs) * Qc_of_nat (negs obs)) /\
    (* the curve goes from (0, 0) to (1, 1) through the rates at the thresholds *)
    hd_error roc = Some (0, 0) /\ last roc (0, 0) = (1, 1) /\
    (forall p, In p roc -> p = (0, 0) \/ exists o, In o obs /\ p = rates_at (snd o) obs) /\
    (forall o, In o obs -> on_curve roc (rates_at (snd o) obs)).
Proof. intros. eapply auc_spec; eauto. Qed.
Print Assumptions C97_area.

(** The area is between 0 and 1, and 1 exactly when every state that a row has is more probable than every
    state that a row does not have. *)
Theorem C97_perfect : forall b S fs d v f order pg U, fitted b S fs -> In (v, f) fs ->
  incl (f_names f) (d_cols d) -> In v (d_cols d) -> Permutation order (declared S v) ->
  (forall s, In s (declared S v) -> ~ In (col_name v s) (f_names f)) ->
  (forall r, In r (d_rows d) -> parent_values r (f_names f) (U r) /\ In (U r) (f_columns f) /\
     exists s, at_col r v = Some s /\ In s (declared S v)) ->
  (forall s, In s (declared S v) -> plain v s) -> string_order (declared S v) ->
  d_rows d <> [] -> (2 <= List.length (declared S v))%nat ->
  let obs := observations f v (declared S v) (d_rows d) U in
  exists roc a, roc_auc order pg b d v = Ok (roc, Some a) /\ 0 <= a /\ a <= 1 /\
    (a = 1 <-> forall x y, In x obs -> In y obs -> fst x = true -> fst y = false -> snd y < snd x).
Proof. intros. eapply auc_bounds; eauto. Qed.
Print Assumptions C97_perfect.

(** How many observations are true and how many false. *)
Theorem C97_counts : forall f v states rows U, NoDup states ->
  (forall r, In r rows -> exists s, at_col r v = Some s /\ In s states) ->
  poss (observations f v states rows U) = List.length rows /\
  negs (observations f v states rows U) = (List.length rows * (List.length states - 1))%nat.
Proof. intros f v states rows U ND H. rewrite Nat.sub_1_r. apply obs_counts; auto. Qed.
Print Assumptions C97_counts.

(** A node with a single state has no false observation: the result is not a number. *)
Theorem C97_single_state : forall b S fs d v f order pg U, fitted b S fs -> In (v, f) fs ->
  incl (f_names f) (d_cols d) -> In v (d_cols d) -> Permutation order (declared S v) ->
  (forall s, In s (declared S v) -> ~ In (col_name v s) (f_names f)) ->
  (forall r, In r (d_rows d) -> parent_values r (f_names f) (U r) /\ In (U r) (f_columns f) /\
     exists s, at_col r v = Some s /\ In s (declared S v)) ->
  (forall s, In s (declared S v) -> plain v s) -> string_order (declared S v) ->
  d_rows d <> [] -> List.length (declared S v) = 1%nat ->
  exists roc, roc_auc order pg b d v = Ok (roc, None) /\ forall p, In p roc -> fst p = None.
Proof. intros. eapply auc_one_state; eauto. Qed.
Print Assumptions C97_single_state.

(** The hypotheses: [docs_fitted], [docs_plain] and [docs_rows] of PropsEval.  The area for that network. *)
Example pair_area : roc_auc [LStr "light"; LStr "heavy"] no_pgp (fit "day" "traffic" l0) (pair_data "day" "traffic" l0) "traffic" =
  Ok (map known [(q 0 4, q 0 4); (q 0 4, q 1 4); (q 1 4, q 3 4); (q 3 4, q 4 4); (q 4 4, q 4 4)], Some (q 13 16)).
Proof. vm_compute. reflexivity. Qed.
(** Of the 16 pairs of a true and a false observation the correctly ranked ones and half the ties add up to 13. *)
Example pair_wins : wins (observations f0 "traffic" (declared S0 "traffic") (d_rows (pair_data "day" "traffic" l0)) (first_value "day"))
  (observations f0 "traffic" (declared S0 "traffic") (d_rows (pair_data "day" "traffic" l0)) (first_value "day")) = q 13 1.
Proof. apply Qc_is_canon. vm_compute. reflexivity. Qed.

(** The example of the documentation. *)
Definition docs_graph := srun [] [AddEdge (LStr "rush_hour") (LStr "traffic") "unknown" []; AddEdge (LStr "weather") (LStr "traffic") "unknown" []].
Definition docs_df (l : list (Z * string * string)) : df :=
  mkDf ["rush_hour"; "weather"; "traffic"]
    (map (fun x => match x with (a, w, t) => [("rush_hour", Some (LInt a)); ("weather", Some (LStr w)); ("traffic", Some (LStr t))] end) l).
Definition docs_train := docs_df
  [(1, "Terrible", "heavy"); (0, "Good", "light"); (0, "Bad", "heavy"); (0, "Good", "light"); (1, "Bad", "heavy"); (0, "Bad", "heavy"); (1, "Good", "heavy")]%Z.
Definition docs_test := docs_df [(0, "Good", "light"); (0, "Bad", "heavy"); (1, "Good", "heavy"); (1, "Bad", "light")]%Z.
Definition docs_bn : bn :=
  match bn_init docs_graph with
  | Ok b => fst (fit_cpds (fst (fit_node_states b docs_train)) docs_train "MaximumLikelihoodEstimator" None None)
  | Err _ => mkBn [] [] None []
  end.
Example docs_area : exists roc a, roc_auc [LStr "heavy"; LStr "light"] no_pgp docs_bn docs_test "traffic" = Ok (roc, Some a) /\ a = q 3 4.
Proof. eexists. eexists. split; [vm_compute; reflexivity|]. apply Qc_is_canon. reflexivity. Qed.

(** ** C98 *)

(** [describes m hit pred occ]: precision is hit / pred, recall is hit / occ (0 without predictions or
    occurrences), F1 is 2 hit / (pred + occ) and the support is occ. *)
Theorem C98_report : forall b S fs d v f pg ts, fitted b S fs -> In (v, f) fs ->
  incl (f_names f) (d_cols d) -> In v (d_cols d) ->
  (forall r, In r (d_rows d) -> exists u, parent_values r (f_names f) u /\ In u (f_columns f)) ->
  d_rows d <> [] ->
  (* the true states, all integers or all strings like the declared ones *)
  map (fun r => at_col r v) (d_rows d) = map Some ts -> one_kind (ts ++ declared S v) ->
  exists preds rep row, predict pg b d v = Ok preds /\ List.length preds = List.length ts /\ classification_report pg b d v = Ok rep /\
    (forall s, In s (declared S v) -> dget String.eqb rep (col_name v s) = Some (EMetric (row s)) /\
       describes (row s) (tally (both s) (combine ts preds)) (tally (predicted s) (combine ts preds)) (tally (actual s) (combine ts preds))) /\
    (* macro average: the plain mean over the states *)
    (exists M, dget String.eqb rep "macro avg" = Some (EMetric M) /\
       let k := Qc_of_nat (List.length (declared S v)) in
       m_precision M * k = Qsum (fun s => m_precision (row s)) (declared S v) /\
       m_recall M * k = Qsum (fun s => m_recall (row s)) (declared S v) /\
       m_f1 M * k = Qsum (fun s => m_f1 (row s)) (declared S v)) /\
    ((forall t, In t ts -> In t (declared S v)) ->
      (* the share of the rows whose state is predicted *)
      let h := Qc_of_nat (tally (fun x => label_eqb (fst x) (snd x)) (combine ts preds)) in
      let n := Qc_of_nat (List.length (d_rows d)) in
      ((forall s, In s (declared S v) -> In s ts \/ In s preds) ->
         dget String.eqb rep "accuracy" = Some (ENumber (h / n)) /\ dget String.eqb rep "micro avg" = None) /\
      ((exists s, In s (declared S v) /\ ~ In s ts /\ ~ In s preds) ->
         dget String.eqb rep "accuracy" = None /\
         exists m, dget String.eqb rep "micro avg" = Some (EMetric m) /\ m_precision m = h / n /\ m_recall m = h / n /\ m_f1 m = h / n) /\
      exists W, dget String.eqb rep "weighted avg" = Some (EMetric W) /\ m_recall W = h / n /\ m_support W = List.length (d_rows d)).
Proof. intros. eapply report_rows; eauto. Qed.
Print Assumptions C98_report.

Definition no_pg : predictor := fun _ _ => 0%nat.

(** The report of the documentation's example, by its own network. *)
Definition shown (e : string * entry) : string * list Q * nat :=
  match e with
  | (n, EMetric m) => (n, [this (m_precision m); this (m_recall m); this (m_f1 m)], m_support m)
  | (n, ENumber x) => (n, [this x], 0%nat)
  end.
Example docs_numbers : exists rep, classification_report no_pg docs_bn docs_test "traffic" = Ok rep /\
  map shown rep = [("traffic_heavy", [2 # 3; 1; 4 # 5], 2%nat); ("traffic_light", [1; 1 # 2; 2 # 3], 2%nat); ("accuracy", [3 # 4], 0%nat);
    ("macro avg", [5 # 6; 3 # 4; 11 # 15], 4%nat); ("weighted avg", [5 # 6; 3 # 4; 11 # 15], 4%nat)]%Q.
Proof. eexists. split; [vm_compute; reflexivity|]. vm_compute. reflexivity. Qed.

(** The hypotheses, for the pair of the documentation's names. *)
Example report_hypotheses :
  (forall r, In r (d_rows (pair_data "day" "traffic" l0)) -> exists u, parent_values r (f_names f0) u /\ In u (f_columns f0)) /\
  map (fun r => at_col r "traffic") (d_rows (pair_data "day" "traffic" l0)) = map Some [LStr "light"; LStr "heavy"; LStr "light"; LStr "heavy"] /\
  one_kind ([LStr "light"; LStr "heavy"; LStr "light"; LStr "heavy"] ++ declared S0 "traffic").
Proof.
  split; [|split; [reflexivity|]].
  - intros r H. destruct (docs_rows r H) as (A & B & _). eauto.
  - right. intros x H. cbn in H. decompose [or] H; subst; eauto; contradiction.
Qed.
(** A test set in which one state neither occurs nor is predicted: no "accuracy". *)
Example missing_state : exists rep m, classification_report no_pg (fit "day" "traffic" l0) (pair_data "day" "traffic" [(LStr "sun", LStr "light")]) "traffic" = Ok rep /\
  dget String.eqb rep "accuracy" = None /\ dget String.eqb rep "micro avg" = Some (EMetric m) /\ m_precision m = 1.
Proof. eexists. eexists. split; [vm_compute; reflexivity|]. split; [reflexivity|]. split; [reflexivity|]. apply Qc_is_canon. reflexivity. Qed.
