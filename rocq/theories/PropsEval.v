(** * PropsEval: properties C23 and C55 (evaluation). *)
From Coq Require Import List Bool Arith ZArith Lia String QArith Qcanon Permutation.
From Verif Require Import Base QcX Digraph SmModel SmProofs SmHist SmThms NetModel NetProofs NetFit NetThms EvalModel EvalProofs.
Import ListNotations.
Local Open Scope string_scope.
Local Open Scope list_scope.

Definition q (n : Z) (d : positive) : Qc := Q2Qc (n # d).

(** ** A network parent -> child, fitted on pairs (parent's state, child's state) *)
Definition pair_calls (p v : string) : list sop := [AddEdge (LStr p) (LStr v) "unknown" []].
Definition pair_data (p v : string) (l : list (label * label)) : df :=
  mkDf [p; v] (map (fun xy => [(p, Some (fst xy)); (v, Some (snd xy))]) l).
Definition pair_net (p v : string) : bn := mkBn [p; v] [(p, v)] None [].
Definition fit_states (p v : string) l : bn := fst (fit_node_states (pair_net p v) (pair_data p v l)).
Definition fit (p v : string) l : bn := fst (fit_cpds (fit_states p v l) (pair_data p v l) "MaximumLikelihoodEstimator" None None).

Lemma pair_fitted p v l S fs : p <> v -> bn_init (srun [] (pair_calls p v)) = Ok (pair_net p v) ->
  nodes (srun [] (pair_calls p v)) = [LStr p; LStr v] ->
  node_states (fit_states p v l) = Ok S -> b_nodes (fit_states p v l) = [p; v] ->
  declared S p <> [] -> declared S v <> [] ->
  snd (fit_cpds (fit_states p v l) (pair_data p v l) "MaximumLikelihoodEstimator" None None) = Ok tt ->
  cpds (fit p v l) = Ok fs -> fitted (fit p v l) S fs.
Proof.
  intros N I Nd NS Bn Np Nv E C. exists (fit_states p v l), (pair_data p v l), "MaximumLikelihoodEstimator", None, None. split.
  { exists (srun [] (pair_calls p v)), [FitStates (pair_data p v l)]. split.
    - exists [], [], "unknown", (pair_calls p v). exists []. split; [reflexivity|]. split; [|reflexivity].
      apply Forall_cons; [constructor|apply Forall_nil].
    - split; [exists [p; v]; exact Nd|]. split.
      + apply Forall_cons; [|apply Forall_nil]. cbn. apply NoDup_cons; [simpl; intuition congruence|]. apply NoDup_cons; [simpl; tauto|constructor].
      + exists (pair_net p v). split; [exact I|reflexivity]. }
  split; [exact NS|]. rewrite Bn. split; [intros x [<-|[<-|[]]]; auto|]. split; [intros x Hx; exact Hx|]. split; [left; auto|].
  split; [|exact C]. unfold fit. rewrite <- E. destruct (fit_cpds _ _ _ _ _); reflexivity.
Qed.

(** ** C23 *)

(** Proved for complete rows with declared states when no state begins with a character of the node's
    name or an underscore ([plain]) and the order of the states is that of their strings.  [U r] are the
    parents' values in row [r]; [wanted_pairs] lists, for each row and state, the indicator of the state
    and the probability of the same state. *)
Theorem C23_roc_pairs_partial : forall b S fs d v f order pg U, fitted b S fs -> In (v, f) fs ->
  incl (f_names f) (d_cols d) -> In v (d_cols d) -> Permutation order (declared S v) ->
  (forall s, In s (declared S v) -> ~ In (col_name v s) (f_names f)) ->
  (forall r, In r (d_rows d) -> parent_values r (f_names f) (U r) /\ In (U r) (f_columns f) /\
     exists s, at_col r v = Some s /\ In s (declared S v)) ->
  (forall s, In s (declared S v) -> plain v s) -> string_order (declared S v) ->
  exists l, roc_pairs order pg b d v = Ok l /\ Permutation l (wanted_pairs f v (declared S v) (d_rows d) U).
Proof. exact roc_spec. Qed.
Print Assumptions C23_roc_pairs_partial.

Definition first_value (p : string) (r : list (string * option label)) : list label :=
  match at_col r p with Some x => [x] | None => [] end.
Definition no_pgp : prob_predictor := fun _ _ => [].

(** The documentation's own names: states "heavy" and "light" of "traffic". *)
Definition l0 := [(LStr "sun", LStr "light"); (LStr "mon", LStr "heavy"); (LStr "mon", LStr "light"); (LStr "mon", LStr "heavy")].
Definition S0 := [("day", [LStr "mon"; LStr "sun"]); ("traffic", [LStr "heavy"; LStr "light"])].
Definition f0 := mkFrame [LStr "heavy"; LStr "light"] ["day"] [[LStr "mon"]; [LStr "sun"]] [[q 2 3; q 0 1]; [q 1 3; q 1 1]].
Example docs_fitted : exists fs, fitted (fit "day" "traffic" l0) S0 fs /\ In ("traffic", f0) fs.
Proof.
  eexists. split; [apply pair_fitted; try discriminate; vm_compute; reflexivity|]. right. left. reflexivity.
Qed.
Example docs_plain : (forall s, In s (declared S0 "traffic") -> plain "traffic" s) /\ string_order (declared S0 "traffic").
Proof.
  split.
  - intros s [<-|[<-|[]]]; reflexivity.
  - intros x y [<-|[<-|[]]] [<-|[<-|[]]]; vm_compute; auto; discriminate.
Qed.
Example docs_rows : forall r, In r (d_rows (pair_data "day" "traffic" l0)) ->
  parent_values r (f_names f0) (first_value "day" r) /\ In (first_value "day" r) (f_columns f0) /\
  exists s, at_col r "traffic" = Some s /\ In s (declared S0 "traffic").
Proof.
  intros r H. cbn in H. decompose [or] H; subst; try tauto;
    (split; [repeat constructor|split; [cbn; auto|eexists; split; [reflexivity|cbn; auto]]]).
Qed.
Example docs_pairs : roc_pairs [LStr "light"; LStr "heavy"] no_pgp (fit "day" "traffic" l0)
    (pair_data "day" "traffic" [(LStr "mon", LStr "light")]) "traffic" = Ok [(false, CNum (q 2 3)); (true, CNum (q 1 3))].
Proof. vm_compute. reflexivity. Qed.

(** The states "fast" and "slow" of "traffic": lstrip removes "fa" from "fast" too, so the columns are
    sorted as "slow", "st" and each class meets the other's probability. *)
Definition l1 := [(LStr "sun", LStr "slow"); (LStr "mon", LStr "fast"); (LStr "mon", LStr "slow"); (LStr "mon", LStr "fast")].
Definition S1 := [("day", [LStr "mon"; LStr "sun"]); ("traffic", [LStr "fast"; LStr "slow"])].
Definition f1 := mkFrame [LStr "fast"; LStr "slow"] ["day"] [[LStr "mon"]; [LStr "sun"]] [[q 2 3; q 0 1]; [q 1 3; q 1 1]].
Definition d1 := pair_data "day" "traffic" [(LStr "mon", LStr "slow")].

Theorem C23_lstrip_refuted :
  exists b S fs d v f order pg l, fitted b S fs /\ In (v, f) fs /\
    incl (f_names f) (d_cols d) /\ In v (d_cols d) /\ Permutation order (declared S v) /\
    (forall s, In s (declared S v) -> ~ In (col_name v s) (f_names f)) /\
    (forall r, In r (d_rows d) -> parent_values r (f_names f) (first_value "day" r) /\ In (first_value "day" r) (f_columns f) /\
       exists s, at_col r v = Some s /\ In s (declared S v)) /\
    string_order (declared S v) /\
    roc_pairs order pg b d v = Ok l /\ In (true, CNum (q 2 3)) l /\
    ~ In (true, CNum (q 2 3)) (wanted_pairs f v (declared S v) (d_rows d) (first_value "day")).
Proof.
  exists (fit "day" "traffic" l1), S1. eexists. exists d1, "traffic", f1, [LStr "fast"; LStr "slow"], no_pgp. eexists.
  split; [apply pair_fitted; try discriminate; vm_compute; reflexivity|].
  split; [right; left; reflexivity|]. split; [intros x [<-|[]]; cbn; auto|]. split; [cbn; auto|].
  split; [apply Permutation_refl|]. split; [intros s [<-|[<-|[]]] [E|[]]; discriminate E|]. split.
  { intros r [<-|[]]. split; [repeat constructor|split; [cbn; auto|eexists; split; [reflexivity|cbn; auto]]]. }
  split; [intros x y [<-|[<-|[]]] [<-|[<-|[]]]; vm_compute; auto; discriminate|].
  split; [vm_compute; reflexivity|]. split; [right; left; reflexivity|].
  vm_compute. intros [E|[E|[]]]; discriminate E.
Qed.
Print Assumptions C23_lstrip_refuted.

(** The states 2 and 10: the truth is sorted by number, the probabilities by string. *)
Definition l2 := [(LStr "sun", LInt 10); (LStr "mon", LInt 2); (LStr "mon", LInt 10); (LStr "mon", LInt 2)].
Definition S2 := [("day", [LStr "mon"; LStr "sun"]); ("n", [LInt 2; LInt 10])].
Definition f2 := mkFrame [LInt 2; LInt 10] ["day"] [[LStr "mon"]; [LStr "sun"]] [[q 2 3; q 0 1]; [q 1 3; q 1 1]].
Definition d2 := pair_data "day" "n" [(LStr "mon", LInt 10)].

Theorem C23_integer_order_refuted :
  exists b S fs d v f order pg l, fitted b S fs /\ In (v, f) fs /\
    incl (f_names f) (d_cols d) /\ In v (d_cols d) /\ Permutation order (declared S v) /\
    (forall s, In s (declared S v) -> ~ In (col_name v s) (f_names f)) /\
    (forall r, In r (d_rows d) -> parent_values r (f_names f) (first_value "day" r) /\ In (first_value "day" r) (f_columns f) /\
       exists s, at_col r v = Some s /\ In s (declared S v)) /\
    (forall s, In s (declared S v) -> plain v s) /\
    roc_pairs order pg b d v = Ok l /\ In (true, CNum (q 2 3)) l /\
    ~ In (true, CNum (q 2 3)) (wanted_pairs f v (declared S v) (d_rows d) (first_value "day")).
Proof.
  exists (fit "day" "n" l2), S2. eexists. exists d2, "n", f2, [LInt 2; LInt 10], no_pgp. eexists.
  split; [apply pair_fitted; try discriminate; vm_compute; reflexivity|].
  split; [right; left; reflexivity|]. split; [intros x [<-|[]]; cbn; auto|]. split; [cbn; auto|].
  split; [apply Permutation_refl|]. split; [intros s [<-|[<-|[]]] [E|[]]; discriminate E|]. split.
  { intros r [<-|[]]. split; [repeat constructor|split; [cbn; auto|eexists; split; [reflexivity|cbn; auto]]]. }
  split; [intros s [<-|[<-|[]]]; reflexivity|].
  split; [vm_compute; reflexivity|]. split; [right; left; reflexivity|].
  vm_compute. intros [E|[E|[]]]; discriminate E.
Qed.
Print Assumptions C23_integer_order_refuted.

(** ** C55 *)

(** classification_report hands sklearn the true states, the predicted states, the list of all states
    and, for each state at its own position, its name. *)
Theorem C55_report_labels : forall b S fs d v f pg, fitted b S fs -> In (v, f) fs ->
  incl (f_names f) (d_cols d) -> In v (d_cols d) ->
  (forall r, In r (d_rows d) -> exists u, parent_values r (f_names f) u /\ In u (f_columns f)) ->
  exists preds labels, report_args pg b d v = Ok (map (fun r => at_col r v) (d_rows d), preds, labels, map (col_name v) labels) /\
    NoDup labels /\ NoDup (map (col_name v) labels) /\ (forall s, In s labels <-> In s (declared S v)) /\
    predict pg b d v = Ok preds /\ List.length preds = List.length (d_rows d) /\ (forall x, In x preds -> In x labels).
Proof. exact report_spec. Qed.
Print Assumptions C55_report_labels.

Example docs_report : report_args (fun _ _ => 0%nat) (fit "day" "traffic" l0) (pair_data "day" "traffic" l0) "traffic" =
  Ok ([Some (LStr "light"); Some (LStr "heavy"); Some (LStr "light"); Some (LStr "heavy")],
      [LStr "light"; LStr "heavy"; LStr "heavy"; LStr "heavy"],
      [LStr "heavy"; LStr "light"], ["traffic_heavy"; "traffic_light"]).
Proof. vm_compute. reflexivity. Qed.
