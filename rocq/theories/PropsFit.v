(** * PropsFit: properties C83-C85 (fitted networks and the data they are fitted to). *)
From Coq Require Import List Bool Arith ZArith Lia String QArith Qcanon Permutation.
From Verif Require Import Base QcX Digraph SmModel SmProofs SmHist SmThms NetModel NetProofs NetFit NetThms NetMle NetOrder PropsNet.
Import ListNotations.
Local Open Scope string_scope.
Local Open Scope Qc_scope.
Local Open Scope list_scope.

(** ** C83 *)

(** [likelihood t parents rows]: the product over the rows and nodes of the probability that the tables
    [t] give to the value of the node in the row, given the values of its parents.  The rows are those
    in which every node has one of its states. *)
Theorem C83_maximum_likelihood : forall b d prior ess S b' fs,
  reached_net b -> node_states b = Ok S ->
  (forall v, In v (b_nodes b) -> declared S v <> []) -> incl (b_nodes b) (d_cols d) ->
  fit_cpds b d "MaximumLikelihoodEstimator" prior ess = (b', Ok tt) -> cpds b' = Ok fs ->
  forall alt : string -> label -> list label -> Qc,
  (forall v f s u, In (v, f) fs -> In s (f_index f) -> In u (f_columns f) -> 0 <= alt v s u) ->
  (forall v f u, In (v, f) fs -> In u (f_columns f) -> Qsum (fun s => alt v s u) (f_index f) = 1) ->
  let rows := filter (usable (declared S) (b_nodes b)) (d_rows d) in
  let parents := map (fun vf => (fst vf, f_names (snd vf))) fs in
  let fitted := fun v s u => match dget String.eqb fs v with Some f => cell_of f s u | None => 0 end in
  likelihood alt parents rows <= likelihood fitted parents rows /\
  (likelihood alt parents rows = likelihood fitted parents rows ->
   forall v f s u, In (v, f) fs -> In s (f_index f) -> In u (f_columns f) -> occurrences rows (f_names f) u <> 0%nat ->
     alt v s u = cell_of f s u).
Proof. exact mle_best. Qed.
Print Assumptions C83_maximum_likelihood.

(** The network of PropsNet: the likelihood of the four rows under the fitted tables, and under tables
    that give every state one half. *)
Definition parents2 : list (string * list string) := map (fun vf => (fst vf, f_names (snd vf))) fs2.
Definition fitted2 (v : string) (s : label) (u : list label) : Qc := match dget String.eqb fs2 v with Some f => cell_of f s u | None => 0 end.
Example likelihood_hyps : reached_net b1 /\ node_states b1 = Ok S1 /\ (forall v, In v (b_nodes b1) -> declared S1 v <> []) /\
  incl (b_nodes b1) (d_cols data) /\ fit_cpds b1 data "MaximumLikelihoodEstimator" None None = (b2, Ok tt) /\ cpds b2 = Ok fs2.
Proof.
  split; [exact b1_reached|]. split; [apply b1_states|]. destruct b1_fit_hyps as (A & B & _ & _).
  split; [exact A|]. split; [exact B|]. split; [reflexivity|exact b2_cpds].
Qed.
Example half_is_a_table : forall v f u, In (v, f) fs2 -> In u (f_columns f) -> Qsum (fun _ => q 1 2) (f_index f) = 1.
Proof. intros v f u [E|[E|[E|[]]]] _; injection E as <- <-; apply Qc_is_canon; reflexivity. Qed.
Example likelihood_values :
  filter (usable (declared S1) (b_nodes b1)) (d_rows data) = d_rows data /\
  this (likelihood fitted2 parents2 (d_rows data)) = (27 # 16384)%Q /\
  this (likelihood (fun _ _ _ => q 1 2) parents2 (d_rows data)) = (1 # 4096)%Q.
Proof. split; [|split]; vm_compute; reflexivity. Qed.

(** ** C84 *)

(** The states depend only on which rows occur. *)
Theorem C84_states : forall b cols rows rows', (forall r, In r rows <-> In r rows') ->
  fit_node_states b (mkDf cols rows) = fit_node_states b (mkDf cols rows').
Proof. exact states_order. Qed.
Print Assumptions C84_states.

(** The tables depend only on how often each combination of values of the nodes occurs: not on the order
    of rows and columns, not on columns that are no nodes. *)
Theorem C84_tables : forall b d d' method prior ess,
  (forall v, In v (b_nodes b) -> In v (d_cols d) <-> In v (d_cols d')) ->
  Permutation (map (fun r => map (at_col r) (b_nodes b)) (d_rows d)) (map (fun r => map (at_col r) (b_nodes b)) (d_rows d')) ->
  fit_cpds b d method prior ess = fit_cpds b d' method prior ess.
Proof. exact tables_order. Qed.
Print Assumptions C84_tables.

(** With maximum likelihood only the proportions matter. *)
Theorem C84_repeated : forall b cols rows k prior ess,
  fit_cpds b (mkDf cols (List.concat (repeat rows (S k)))) "MaximumLikelihoodEstimator" prior ess =
  fit_cpds b (mkDf cols rows) "MaximumLikelihoodEstimator" prior ess.
Proof. exact repeat_data. Qed.
Print Assumptions C84_repeated.

(** The data of PropsNet with the rows reversed, the columns in another order and a column that is no node. *)
Definition extra (r : list (string * option label)) : list (string * option label) := ("z", Some (LInt 5)) :: rev r.
Definition data' : df := mkDf ["z"; "b"; "c"; "a"] (map extra (rev (d_rows data))).
Example order_hyps : (forall v, In v (b_nodes b1) -> In v (d_cols data) <-> In v (d_cols data')) /\
  Permutation (map (fun r => map (at_col r) (b_nodes b1)) (d_rows data)) (map (fun r => map (at_col r) (b_nodes b1)) (d_rows data')) /\
  d_rows data' <> d_rows data.
Proof.
  split; [|split].
  - intros v [<-|[<-|[<-|[]]]]; simpl; tauto.
  - replace (map (fun r => map (at_col r) (b_nodes b1)) (d_rows data')) with (rev (map (fun r => map (at_col r) (b_nodes b1)) (d_rows data))) by reflexivity.
    apply Permutation_rev.
  - discriminate.
Qed.
(** With a prior the number of rows matters, as it should. *)
Example repeated_prior :
  let cell d := match cpds (fst (fit_cpds b1 d "BayesianEstimator" (Some "K2") None)) with Ok fs => match dget String.eqb fs "a" with Some f => this (cell_of f (LStr "x") []) | None => 0%Q end | Err _ => 0%Q end in
  cell data = (1 # 3)%Q /\ cell (mkDf (d_cols data) (List.concat (repeat (d_rows data) 2))) = (3 # 10)%Q.
Proof. split; vm_compute; reflexivity. Qed.

(** ** C85 *)

(** Predicting for two frames one below the other is predicting for each; also when it raises. *)
Theorem C85_predict : forall pg b cols xs ys v,
  predict pg b (mkDf cols (xs ++ ys)) v =
  match predict pg b (mkDf cols xs) v with
  | Ok p => match predict pg b (mkDf cols ys) v with Ok q => Ok (p ++ q) | Err x => Err x end
  | Err x => Err x
  end.
Proof. exact predict_rows. Qed.
Print Assumptions C85_predict.

Theorem C85_predict_probability : forall order pg b cols xs ys v cs o,
  predict_probability order pg b (mkDf cols (xs ++ ys)) v = Ok (cs, o) <->
  exists p q, predict_probability order pg b (mkDf cols xs) v = Ok (cs, p) /\
              predict_probability order pg b (mkDf cols ys) v = Ok (cs, q) /\ o = p ++ q.
Proof. exact probability_rows. Qed.
Print Assumptions C85_predict_probability.

(** Rows in another order: the same pairs of row and prediction. *)
Theorem C85_row_order : forall pg b cols xs ys v p, Permutation xs ys -> predict pg b (mkDf cols xs) v = Ok p ->
  List.length p = List.length xs /\
  exists q, predict pg b (mkDf cols ys) v = Ok q /\ List.length q = List.length ys /\ Permutation (combine xs p) (combine ys q).
Proof.
  intros pg b cols xs ys v p H E. split; [exact (predict_length _ _ _ _ _ E)|].
  destruct (predict_perm pg b cols xs ys v p H E) as (q & Eq & P). exists q. split; [exact Eq|]. split; [exact (predict_length _ _ _ _ _ Eq)|exact P].
Qed.
Print Assumptions C85_row_order.

Example rows_predicted : predict no_pg b2 (mkDf (d_cols data) (rev (d_rows data))) "b" = Ok [LInt 10; LInt 10; LInt 2; LInt 10] /\
  predict no_pg b2 (mkDf ["a"] (map (filter (fun x => String.eqb (fst x) "a")) (d_rows data))) "b" = Err KeyError.
Proof. split; vm_compute; reflexivity. Qed.
