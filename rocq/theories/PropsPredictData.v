(** * PropsPredictData: property C117 (which data predictions accept) and a further refutation for C21. *)
From Coq Require Import List Bool Arith ZArith Lia String QArith Qcanon Permutation.
From Verif Require Import Base QcX Digraph SmModel SmProofs SmHist SmThms NetModel NetProofs NetFit NetThms NetAccept PropsNet PropsPredict.
Import ListNotations.
Local Open Scope string_scope.
Local Open Scope list_scope.

(** ** C117 *)

(** [fitted b S fs]: [b] is a fitted network with the declared states [S].  [get_parents b v] are the
    parents of [v]; [d_cols d] and [d_rows d] are the columns and rows of the data. *)
Theorem C117_unknown_node : forall b d v pg order pgp, ~ In v (b_nodes b) ->
  predict pg b d v = Err NetworkXError /\ predict_probability order pgp b d v = Err NetworkXError.
Proof. exact unknown_node. Qed.
Print Assumptions C117_unknown_node.

(** Every parent is a column: predictions are made exactly when every row holds a declared state of
    every parent; other columns of the data do not matter. *)
Theorem C117_predict_complete : forall b S fs d v pg, fitted b S fs -> In v (b_nodes b) -> incl (get_parents b v) (d_cols d) ->
  let known := forall r p, In r (d_rows d) -> In p (get_parents b v) -> exists x, dget String.eqb r p = Some (Some x) /\ In x (match dget String.eqb S p with Some l => l | None => [] end) in
  (known -> exists out, predict pg b d v = Ok out) /\ (~ known -> predict pg b d v = Err KeyError).
Proof.
  intros b S fs d v pg F Hv I known. assert (K : known <-> rows_known S (get_parents b v) d).
  { split; intros K r p Hr Hp; destruct (K r p Hr Hp) as (x & E & Hx); exists x; (split; [|exact Hx]); unfold at_col in *.
    - rewrite E. reflexivity.
    - destruct (dget String.eqb r p) as [[y|]|]; congruence. }
  rewrite K. exact (parents_accept b S fs d v F Hv pg I).
Qed.
Print Assumptions C117_predict_complete.

Theorem C117_probability_complete : forall b S fs d v order pg, fitted b S fs -> In v (b_nodes b) -> incl (get_parents b v) (d_cols d) ->
  Permutation order (match dget String.eqb S v with Some l => l | None => [] end) ->
  let known := forall r p, In r (d_rows d) -> In p (get_parents b v) -> exists x, dget String.eqb r p = Some (Some x) /\ In x (match dget String.eqb S p with Some l => l | None => [] end) in
  ((forall s, In s order -> ~ In (col_name v s) (get_parents b v)) -> known -> exists out, predict_probability order pg b d v = Ok out) /\
  (~ known -> predict_probability order pg b d v = Err KeyError).
Proof.
  intros b S fs d v order pg F Hv I PO known. assert (K : known <-> rows_known S (get_parents b v) d).
  { split; intros K r p Hr Hp; destruct (K r p Hr Hp) as (x & E & Hx); exists x; (split; [|exact Hx]); unfold at_col in *.
    - rewrite E. reflexivity.
    - destruct (dget String.eqb r p) as [[y|]|]; congruence. }
  rewrite K. destruct (parents_accept_probability b S fs d v F Hv order pg I PO) as [A B]. split; [|exact B].
  intros NC. apply A. intros s Hs. apply NC. apply (Permutation_in _ (Permutation_sym PO)). exact Hs.
Qed.
Print Assumptions C117_probability_complete.

(** Some parent is not a column: every column must have declared states and the node itself must be a
    column (KeyError otherwise); every column must then be a node (ValueError otherwise); and data whose
    rows hold declared states in every column is accepted. *)
Theorem C117_incomplete : forall b S fs d v pg order pgp, fitted b S fs -> In v (b_nodes b) -> ~ incl (get_parents b v) (d_cols d) ->
  (~ (incl (d_cols d) (map fst S) /\ In v (d_cols d)) ->
     predict pg b d v = Err KeyError /\ predict_probability order pgp b d v = Err KeyError) /\
  (incl (d_cols d) (map fst S) -> In v (d_cols d) -> ~ incl (d_cols d) (b_nodes b) ->
     predict pg b d v = Err ValueError /\ predict_probability order pgp b d v = Err ValueError) /\
  (In v (d_cols d) -> incl (d_cols d) (b_nodes b) ->
   (forall r c, In r (d_rows d) -> In c (d_cols d) -> exists x, dget String.eqb r c = Some (Some x) /\ In x (match dget String.eqb S c with Some l => l | None => [] end)) ->
     (exists out, predict pg b d v = Ok out) /\ exists out, predict_probability order pgp b d v = Ok out).
Proof.
  intros b S fs d v pg order pgp F Hv N. destruct (others_accept b S fs d v F Hv pg order pgp N) as (A & B & C). split; [exact A|]. split; [exact B|].
  intros Hd I K. apply C; auto. intros r c Hr Hc. destruct (K r c Hr Hc) as (x & E & Hx). exists x. split; [unfold at_col; rewrite E; reflexivity|exact Hx].
Qed.
Print Assumptions C117_incomplete.

(** The network a -> b -> c of PropsPredict: states that were not declared, a column that is not a
    node, the node missing from data without its parents, and accepted data. *)
Example C117_met :
  predict no_pg p_b (mkDf ["a"; "z"] [[("a", Some (LInt 2)); ("z", Some (LInt 7))]]) "b" = Ok [LInt 1] /\
  predict no_pg p_b (mkDf ["a"] [[("a", Some (LInt 2))]; [("a", Some (LInt 9))]]) "b" = Err KeyError /\
  predict no_pg p_b (mkDf ["a"] [[("a", None)]]) "b" = Err KeyError /\
  predict no_pg p_b (mkDf ["a"] [[("a", Some (LInt 2))]]) "c" = Err KeyError /\
  predict no_pg p_b (mkDf ["a"; "c"; "z"] [[("a", Some (LInt 2)); ("c", Some (LInt 0)); ("z", Some (LInt 7))]]) "c" = Err KeyError /\
  predict no_pg p_b (mkDf ["a"; "c"] [[("a", Some (LInt 2)); ("c", Some (LInt 0))]]) "c" = Ok [LInt 0] /\
  predict no_pg p_b (mkDf ["a"] [[("a", Some (LInt 2))]]) "q" = Err NetworkXError.
Proof. repeat split; vm_compute; reflexivity. Qed.

(** ** C21 *)

(** The parent "b_0" of "b" has the name of the column for state 0 and the integer states 0 and 1: the
    probability 1 (or 0) written for state 0 is then read back as the state of the parent.  No error is
    raised, and the rows sum to 2 and to 0. *)
Definition calls6 : list sop := [AddEdge (LStr "b_0") (LStr "b") "unknown" []].
Definition row6 (x y : Z) : list (string * option label) := [("b_0", Some (LInt x)); ("b", Some (LInt y))].
Definition data6 : df := mkDf ["b_0"; "b"] [row6 0 0; row6 1 1].
Definition b6 : bn := mkBn ["b_0"; "b"] [("b_0", "b")] None [].
Definition b7 : bn := fst (fit_node_states b6 data6).
Definition b8 : bn := fst (fit_cpds b7 data6 "MaximumLikelihoodEstimator" None None).
Definition S8 : list (string * list label) := [("b_0", [LInt 0; LInt 1]); ("b", [LInt 0; LInt 1])].
Theorem C21_silent_refuted :
  exists b S fs d f order pg out, fitted b S fs /\ In ("b", f) fs /\ incl (f_names f) (d_cols d) /\
    Permutation order (declared S "b") /\
    (forall r, In r (d_rows d) -> exists u, parent_values r (f_names f) u /\ In u (f_columns f)) /\
    predict_probability order pg b d "b" = Ok (["b_0"; "b_1"], out) /\ out = [[CNum (q 1 1); CNum (q 1 1)]; [CNum (q 0 1); CNum (q 0 1)]].
Proof.
  exists b8, S8. exists (match cpds b8 with Ok fs => fs | Err _ => [] end). exists data6. eexists. exists [LInt 0; LInt 1], no_pgp. eexists. split; [|split; [left; reflexivity|]].
  - exists b7, data6, "MaximumLikelihoodEstimator", None, None. split.
    + exists (srun [] calls6), [FitStates data6]. split.
      { exists [], [], "unknown", calls6. exists []. split; [reflexivity|]. split; [|reflexivity]. repeat apply Forall_cons; try apply Forall_nil; cbn [op_ok]; constructor. }
      split; [exists ["b_0"; "b"]; reflexivity|]. split.
      { apply Forall_cons; [|apply Forall_nil]. cbn. apply NoDup_cons; [simpl; intuition discriminate|]. apply NoDup_cons; [simpl; tauto|constructor]. }
      exists b6. split; reflexivity.
    + split; [vm_compute; reflexivity|]. split; [intros v [<-|[<-|[]]]; discriminate|].
      split; [intros v [<-|[<-|[]]]; cbn; auto|]. split; [left; auto|]. split; [reflexivity|vm_compute; reflexivity].
  - cbn [f_names f_columns]. split; [intros v [<-|[]]; cbn; auto|]. split; [apply Permutation_refl|]. split.
    + intros r [<-|[<-|[]]]; [exists [LInt 0]|exists [LInt 1]]; (split; [repeat constructor|cbn; auto]).
    + split; [vm_compute; reflexivity|]. repeat f_equal; apply Qc_is_canon; vm_compute; reflexivity.
Qed.
Print Assumptions C21_silent_refuted.
