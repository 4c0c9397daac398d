(** * PropsPredict: properties C99-C100 (predictions and conditional probabilities). *)
From Coq Require Import List Bool Arith ZArith Lia String QArith Qcanon Permutation.
From Verif Require Import Base QcX Digraph SmModel SmProofs SmHist SmThms NetModel NetProofs NetFit NetThms NetBridge PgModel PgThms PgMain PgState PropsNet.
From Verif Require Import InferSpec InferMain.
From Verif Require InferModel InferOps InferEngine Kruskal.
Import ListNotations.
Local Open Scope string_scope.
Local Open Scope list_scope.

(** ** C99 *)

(** [seen d v r] are the values of row [r] in the columns other than [v]; [cond_prob N obs v s] is
    P(v = s | obs) in the network [N] that the CPDs of the fitted model describe; [engine_says] is the
    answer of an InferenceEngine built from the model when queried with the row.  [axes] is the order in
    which pgmpy lays out the missing variables. *)
Theorem C99_missing_partial : forall b S fs d v axes order, fitted b S fs ->
  (forall u, In u (b_nodes b) -> InferModel.is_identifier u = true) -> ~ In "self" (b_nodes b) ->
  NoDup (d_cols d) -> incl (d_cols d) (b_nodes b) -> declared_data S d -> In v (b_nodes b) ->
  In v (d_cols d) -> ~ incl (get_parents b v) (d_cols d) -> (forall e, Permutation (axes e) (missing b e)) ->
  exists out, predict_probability order (pg_probability axes b) b d v =
      Ok (map (fun i => col_name v (LInt (Z.of_nat i))) (seq 0 (List.length (declared S v))), out) /\
    Forall2 (fun r ps => Pr (InferOps.net_of (as_input b fs)) (observed (seen d v r)) <> 0%Qc ->
      ps = map (fun s => CNum (cond_prob (InferOps.net_of (as_input b fs)) (seen d v r) v s)) (declared S v)) (d_rows d) out.
Proof. intros b S fs d v axes order F Id Self ND Ic Rows Hv. exact (missing_probability b S fs F Id Self d ND Ic Rows v Hv axes order). Qed.
Print Assumptions C99_missing_partial.

(** All parents are in the data: proved when no column is a descendant of the node, and no parent is
    named like a result column (see C21). *)
Theorem C99_present_partial : forall b S fs d v order pg, fitted b S fs ->
  (forall u, In u (b_nodes b) -> InferModel.is_identifier u = true) -> ~ In "self" (b_nodes b) ->
  NoDup (d_cols d) -> incl (d_cols d) (b_nodes b) -> declared_data S d -> In v (b_nodes b) ->
  incl (get_parents b v) (d_cols d) -> (forall c, In c (d_cols d) -> c <> v -> ~ path (b_edges b) v c) ->
  Permutation order (declared S v) ->
  (forall s p, In s (declared S v) -> In p (get_parents b v) -> p <> col_name v s) ->
  exists out, predict_probability order pg b d v = Ok (map (col_name v) order, out) /\
    Forall2 (fun r ps => Pr (InferOps.net_of (as_input b fs)) (observed (seen d v r)) <> 0%Qc ->
      ps = map (fun s => CNum (cond_prob (InferOps.net_of (as_input b fs)) (seen d v r) v s)) order) (d_rows d) out.
Proof. intros b S fs d v order pg F Id Self ND Ic Rows Hv Pc Nd. exact (present_probability b S fs F Id Self d ND Ic Rows v Hv Pc Nd order pg). Qed.
Print Assumptions C99_present_partial.

(** These numbers are the answers of the inference engine for the same row. *)
Theorem C99_engine : forall b S fs d v r s, fitted b S fs ->
  (forall u, In u (b_nodes b) -> InferModel.is_identifier u = true) -> ~ In "self" (b_nodes b) ->
  NoDup (d_cols d) -> incl (d_cols d) (b_nodes b) -> declared_data S d -> In v (b_nodes b) ->
  In r (d_rows d) -> In s (declared S v) ->
  engine_says (as_input b fs) (seen d v r) v s (cond_prob (InferOps.net_of (as_input b fs)) (seen d v r) v s).
Proof. intros b S fs d v r s F Id Self ND Ic Rows Hv. exact (engine_agrees b S fs F Id Self d ND Ic Rows v Hv r s). Qed.
Print Assumptions C99_engine.

(** a -> b -> c; b is 1 unless a is 0; c is mostly b. *)
Definition p_calls : list sop := [AddEdge (LStr "a") (LStr "b") "unknown" []; AddEdge (LStr "b") (LStr "c") "unknown" []].
Definition p_row (x y z : Z) : list (string * option label) := [("a", Some (LInt x)); ("b", Some (LInt y)); ("c", Some (LInt z))].
Definition p_data : df := mkDf ["a"; "b"; "c"]
  [p_row 0 0 0; p_row 0 0 0; p_row 0 0 0; p_row 1 1 1; p_row 1 1 0; p_row 2 1 1; p_row 2 1 1]%Z.
Definition p_b0 : bn := mkBn ["a"; "b"; "c"] [("a", "b"); ("b", "c")] None [].
Definition p_b1 : bn := fst (fit_node_states p_b0 p_data).
Definition p_b : bn := fst (fit_cpds p_b1 p_data "MaximumLikelihoodEstimator" None None).
Definition p_S : list (string * list label) := [("a", [LInt 0; LInt 1; LInt 2]); ("b", [LInt 0; LInt 1]); ("c", [LInt 0; LInt 1])].
Definition p_fs : list (string * frame) := match cpds p_b with Ok fs => fs | Err _ => [] end.
Definition p_net : net := InferOps.net_of (as_input p_b p_fs).

Lemma p_fitted : fitted p_b p_S p_fs.
Proof.
  exists p_b1, p_data, "MaximumLikelihoodEstimator", None, None. split.
  { exists (srun [] p_calls), [FitStates p_data]. split.
    { exists [], [], "unknown", p_calls. exists []. split; [reflexivity|]. split; [|reflexivity]. repeat apply Forall_cons; try apply Forall_nil; cbn [op_ok]; constructor. }
    split; [exists ["a"; "b"; "c"]; reflexivity|]. split.
    { apply Forall_cons; [|apply Forall_nil]. cbn. repeat (apply NoDup_cons; [simpl; intuition discriminate|]). constructor. }
    exists p_b0. split; reflexivity. }
  split; [vm_compute; reflexivity|]. split; [intros v [<-|[<-|[<-|[]]]]; discriminate|].
  split; [intros v [<-|[<-|[<-|[]]]]; cbn; auto|]. split; [left; auto|]. split; [reflexivity|].
  unfold p_fs. destruct (cpds p_b) as [fs|x] eqn:E; [auto|]. vm_compute in E. discriminate.
Qed.

Lemma p_names : (forall u, In u (b_nodes p_b) -> InferModel.is_identifier u = true) /\ ~ In "self" (b_nodes p_b).
Proof. split; [intros u [<-|[<-|[<-|[]]]]; reflexivity|cbn; intuition discriminate]. Qed.

(** Predicting b from c. *)
Definition from_c : df := mkDf ["b"; "c"] [[("b", Some (LInt 0)); ("c", Some (LInt 0))]; [("b", Some (LInt 0)); ("c", Some (LInt 1))]].
Definition p_axes (e : list (string * nat)) : list string := rev (missing p_b e).
Example from_c_hyps : NoDup (d_cols from_c) /\ incl (d_cols from_c) (b_nodes p_b) /\ declared_data p_S from_c /\ In "b" (b_nodes p_b) /\
  In "b" (d_cols from_c) /\ ~ incl (get_parents p_b "b") (d_cols from_c) /\ (forall e, Permutation (p_axes e) (missing p_b e)) /\
  Forall (fun r => Pr p_net (observed (seen from_c "b" r)) <> 0%Qc) (d_rows from_c).
Proof.
  split; [repeat (apply NoDup_cons; [simpl; intuition discriminate|]); constructor|].
  split; [intros v [<-|[<-|[]]]; cbn; auto|]. split.
  { intros r c [<-|[<-|[]]] [<-|[<-|[]]]; eexists; (split; [reflexivity|]); cbn; auto. }
  split; [cbn; auto|]. split; [cbn; auto|]. split.
  { intros H. specialize (H "a" (or_introl eq_refl)). destruct H as [H|[H|[]]]; discriminate. }
  split; [intros e; symmetry; apply Permutation_rev|].
  repeat (apply Forall_cons; [intros H; vm_compute in H; discriminate|]). apply Forall_nil.
Qed.
Definition shown_probs (r : res (list string * list (list cell))) : option (list string * list (list (option Q))) :=
  match r with Ok (cs, o) => Some (cs, map (map (fun c => match c with CNum q => Some (this q) | CVal _ => None end)) o) | Err _ => None end.
Example from_c_values :
  shown_probs (predict_probability [] (pg_probability p_axes p_b) p_b from_c "b") =
    Some (["b_0"; "b_1"], [[Some (3 # 4); Some (1 # 4)]; [Some 0; Some 1]])%Q /\
  this (cond_prob p_net [("c", LInt 0)] "b" (LInt 1)) = (1 # 4)%Q.
Proof. split; vm_compute; reflexivity. Qed.

(** Predicting c from a and b: all parents are there and no descendant is. *)
Definition from_ab : df := mkDf ["c"; "b"; "a"] [p_row 0 0 0; p_row 2 1 0]%Z.
Example from_ab_hyps : NoDup (d_cols from_ab) /\ incl (d_cols from_ab) (b_nodes p_b) /\ declared_data p_S from_ab /\
  incl (get_parents p_b "c") (d_cols from_ab) /\ (forall c, In c (d_cols from_ab) -> c <> "c" -> ~ path (b_edges p_b) "c" c) /\
  (forall s p, In s (declared p_S "c") -> In p (get_parents p_b "c") -> p <> col_name "c" s) /\
  Forall (fun r => Pr p_net (observed (seen from_ab "c" r)) <> 0%Qc) (d_rows from_ab).
Proof.
  split; [repeat (apply NoDup_cons; [simpl; intuition discriminate|]); constructor|].
  split; [intros v [<-|[<-|[<-|[]]]]; cbn; auto|]. split.
  { intros r c [<-|[<-|[]]] [<-|[<-|[<-|[]]]]; eexists; (split; [reflexivity|]); cbn; auto. }
  split; [intros p [<-|[]]; cbn; auto|]. split.
  { intros c _ _ P. assert (G : forall x y, path (b_edges p_b) x y -> x <> "c").
    { induction 1 as [x y H|x y z H _ IH]; cbn in H; destruct H as [[= <- <-]|[[= <- <-]|[]]]; discriminate. }
    apply (G _ _ P). auto. }
  split; [intros s p [<-|[<-|[]]] [<-|[]]; discriminate|].
  repeat (apply Forall_cons; [intros H; vm_compute in H; discriminate|]). apply Forall_nil.
Qed.
Example from_ab_values :
  shown_probs (predict_probability [LInt 0; LInt 1] no_pgp p_b from_ab "c") =
    Some (["c_0"; "c_1"], [[Some 1; Some 0]; [Some (1 # 4); Some (3 # 4)]])%Q.
Proof. vm_compute. reflexivity. Qed.

(** A descendant in the data is ignored once all parents are there: a has no parents, so the column b
    has no effect although b = 1 rules out a = 0. *)
Definition from_b : df := mkDf ["a"; "b"] [[("a", Some (LInt 0)); ("b", Some (LInt 1))]].
Theorem C99_descendants_refuted :
  exists b S fs d v order r, fitted b S fs /\ NoDup (d_cols d) /\ incl (d_cols d) (b_nodes b) /\ declared_data S d /\ In v (d_cols d) /\
    incl (get_parents b v) (d_cols d) /\ d_rows d = [r] /\ Permutation order (declared S v) /\
    Pr (InferOps.net_of (as_input b fs)) (observed (seen d v r)) <> 0%Qc /\
    forall pg, exists cols ps, predict_probability order pg b d v = Ok (cols, [ps]) /\
      ps <> map (fun s => CNum (cond_prob (InferOps.net_of (as_input b fs)) (seen d v r) v s)) order.
Proof.
  exists p_b, p_S, p_fs, from_b, "a", [LInt 0; LInt 1; LInt 2], [("a", Some (LInt 0)); ("b", Some (LInt 1))].
  split; [exact p_fitted|]. split; [repeat (apply NoDup_cons; [simpl; intuition discriminate|]); constructor|].
  split; [intros v [<-|[<-|[]]]; cbn; auto|]. split.
  { intros r c [<-|[]] [<-|[<-|[]]]; eexists; (split; [reflexivity|]); cbn; auto. }
  split; [cbn; auto|]. split; [intros p []|]. split; [reflexivity|]. split; [apply Permutation_refl|].
  split; [intros H; vm_compute in H; discriminate|].
  intros pg. do 2 eexists. split; [vm_compute; reflexivity|]. intros H.
  apply (f_equal (fun ps => shown_probs (Ok ([], [ps])))) in H. vm_compute in H. discriminate.
Qed.
Print Assumptions C99_descendants_refuted.

(** ** C100 *)

(** All parents in the data and no descendant: a most probable state given the row. *)
Theorem C100_present_partial : forall b S fs d v pg, fitted b S fs ->
  (forall u, In u (b_nodes b) -> InferModel.is_identifier u = true) -> ~ In "self" (b_nodes b) ->
  NoDup (d_cols d) -> incl (d_cols d) (b_nodes b) -> declared_data S d -> In v (b_nodes b) ->
  incl (get_parents b v) (d_cols d) -> (forall c, In c (d_cols d) -> c <> v -> ~ path (b_edges b) v c) ->
  exists out, predict pg b d v = Ok out /\
    Forall2 (fun r x => Pr (InferOps.net_of (as_input b fs)) (observed (seen d v r)) <> 0%Qc -> In x (declared S v) /\
      forall s, In s (declared S v) ->
        (cond_prob (InferOps.net_of (as_input b fs)) (seen d v r) v s <= cond_prob (InferOps.net_of (as_input b fs)) (seen d v r) v x)%Qc)
      (d_rows d) out.
Proof. intros b S fs d v pg F Id Self ND Ic Rows Hv Pc Nd. exact (present_state b S fs F Id Self d ND Ic Rows v Hv Pc Nd pg). Qed.
Print Assumptions C100_present_partial.

(** Parents missing: the state of the node in a most probable completion [w] of the row, as its position
    among the states (see C22). *)
Theorem C100_missing_partial : forall b S fs d v axes, fitted b S fs ->
  (forall u, In u (b_nodes b) -> InferModel.is_identifier u = true) -> ~ In "self" (b_nodes b) ->
  NoDup (d_cols d) -> incl (d_cols d) (b_nodes b) -> declared_data S d -> In v (b_nodes b) ->
  In v (d_cols d) -> ~ incl (get_parents b v) (d_cols d) -> (forall e, Permutation (axes e) (missing b e)) ->
  let N := InferOps.net_of (as_input b fs) in
  exists out, predict (pg_state axes b) b d v = Ok out /\
    Forall2 (fun r x => exists w i, In w (all_worlds N) /\ observed (seen d v r) w = true /\
      (forall w', In w' (all_worlds N) -> observed (seen d v r) w' = true -> (joint N w' <= joint N w)%Qc) /\
      nth_error (declared S v) i = Some (at_ w v) /\ x = LInt (Z.of_nat i)) (d_rows d) out.
Proof. exact missing_state. Qed.
Print Assumptions C100_missing_partial.

(** That need not be a most probable state: without any evidence b is 1 with probability 4/7, but the
    most probable completion has a = 0 and b = 0.  predict and predict_probability disagree. *)
Definition only_b : df := mkDf ["b"] [[("b", Some (LInt 0))]].
Theorem C100_missing_refuted :
  exists b S fs d v axes r, fitted b S fs /\ NoDup (d_cols d) /\ incl (d_cols d) (b_nodes b) /\ declared_data S d /\ In v (d_cols d) /\
    (forall e, Permutation (axes e) (missing b e)) /\ d_rows d = [r] /\ declared S v = [LInt 0; LInt 1] /\
    predict (pg_state axes b) b d v = Ok [LInt 0] /\
    (cond_prob (InferOps.net_of (as_input b fs)) (seen d v r) v (LInt 0) < cond_prob (InferOps.net_of (as_input b fs)) (seen d v r) v (LInt 1))%Qc /\
    exists x y, predict_probability [] (pg_probability axes b) b d v = Ok (["b_0"; "b_1"], [[CNum x; CNum y]]) /\ (x < y)%Qc.
Proof.
  exists p_b, p_S, p_fs, only_b, "b", p_axes, [("b", Some (LInt 0))].
  split; [exact p_fitted|]. split; [repeat (apply NoDup_cons; [simpl; intuition discriminate|]); constructor|].
  split; [intros v [<-|[]]; cbn; auto|]. split.
  { intros r c [<-|[]] [<-|[]]; eexists; (split; [reflexivity|]); cbn; auto. }
  split; [cbn; auto|]. split; [intros e; symmetry; apply Permutation_rev|]. split; [reflexivity|]. split; [reflexivity|].
  split; [vm_compute; reflexivity|]. split; [vm_compute; reflexivity|].
  do 2 eexists. split; [vm_compute; reflexivity|]. vm_compute. reflexivity.
Qed.
Print Assumptions C100_missing_refuted.

(** And descendants are ignored once all parents are there: predict answers a = 0, which b = 1 rules out. *)
Theorem C100_descendants_refuted :
  exists b S fs d v r x, fitted b S fs /\ NoDup (d_cols d) /\ incl (d_cols d) (b_nodes b) /\ declared_data S d /\ In v (d_cols d) /\
    incl (get_parents b v) (d_cols d) /\ d_rows d = [r] /\
    Pr (InferOps.net_of (as_input b fs)) (observed (seen d v r)) <> 0%Qc /\
    (forall pg, predict pg b d v = Ok [x]) /\ cond_prob (InferOps.net_of (as_input b fs)) (seen d v r) v x = 0%Qc.
Proof.
  exists p_b, p_S, p_fs, from_b, "a", [("a", Some (LInt 0)); ("b", Some (LInt 1))], (LInt 0).
  split; [exact p_fitted|]. split; [repeat (apply NoDup_cons; [simpl; intuition discriminate|]); constructor|].
  split; [intros v [<-|[<-|[]]]; cbn; auto|]. split.
  { intros r c [<-|[]] [<-|[<-|[]]]; eexists; (split; [reflexivity|]); cbn; auto. }
  split; [cbn; auto|]. split; [intros p []|]. split; [reflexivity|].
  split; [intros H; vm_compute in H; discriminate|]. split; [intros pg; vm_compute; reflexivity|].
  apply Qc_is_canon. vm_compute. reflexivity.
Qed.
Print Assumptions C100_descendants_refuted.

Example from_c_predict : predict (pg_state p_axes p_b) p_b from_c "b" = Ok [LInt 0; LInt 1].
Proof. vm_compute. reflexivity. Qed.
Example from_ab_predict : predict no_pg p_b from_ab "c" = Ok [LInt 0; LInt 1].
Proof. vm_compute. reflexivity. Qed.
