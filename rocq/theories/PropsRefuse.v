(** * PropsRefuse: property C119, unusable arguments are refused with a definite exception. *)
From Coq Require Import List Bool Arith ZArith Lia String Ascii QArith Qcanon Permutation.
From Verif Require Import Base Names QcX Digraph SmModel SmProofs NotearsModel NetModel NetProofs NetFit NetThms EvalModel MetricsModel DynGenModel MapperThms.
From Verif Require Import GradStrings RefuseTorch RefuseGen RefuseMisc.
From Verif Require PlotModel TorchModel TorchSpec TorchTotal SemModel MapperModel PropsSem PropsNotears PropsTorch PropsEval PropsMetrics NotearsAccepts TransModel DynoModel.
Import ListNotations.
Local Open Scope string_scope.
Local Open Scope list_scope.
Local Open Scope nat_scope.

(** Colour gradients: a colour is "#" and three bytes in hexadecimal digits, followed by anything. *)
Theorem C119_colors : forall a b n, let r := PlotModel.color_gradient_string a b n in
  (~ (color_like a /\ color_like b) -> r = Err AttributeError) /\
  (color_like a -> color_like b -> (n = 0%Z -> r = Err ZeroDivisionError) /\ (n <> 0%Z -> exists s, r = Ok s)).
Proof. exact gradient_accepts. Qed.
Print Assumptions C119_colors.

Example C119_colors_met :
  PlotModel.color_gradient_string "#ff00" "#000000" 2 = Err AttributeError /\ PlotModel.color_gradient_string "ff0000" "#000000" 2 = Err AttributeError /\
  PlotModel.color_gradient_string "#0g0000" "#000000" 2 = Err AttributeError /\ PlotModel.color_gradient_string "#ff0000" "#000000xyz" 0 = Err ZeroDivisionError /\
  (exists s, PlotModel.color_gradient_string "#ff0000" "#000000xyz" 2 = Ok s) /\ color_like "#000000xyz".
Proof.
  do 4 (split; [vm_compute; reflexivity|]). split; [eexists; vm_compute; reflexivity|].
  assert (Z : byte_text "00" 0) by (exists "0"%char, "0"%char, 0, 0; repeat split; left; reflexivity). exists "00", "00", "00", "xyz", 0%Z, 0%Z, 0%Z. auto.
Qed.

(** Declared states: every node needs states (KeyError), none may be missing (ValueError), and the states of a node are
    all integers or all strings (TypeError).  Nothing changes then. *)
Theorem C119_states : forall b arg, dict_arg arg ->
  let all_nodes := forall v, In v (b_nodes b) -> exists s, In (v, s) arg in
  let no_missing := forall v s, In (v, s) arg -> ~ In None s in
  let comparable := forall v s, In (v, s) arg -> (forall x, In (Some x) s -> exists z, x = LInt z) \/ (forall x, In (Some x) s -> exists t, x = LStr t) in
  (~ all_nodes -> set_node_states b arg = (b, Err KeyError)) /\
  (all_nodes -> ~ no_missing -> set_node_states b arg = (b, Err ValueError)) /\
  (all_nodes -> no_missing -> ~ comparable -> set_node_states b arg = (b, Err TypeError)) /\
  (all_nodes -> no_missing -> comparable -> exists b', set_node_states b arg = (b', Ok tt)).
Proof.
  intros b arg DA all_nodes no_missing comparable.
  assert (A : all_nodes <-> incl (b_nodes b) (dkeys arg)).
  { split; intros H v Hv; [destruct (H v Hv) as (s & I); apply in_map_iff; exists (v, s); auto|]. apply H in Hv. apply in_map_iff in Hv as ([v' s] & <- & I). eauto. }
  assert (K : forall s, one_kind (drop_none s) <-> (forall x, In (Some x) s -> exists z, x = LInt z) \/ (forall x, In (Some x) s -> exists t, x = LStr t)).
  { intros s. unfold one_kind. split; (intros [H|H]; [left|right]; intros x I; apply H, drop_none_In; exact I). }
  destruct (set_states_spec b arg DA) as [((v & Hv & Nv) & E)|[(I & (v & s & H & Hn) & E)|[(I & NN & (v & s & H & Nk) & E)|(I & OK & E)]]]; rewrite E.
  - assert (NA : ~ all_nodes) by (intros X; apply A in X; auto). split; [reflexivity|]. repeat split; intros; contradiction.
  - assert (Y : all_nodes) by (apply A; auto). assert (NM : ~ no_missing) by (intros X; apply (X v s H Hn)). repeat split; intros; try contradiction; reflexivity.
  - assert (Y : all_nodes) by (apply A; auto). assert (NC : ~ comparable) by (intros X; apply Nk, K, (X v s H)). repeat split; intros; try contradiction; reflexivity.
  - assert (Y : all_nodes) by (apply A; auto). assert (NM : no_missing) by (intros v s H; apply (OK v s H)). assert (C : comparable) by (intros v s H; apply K, (OK v s H)).
    repeat split; intros; try contradiction; eauto.
Qed.
Print Assumptions C119_states.

Example C119_states_met : let b := mkBn ["a"; "b"] [("a", "b")] None [] in
  set_node_states b [("a", [Some (LInt 1)])] = (b, Err KeyError) /\
  set_node_states b [("a", [Some (LInt 1); None]); ("b", [Some (LInt 0)])] = (b, Err ValueError) /\
  set_node_states b [("a", [Some (LInt 1); Some (LStr "x")]); ("b", [Some (LInt 0)])] = (b, Err TypeError) /\
  snd (set_node_states b [("a", [Some (LInt 1); Some (LInt 0)]); ("b", [Some (LStr "x")])]) = Ok tt.
Proof. repeat split. Qed.

(** Reports: without rows, with a missing true state, or with a true state that is not of the kind (integer or string) of
    the declared states, ValueError. *)
Theorem C119_report : forall b S fs d v f pg, fitted b S fs -> In (v, f) fs -> incl (f_names f) (d_cols d) -> In v (d_cols d) ->
  (forall r, In r (d_rows d) -> exists u, parent_values r (f_names f) u /\ In u (f_columns f)) ->
  d_rows d = [] \/ (exists r, In r (d_rows d) /\ at_col r v = None) \/ (exists r x, In r (d_rows d) /\ at_col r v = Some x /\ ~ one_kind (x :: declared S v)) ->
  classification_report pg b d v = Err ValueError.
Proof. exact report_refuses. Qed.
Print Assumptions C119_report.

Example C119_report_met :
  classification_report PropsMetrics.no_pg (PropsEval.fit "day" "traffic" PropsEval.l0) (PropsEval.pair_data "day" "traffic" []) "traffic" = Err ValueError /\
  classification_report PropsMetrics.no_pg (PropsEval.fit "day" "traffic" PropsEval.l0) (mkDf ["day"; "traffic"] [[("day", Some (LStr "sun")); ("traffic", None)]]) "traffic" = Err ValueError /\
  classification_report PropsMetrics.no_pg (PropsEval.fit "day" "traffic" PropsEval.l0) (PropsEval.pair_data "day" "traffic" [(LStr "sun", LInt 1)]) "traffic" = Err ValueError.
Proof. repeat split; vm_compute; reflexivity. Qed.

(** Dynamic data: [cur] are the nodes with "_lag0" in their name and [lag] the others. *)
Theorem C119_dynamic_data : forall order noise g n_samples burn_in sem_type scale drift,
  let r := generate_dataframe_dynamic order noise g n_samples burn_in sem_type scale drift in
  let known := In sem_type ["linear-gauss"; "linear-exp"; "linear-gumbel"] in
  (~ known -> r = Err ValueError) /\
  (* an integer node, or a weight that is not a number *)
  (known -> (exists z, In (LInt z) (nodes g)) \/ odd_weight g -> r = Err TypeError) /\
  forall cur lag, known -> wf g -> periods g cur lag -> ~ odd_weight g ->
    let short := exists l, drift = Some l /\ List.length l < List.length cur in
    (cur = [] -> r = Err ZeroDivisionError) /\
    (cur <> [] -> Digraph.acyclic (edges g) ->
      (0 < n_samples + burn_in -> short -> r = Err IndexError) /\
      (0 < n_samples + burn_in -> ~ short -> (scale < 0)%Qc -> r = Err ValueError) /\
      (n_samples + burn_in = 0 \/ ~ short /\ (0 <= scale)%Qc ->
         ((exists p, List.length lag = p * List.length cur) -> exists df, r = Ok df) /\
         ((~ exists p, List.length lag = p * List.length cur) -> r = Err ValueError))).
Proof.
  intros order noise g n_samples burn_in sem_type scale drift r known. split; [apply dyn_type|]. split; [apply dyn_kinds|].
  intros cur lag Hk Wg P NW short. exact (dyn_rest order noise g n_samples burn_in sem_type scale drift Hk cur lag Wg P NW).
Qed.
Print Assumptions C119_dynamic_data.

Definition dyn_data (g : graph) (s : string) (scale : Qc) (drift : option (list Qc)) : res dframe :=
  generate_dataframe_dynamic (fun _ d => seq 0 d) (fun _ _ => 0%Qc) g 2 1 s scale drift.
Definition cur_g : graph := [(LStr "a_lag0", [(LStr "b_lag0", [("weight", ANum 1%Qc)])]); (LStr "b_lag0", [])].
Example C119_dynamic_met :
  dyn_data cur_g "linear" 1%Qc None = Err ValueError /\ dyn_data [(LInt 0, [])] "linear-gauss" 1%Qc None = Err TypeError /\
  dyn_data [(LStr "a_lag0", [(LStr "b_lag0", [("weight", AStr "x")])]); (LStr "b_lag0", [])] "linear-gauss" 1%Qc None = Err TypeError /\
  dyn_data [(LStr "a", [])] "linear-gauss" 1%Qc None = Err ZeroDivisionError /\ dyn_data cur_g "linear-gauss" 1%Qc (Some [1%Qc]) = Err IndexError /\
  dyn_data cur_g "linear-gauss" (Q2Qc (-1)) None = Err ValueError /\ dyn_data ((LStr "a_lag1", []) :: cur_g) "linear-gauss" 1%Qc None = Err ValueError /\
  (exists df, dyn_data cur_g "linear-gauss" 1%Qc None = Ok df) /\ periods ((LStr "a_lag1", []) :: cur_g) ["a_lag0"; "b_lag0"] ["a_lag1"].
Proof.
  do 7 (split; [vm_compute; reflexivity|]). split; [eexists; vm_compute; reflexivity|]. split; [|split].
  - cbn. apply (Permutation_cons_app [LStr "a_lag0"; LStr "b_lag0"] []). reflexivity.
  - intros c [<-|[<-|[]]]; apply contains_spec; reflexivity.
  - intros c [<-|[]] H. apply contains_spec in H. discriminate.
Qed.

(** Data of a structural equation model: a weight that is neither a number nor None, ValueError. *)
Theorem C119_weights : forall order topo dr g s default noise_std n ds intercept ts junk, PropsSem.valid_call order topo dr g s default ds ts ->
  (exists u v a, In (u, v, a) (edges_data g) /\ weight_of a <> ANone /\ forall q, weight_of a <> ANum q) ->
  SemModel.sem_generator order topo junk dr g s default noise_std n ds intercept = Err ValueError.
Proof. exact sem_weight. Qed.
Print Assumptions C119_weights.

Example C119_weights_met :
  SemModel.sem_generator MapperModel.PERMISSIBLE_TYPES [LStr "a"; LStr "b"] (fun _ _ => 0%Qc) PropsSem.no_draws [(LStr "a", [(LStr "b", [("weight", AStr "x")])]); (LStr "b", [])] [] "continuous" 1%Qc 2 None true = Err ValueError.
Proof. vm_compute. reflexivity. Qed.

(** The torch learner on arrays, in the order of its checks: no rows or columns, or a value that is not a finite number,
    ValueError; a schema that does not name exactly the columns, ValueError; an unknown type, KeyError; negative counts,
    ValueError; an empty hidden layer, ZeroDivisionError; an ordinal column with one value, IndexError. *)
Theorem C119_torch : forall fuel opt eh act grad rnd X schema p t, 17 <= fuel -> TorchSpec.rectangular X -> (forall s, schema = Some s -> NoDup (map fst s)) ->
  (forall n M, eh n M <> PInf) ->
  let r := TorchModel.torch_numpy fuel opt eh act grad rnd X schema p t in
  (~ usable X -> r = Err ValueError) /\
  (usable X -> ~ names_columns (m_cols X) schema -> r = Err ValueError) /\
  (usable X -> names_columns (m_cols X) schema -> ~ TorchTotal.schema_ok (m_cols X) schema -> r = Err KeyError) /\
  (usable X -> TorchTotal.schema_ok (m_cols X) schema -> ~ TorchTotal.counts_ok X schema -> r = Err ValueError) /\
  (usable X -> TorchTotal.schema_ok (m_cols X) schema -> TorchTotal.counts_ok X schema -> ~ TorchTotal.widths_ok p -> r = Err ZeroDivisionError) /\
  (usable X -> TorchTotal.schema_ok (m_cols X) schema -> TorchTotal.counts_ok X schema -> TorchTotal.widths_ok p -> TorchModel.tp_max_iter p <> 0 -> ~ TorchTotal.ordinals_ok X schema -> r = Err IndexError).
Proof. exact torch_refuses. Qed.
Print Assumptions C119_torch.

(** Data frames: first the names of the schema are looked up, then the columns are checked, then the banned names. *)
Theorem C119_torch_frame : forall fuel opt eh act grad rnd order X schema p t, NoDup (map fst (f_cols X)) ->
  let r := TorchModel.torch_pandas fuel opt eh act grad rnd order X schema p t in
  let named := forall s c a, schema = Some s -> In (c, a) s -> In c (map fst (f_cols X)) in
  let numeric := forall c b, In (c, b) (f_cols X) -> b = true in
  (~ named -> r = Err KeyError) /\ (named -> ~ numeric -> r = Err ValueError) /\
  (named -> numeric -> ~ NotearsAccepts.known (map fst (f_cols X)) t -> r = Err KeyError).
Proof. exact torch_frame_refuses. Qed.
Print Assumptions C119_torch_frame.

Definition torch_X : mat := mkMat 2 [[Fin 1; Fin 0]; [Fin (Q2Qc (-1)); Fin 0]]%Qc.
Definition torch_run (X : mat) (s : option (list (nat * string))) (hidden : option (list nat)) : res TorchModel.learned :=
  TorchModel.torch_numpy 17 PropsNotears.ex_opt PropsTorch.ex_teh PropsTorch.ex_act PropsTorch.ex_grad [] X s (TorchModel.mkTp hidden false None 5) (mkTabu None None None).
Definition torch_frame (cols : list (label * bool)) (s : option (list (label * string))) (banned : option (list label)) : res TorchModel.learned :=
  TorchModel.torch_pandas 17 PropsNotears.ex_opt PropsTorch.ex_teh PropsTorch.ex_act PropsTorch.ex_grad [] (fun l => l) (NotearsModel.mkFrame cols [[Fin 1; Fin 0]; [Fin (Q2Qc (-1)); Fin 0]]%Qc) s (TorchModel.mkTp None false None 5) (mkTabu None banned None).
Example C119_torch_met :
  torch_run (mkMat 2 []) None None = Err ValueError /\ torch_run (mkMat 1 [[NaN]]) None None = Err ValueError /\
  torch_run torch_X (Some [(0, "cont")]) None = Err ValueError /\ torch_run torch_X (Some [(0, "cont"); (1, "real")]) None = Err KeyError /\
  torch_run torch_X (Some [(0, "poiss"); (1, "cont")]) None = Err ValueError /\ torch_run torch_X None (Some [2; 0]) = Err ZeroDivisionError /\
  torch_run torch_X (Some [(1, "ord"); (0, "cont")]) None = Err IndexError /\ (exists l, torch_run torch_X (Some [(0, "ord"); (1, "cont")]) None = Ok l) /\
  torch_frame [(LStr "a", true); (LStr "b", false)] (Some [(LStr "z", "cont")]) (Some [LStr "z"]) = Err KeyError /\
  torch_frame [(LStr "a", true); (LStr "b", false)] None (Some [LStr "z"]) = Err ValueError /\
  torch_frame [(LStr "a", true); (LStr "b", true)] None (Some [LStr "z"]) = Err KeyError /\ (exists l, torch_frame [(LStr "a", true); (LStr "b", true)] None (Some [LStr "a"]) = Ok l).
Proof. do 7 (split; [vm_compute; reflexivity|]). split; [eexists; vm_compute; reflexivity|]. do 3 (split; [vm_compute; reflexivity|]). eexists. vm_compute. reflexivity. Qed.

(** Without any time series, ValueError. *)
Example C119_no_series : forall d return_df fuel opt eh p par t,
  TransModel.ddt_fit d [] return_df = Err ValueError /\ DynoModel.from_pandas_dynamic fuel opt eh [] p par t = Err ValueError.
Proof. intros. split; reflexivity. Qed.
