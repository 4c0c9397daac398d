(** * PropsSm: properties C12-C17 (StructureModel). *)
From Coq Require Import List Bool Arith ZArith Lia String QArith Qcanon Permutation Relations.
From Verif Require Import Base Digraph SmModel SmProofs SmHist SmThms.
Import ListNotations.
Local Open Scope string_scope.
Local Open Scope list_scope.

Definition a := LStr "a".
Definition b := LStr "b".
Definition c := LStr "c".
Definition w (n : Z) (d : positive) : aval := ANum (Q2Qc (n # d)).

Definition get (g : graph) (u v : label) (k : string) : option aval :=
  match edge_attrs g u v with Some d => aget d k | None => None end.

(** ** C12 *)

(** Proved when no dictionary argument of a call brings its own "origin" entry with another value
    ([no_own_origin]); without this restriction the claim is false, see below. *)
Theorem C12_valid_origins_partial : forall ns es o ops g, history ns es o ops g -> Forall no_own_origin ops ->
  forall u v d, edge_attrs g u v = Some d ->
  exists x, In x ["unknown"; "learned"; "expert"] /\ aget d "origin" = Some (AStr x).
Proof. exact valid_origins. Qed.
Print Assumptions C12_valid_origins_partial.

Theorem C12_invalid_origin_raises : forall g o, ~ In o ["unknown"; "learned"; "expert"] ->
  (forall u v attr, add_edge g u v o attr = (g, Err ValueError)) /\
  (forall es attr, add_edges_from g es o attr = (g, Err ValueError)) /\
  (forall es k attr, add_weighted_edges_from g es k o attr = (g, Err ValueError)) /\
  (forall ns es, sm_new ns es o = Err ValueError).
Proof. exact bad_origin_raises. Qed.
Print Assumptions C12_invalid_origin_raises.

(** sm.add_edges_from([("a", "b", {"origin": "wrong"})]) and
    sm.add_weighted_edges_from([("a", "b", 5)], weight="origin") are accepted. *)
Theorem C12_valid_origins_refuted :
  (exists g, history [] [] "unknown" [AddEdgesFrom [E3 a b [("origin", AStr "wrong")]] "expert" []] g /\
     get g a b "origin" = Some (AStr "wrong")) /\
  (exists g, history [] [] "unknown" [AddWeighted [W3 a b (w 5 1)] "origin" "expert" []] g /\
     get g a b "origin" = Some (w 5 1)).
Proof.
  split; eexists; (split; [eexists; split; [reflexivity|split; [|reflexivity]]|vm_compute; reflexivity]).
  - constructor; [|constructor]. split; [constructor|]. intros u v d [E|[]]. injection E as <- <- <-.
    constructor; [simpl; tauto|constructor].
  - constructor; [constructor|constructor].
Qed.
Print Assumptions C12_valid_origins_refuted.

(** A history that meets the hypotheses: two origins, a call that fails half-way, a removal. *)
Definition calls : list sop :=
  [AddEdge a b "expert" [("weight", w (-3) 2)];
   AddWeighted [W3 b c (w 1 4); W3 c a (w 1 2)] "weight" "learned" [];
   AddEdgesFrom [E2 b c; E3 a c [("weight", w 2 1)]; EBad; E2 c b] "unknown" [];
   AddEdge c b "nobody" [];
   RemoveEdge c b].
Definition g1 : graph := srun [] calls.
Example calls_history : history [] [] "unknown" calls g1.
Proof.
  exists []. split; [reflexivity|]. split; [|reflexivity].
  repeat apply Forall_cons; try apply Forall_nil; cbn [op_ok]; try exact I; try (constructor; [simpl; tauto|constructor]); try constructor.
  - constructor.
  - intros u v d [E|[E|[E|[E|[]]]]]; try discriminate.
    injection E as <- <- <-. constructor; [simpl; tauto|constructor].
Qed.
Example calls_no_own : Forall no_own_origin calls.
Proof.
  repeat apply Forall_cons; try apply Forall_nil; cbn [no_own_origin]; try exact I; try discriminate.
  intros u v d x [E|[E|[E|[E|[]]]]]; try discriminate. injection E as <- <- <-. discriminate.
Qed.
Example g1_reached : reached g1.
Proof. exists [], [], "unknown", calls. exact calls_history. Qed.
Example g1_edges : edges g1 = [(a, b); (a, c); (b, c); (c, a)] /\
  get g1 a b "origin" = Some (AStr "expert") /\ get g1 b c "origin" = Some (AStr "unknown") /\
  get g1 b c "weight" = Some (w 1 4).
Proof. vm_compute. auto. Qed.

(** ** C13 *)

(** The origin of an addition is the one of the call; a dictionary of a tuple that has an "origin"
    entry overrides it for this tuple ([asked]).  [last_origin] reads the list of calls only; edges
    that no call added have the constructor's origin. *)
Theorem C13_last_origin : forall ns es o ops g q, history ns es o ops g ->
  exists l, edges_with_origin g q = Ok l /\ NoDup l /\
    forall u v, In (u, v) l <-> In (u, v) (edges g) /\ last_origin ops u v (Some (AStr o)) = Some (AStr q).
Proof. exact last_origins. Qed.
Print Assumptions C13_last_origin.

(** A successful adding call adds exactly the edges it names. *)
Theorem C13_additions : forall g op g', reached g -> adding op -> sstep g op = (g', Ok tt) ->
  forall u v, In (u, v) (edges g') <-> names op u v \/ In (u, v) (edges g).
Proof. exact added. Qed.
Print Assumptions C13_additions.

Example g1_origins : edges_with_origin g1 "unknown" = Ok [(a, c); (b, c)] /\
  edges_with_origin g1 "learned" = Ok [(c, a)] /\ edges_with_origin g1 "expert" = Ok [(a, b)] /\
  last_origin calls b c (Some (AStr "unknown")) = Some (AStr "unknown") /\
  last_origin (firstn 2 calls) b c (Some (AStr "unknown")) = Some (AStr "learned").
Proof. vm_compute. auto 10. Qed.
Example add_ok : exists g', sstep g1 (AddEdgesFrom [E2 c b; E2 a b] "expert" []) = (g', Ok tt) /\ In (c, b) (edges g').
Proof. eexists. split; [reflexivity|]. vm_compute. auto 10. Qed.

(** ** C14 *)

(** The documentation says an edge that exists is replaced; an attribute of the old edge survives. *)
Theorem C14_replaced_refuted :
  exists g g', reached g /\ add_edge g a b "expert" [] = (g', Ok tt) /\ get g' a b "weight" = Some (w (-3) 2).
Proof. exists g1. eexists. split; [exact g1_reached|]. split; [reflexivity|]. vm_compute. reflexivity. Qed.
Print Assumptions C14_replaced_refuted.

(** What holds: the call's attributes win, the others are kept, nothing else changes.  So the edge is
    replaced when it had no other attribute. *)
Theorem C14_replaced_partial : forall g u v o attr, reached g -> In o ["unknown"; "learned"; "expert"] -> NoDup (dkeys attr) ->
  exists g' d, add_edge g u v o attr = (g', Ok tt) /\ edge_attrs g' u v = Some d /\
    (forall k, aget d k = if String.eqb k "origin" then Some (AStr o) else
       match aget attr k with Some x => Some x | None =>
       match edge_attrs g u v with Some e => aget e k | None => None end end) /\
    (forall x y, (x, y) <> (u, v) -> edge_attrs g' x y = edge_attrs g x y) /\
    (forall x, In x (nodes g') <-> x = u \/ x = v \/ In x (nodes g)).
Proof. exact merged. Qed.
Print Assumptions C14_replaced_partial.

(** ** C15 *)
Theorem C15_threshold : forall g t, reached g -> weighted g ->
  exists g', remove_edges_below_threshold g t = (g', Ok tt) /\ nodes g' = nodes g /\
    (forall u v d, edge_attrs g' u v = Some d <-> edge_attrs g u v = Some d /\ forall x, abs_weight g u v x -> (t <= x)%Qc) /\
    remove_edges_below_threshold g' t = (g', Ok tt).
Proof. exact thresholded. Qed.
Print Assumptions C15_threshold.

(** An edge without a numeric weight: TypeError, nothing removed. *)
Theorem C15_unweighted : forall g t, reached g -> ~ weighted g ->
  remove_edges_below_threshold g t = (g, Err TypeError).
Proof. exact unweighted_threshold. Qed.
Print Assumptions C15_unweighted.

Lemma weighted_check g : wf g -> forallb (fun e => match aget (snd e) "weight" with Some (ANum _) => true | _ => false end) (edges_data g) = true -> weighted g.
Proof.
  intros W F u v d E. apply edges_data_In in E; auto. rewrite forallb_forall in F. specialize (F _ E). simpl in F.
  destruct (aget d "weight") as [[]|]; try discriminate. eauto.
Qed.
Example g1_weighted : weighted g1.
Proof. apply weighted_check; [apply (reached_wf _ g1_reached)|]. vm_compute. reflexivity. Qed.
Example g1_threshold : edges (fst (remove_edges_below_threshold g1 (Q2Qc (1 # 2)))) = [(a, b); (a, c); (c, a)].
Proof. vm_compute. reflexivity. Qed.
Definition bare : graph := srun [] [AddEdge a b "expert" []; AddEdge b a "expert" []].
Example bare_reached : reached bare.
Proof. exists [], [], "unknown". eexists. exists []. split; [reflexivity|]. split; [|reflexivity].
  repeat apply Forall_cons; try apply Forall_nil; constructor.
Qed.
Example bare_unweighted : ~ weighted bare.
Proof. intros W. destruct (W a b [("origin", AStr "expert")] eq_refl) as (x & E). discriminate. Qed.

(** ** C16 *)
Theorem C16_till_dag : forall g, reached g -> weighted g ->
  exists g', threshold_till_dag g = (g', Ok tt) /\
    nodes g' = nodes g /\ acyclic (edges g') /\
    (forall u v d, edge_attrs g' u v = Some d -> edge_attrs g u v = Some d) /\
    (forall u v x u' v' x', In (u, v) (edges g) -> ~ In (u, v) (edges g') -> In (u', v') (edges g') ->
       abs_weight g u v x -> abs_weight g u' v' x' -> (x <= x')%Qc) /\
    (g' = g \/ exists u v, In (u, v) (edges g) /\ ~ In (u, v) (edges g') /\ ~ acyclic ((u, v) :: edges g') /\
       forall u' v' x' x, In (u', v') (edges g) -> ~ In (u', v') (edges g') -> abs_weight g u' v' x' -> abs_weight g u v x -> (x' <= x)%Qc) /\
    (acyclic (edges g) -> g' = g).
Proof. exact till_dag_thm. Qed.
Print Assumptions C16_till_dag.

(** Without weights: an acyclic graph is left alone, a cyclic one raises and is left alone. *)
Theorem C16_unweighted : forall g, reached g -> ~ weighted g ->
  (acyclic (edges g) -> threshold_till_dag g = (g, Ok tt)) /\
  (~ acyclic (edges g) -> threshold_till_dag g = (g, Err TypeError)).
Proof. exact unweighted_cases. Qed.
Print Assumptions C16_unweighted.

Example g1_till_dag : edges (fst (threshold_till_dag g1)) = [(a, b); (a, c)].
Proof. vm_compute. reflexivity. Qed.

(** ** C17 *)

(** [component_of g x s]: the nodes of [s] are those linked to [x], its edges those of [g] among them,
    with the same attributes. *)
Theorem C17_target_subgraph : forall g x, reached g ->
  (In x (nodes g) -> exists s, get_target_subgraph g x = Ok s /\ component_of g x s) /\
  (~ In x (nodes g) -> get_target_subgraph g x = Err NodeNotFound).
Proof. exact target_thm. Qed.
Print Assumptions C17_target_subgraph.

Theorem C17_largest_subgraph : forall g, reached g ->
  match get_largest_subgraph g with
  | None => edges g = []
  | Some s => edges s <> [] /\ (exists x, In x (nodes g) /\ component_of g x s) /\
      forall y l, NoDup l -> (forall u v, In (u, v) l -> In (u, v) (edges g) /\ linked (edges g) y u) ->
        (List.length l <= List.length (edges s))%nat
  end.
Proof. exact largest_thm. Qed.
Print Assumptions C17_largest_subgraph.

Definition g2 : graph := srun g1 [AddEdge (LInt 1) (LInt 2) "learned" []; RemoveEdge a b; RemoveEdgesFrom [(b, c); (b, a)]].
Example g2_reached : reached g2.
Proof.
  exists [], [], "unknown", (calls ++ [AddEdge (LInt 1) (LInt 2) "learned" []; RemoveEdge a b; RemoveEdgesFrom [(b, c); (b, a)]]), [].
  split; [reflexivity|]. split; [|reflexivity]. apply Forall_app. split; [|repeat apply Forall_cons; try apply Forall_nil; constructor].
  destruct calls_history as (g0 & _ & K & _). exact K.
Qed.
Example g2_components : components g2 = [[a; c]; [b]; [LInt 1; LInt 2]].
Proof. vm_compute. reflexivity. Qed.
Example g2_largest : match get_largest_subgraph g2 with Some s => edges s = [(a, c); (c, a)] | None => False end.
Proof. vm_compute. reflexivity. Qed.
Example g2_target : match get_target_subgraph g2 (LInt 2) with Ok s => nodes s = [LInt 1; LInt 2] | Err _ => False end.
Proof. vm_compute. reflexivity. Qed.
