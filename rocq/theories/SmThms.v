(** * SmThms: the StructureModel theorems in user terms. *)
From Coq Require Import List Bool Arith ZArith Lia String QArith Qcanon Permutation Relations.
From Verif Require Import Base Digraph SmModel SmProofs SmHist.
Import ListNotations.
Local Open Scope string_scope.
Local Open Scope list_scope.

(** A StructureModel that some program can hold. *)
Definition reached (g : graph) : Prop := exists ns es o ops, history ns es o ops g.

Lemma reached_wf g : reached g -> wf g.
Proof. intros (ns & es & o & ops & H). eapply history_wf; eauto. Qed.

Lemma reached_origins g : reached g -> has_origins g.
Proof. intros (ns & es & o & ops & H). eapply history_origins; eauto. Qed.

Lemma sm_new_origin ns es o g : sm_new ns es o = Ok g -> In o allowed.
Proof. unfold sm_new, validate_origin. destruct (smem o allowed) eqn:E; [|discriminate]. intros _. apply smem_In; auto. Qed.

Lemma valid_origins ns es o ops g : history ns es o ops g -> Forall no_own_origin ops ->
  forall u v a, edge_attrs g u v = Some a ->
  exists x, In x ["unknown"; "learned"; "expert"] /\ aget a "origin" = Some (AStr x).
Proof.
  intros H F u v a E. destruct (history_origin _ _ _ _ _ u v a H E) as (x & L & Ex).
  assert (V : valid x).
  { eapply last_origin_valid; [exact F| |exact L]. intros y [= <-]. exists o. split; auto.
    destruct H as (g0 & N & _). eapply sm_new_origin; eauto. }
  destruct V as (o' & I & ->). eauto.
Qed.

Lemma bad_origin_raises g o : ~ In o ["unknown"; "learned"; "expert"] ->
  (forall u v attr, add_edge g u v o attr = (g, Err ValueError)) /\
  (forall es attr, add_edges_from g es o attr = (g, Err ValueError)) /\
  (forall es w attr, add_weighted_edges_from g es w o attr = (g, Err ValueError)) /\
  (forall ns es, sm_new ns es o = Err ValueError).
Proof.
  intros N. assert (E : smem o allowed = false) by (apply smem_false; auto).
  unfold add_edge, add_edges_from, add_weighted_edges_from, sm_new, validate_origin. rewrite E. auto.
Qed.

Lemma last_origins ns es o ops g q : history ns es o ops g ->
  exists l, edges_with_origin g q = Ok l /\ NoDup l /\
    forall u v, In (u, v) l <-> In (u, v) (edges g) /\ last_origin ops u v (Some (AStr o)) = Some (AStr q).
Proof.
  intros H. destruct (edges_with_origin_spec g q (history_wf _ _ _ _ _ H) (history_origins _ _ _ _ _ H)) as (l & A & B & C).
  exists l. split; auto. split; auto. intros u v. rewrite C, (edges_In g u v (history_wf _ _ _ _ _ H)). split.
  - intros (a & E & O). split; eauto. destruct (history_origin _ _ _ _ _ u v a H E) as (x & L & Ex). congruence.
  - intros ((a & E) & L). exists a. split; auto. destruct (history_origin _ _ _ _ _ u v a H E) as (x & L' & Ex). congruence.
Qed.

(** The edge tuples of a call that adds edges. *)
Definition names (op : sop) (u v : label) : Prop :=
  match op with
  | AddEdge x y _ _ => (u, v) = (x, y)
  | AddEdgesFrom es _ _ => In (E2 u v) es \/ exists d, In (E3 u v d) es
  | AddWeighted es _ _ _ => exists w, In (W3 u v w) es
  | _ => False
  end.

Definition adding (op : sop) : Prop :=
  match op with AddEdge _ _ _ _ | AddEdgesFrom _ _ _ | AddWeighted _ _ _ _ => True | _ => False end.

Lemma put_edge_edges g x y attr dd u v : wf g ->
  In (u, v) (edges (put_edge g x y attr dd)) <-> (u, v) = (x, y) \/ In (u, v) (edges g).
Proof.
  intros W. rewrite !edges_In by auto using wf_put_edge. rewrite put_edge_attrs.
  destruct (lspec u x) as [->|Nx], (lspec v y) as [->|Ny]; simpl; split; eauto; intros [E|E]; eauto; congruence.
Qed.

Lemma put_edges_edges es attr : forall g g' u v, wf g -> put_edges g es attr = (g', Ok tt) ->
  (In (u, v) (edges g') <-> (In (E2 u v) es \/ exists d, In (E3 u v d) es) \/ In (u, v) (edges g)).
Proof.
  induction es as [|[x y|x y d|] es IH]; simpl; intros g g' u v W H.
  - injection H as <-. firstorder.
  - rewrite (IH _ _ u v (wf_put_edge g x y attr [] W) H), put_edge_edges by auto. split.
    + intros [[A|(d & A)]|[A|A]]; [eauto|eauto|injection A as -> ->; eauto|eauto].
    + intros [[[A|A]|(d & [A|A])]|A]; [injection A as -> ->; auto|auto|congruence|eauto|auto].
  - rewrite (IH _ _ u v (wf_put_edge g x y attr d W) H), put_edge_edges by auto. split.
    + intros [[A|(d' & A)]|[A|A]]; [eauto|eauto|injection A as -> ->; eauto|eauto].
    + intros [[[A|A]|(d' & [A|A])]|A]; [congruence|auto|injection A as -> -> ->; auto|eauto|auto].
  - discriminate.
Qed.

Lemma put_weighted_edges es w attr : forall g g' u v, wf g -> put_weighted g es w attr = (g', Ok tt) ->
  (In (u, v) (edges g') <-> (exists x, In (W3 u v x) es) \/ In (u, v) (edges g)).
Proof.
  induction es as [|[x y d|] es IH]; simpl; intros g g' u v W H.
  - injection H as <-. firstorder.
  - rewrite (IH _ _ u v (wf_put_edge g x y attr [(w, d)] W) H), put_edge_edges by auto. split.
    + intros [(d' & A)|[A|A]]; [eauto|injection A as -> ->; eauto|eauto].
    + intros [(d' & [A|A])|A]; [injection A as -> -> ->; auto|eauto|auto].
  - discriminate.
Qed.

Lemma added g op g' : reached g -> adding op -> sstep g op = (g', Ok tt) ->
  forall u v, In (u, v) (edges g') <-> names op u v \/ In (u, v) (edges g).
Proof.
  intros R A H u v. apply reached_wf in R. destruct op; try contradiction; cbn [sstep names] in *.
  - unfold add_edge in H. destruct (validate_origin origin); [|discriminate]. injection H as <-.
    apply put_edge_edges; auto.
  - unfold add_edges_from in H. destruct (validate_origin origin); [|discriminate]. eapply put_edges_edges; eauto.
  - unfold add_weighted_edges_from in H. destruct (validate_origin origin); [|discriminate]. eapply put_weighted_edges; eauto.
Qed.

Lemma merged g u v o attr : reached g -> In o ["unknown"; "learned"; "expert"] -> NoDup (dkeys attr) ->
  exists g' a, add_edge g u v o attr = (g', Ok tt) /\ edge_attrs g' u v = Some a /\
    (forall k, aget a k = if String.eqb k "origin" then Some (AStr o) else
       match aget attr k with Some x => Some x | None =>
       match edge_attrs g u v with Some b => aget b k | None => None end end) /\
    (forall x y, (x, y) <> (u, v) -> edge_attrs g' x y = edge_attrs g x y) /\
    (forall x, In x (nodes g') <-> x = u \/ x = v \/ In x (nodes g)).
Proof.
  intros R V N. unfold add_edge. rewrite validate_smem, (proj2 (smem_In o allowed) V).
  exists (put_edge g u v (with_origin attr o) []), (new_attrs g u v (with_origin attr o) []).
  split; auto. split.
  { rewrite put_edge_attrs, !(eqb_refl' _ lspec). auto. }
  split.
  { intros k. rewrite new_attrs_get; [|apply with_origin_NoDup; auto|constructor].
    cbn [dget]. rewrite with_origin_get. destruct (String.eqb k "origin"); auto. }
  split.
  { intros x y D. rewrite put_edge_attrs. destruct (lspec x u) as [->|], (lspec y v) as [->|]; simpl; auto. congruence. }
  apply put_edge_nodes.
Qed.

(** ** Thresholds *)

Definition weighted (g : graph) : Prop :=
  forall u v a, edge_attrs g u v = Some a -> exists w, aget a "weight" = Some (ANum w).

Definition abs_weight (g : graph) (u v : label) (w : Qc) : Prop :=
  exists a x, edge_attrs g u v = Some a /\ aget a "weight" = Some (ANum x) /\ w = Qcabs x.

Lemma weighted_numeric g : wf g -> (weighted g <-> numeric g).
Proof.
  intros W. unfold weighted, numeric. split; intros H u v a E; apply (H u v a); apply edges_data_In; auto.
Qed.

Lemma awt_abs g u v a w : wf g -> edge_attrs g u v = Some a -> abs_weight g u v w -> awt (u, v, a) = w.
Proof.
  intros W E (a' & x & E' & X & ->). assert (a' = a) by congruence. subst. unfold awt, wt. simpl. rewrite X. auto.
Qed.

Lemma abs_weight_ex g u v a : weighted g -> edge_attrs g u v = Some a -> abs_weight g u v (awt (u, v, a)).
Proof. intros H E. destruct (H _ _ _ E) as (w & X). exists a, w. split; auto. split; auto. unfold awt, wt. simpl. rewrite X. auto. Qed.

Lemma filter_idem {A} (p : A -> bool) l : filter p (filter p l) = filter p l.
Proof. apply filter_all. intros x H. apply filter_In in H; tauto. Qed.

Lemma remove_nothing g : remove_edges_from g [] = g. Proof. reflexivity. Qed.

Lemma below_again g t g' : wf g -> numeric g -> remove_edges_below_threshold g t = (g', Ok tt) ->
  remove_edges_below_threshold g' t = (g', Ok tt).
Proof.
  intros W N E. destruct (below_numeric g t W N) as (g1 & E1 & W1 & N1 & D1).
  rewrite E in E1. injection E1 as <-.
  unfold remove_edges_below_threshold.
  rewrite (mapM_ok_intro _ _ (fun e => (fst e, Qcltb (Qcabs (wt (snd e))) t))).
  2:{ intros [[u v] a] H. rewrite D1 in H. apply filter_In in H as [H _]. simpl.
      destruct (N u v a H) as (w & Hw). rewrite (numeric_abs _ _ Hw). auto. }
  assert (F : filter snd (map (fun e => (fst e, Qcltb (Qcabs (wt (snd e))) t)) (edges_data g')) = []).
  { assert (K : forall e, In e (edges_data g') -> Qcltb (Qcabs (wt (snd e))) t = false).
    { intros e He. rewrite D1 in He. apply filter_In in He as [_ He]. apply negb_true_iff; auto. }
    clear - K. induction (edges_data g') as [|e l IH]; simpl; auto.
    rewrite (K e) by (left; auto). apply IH. intros f Hf. apply K. right; auto. }
  rewrite F. auto.
Qed.

Lemma thresholded g t : reached g -> weighted g ->
  exists g', remove_edges_below_threshold g t = (g', Ok tt) /\ nodes g' = nodes g /\
    (forall u v a, edge_attrs g' u v = Some a <-> edge_attrs g u v = Some a /\ forall w, abs_weight g u v w -> (t <= w)%Qc) /\
    remove_edges_below_threshold g' t = (g', Ok tt).
Proof.
  intros R H. apply reached_wf in R. apply weighted_numeric in H as N; auto.
  destruct (below_numeric g t R N) as (g' & E & W' & Nd & D). exists g'. split; auto. split; auto.
  split; [|exact (below_again g t g' R N E)].
  intros u v a. rewrite <- (edges_data_In g' u v a W'), <- (edges_data_In g u v a R). rewrite D, filter_In. rewrite negb_true_iff, Qcltb_false.
  split; intros [I L]; split; auto.
  - intros w Hw. apply edges_data_In in I; auto. rewrite <- (awt_abs g u v a w R I Hw). exact L.
  - apply edges_data_In in I; auto. apply L. apply (abs_weight_ex g u v a H I).
Qed.

Lemma unweighted_threshold g t : reached g -> ~ weighted g ->
  remove_edges_below_threshold g t = (g, Err TypeError).
Proof. intros R H. apply below_not_numeric. rewrite <- weighted_numeric; auto. apply reached_wf; auto. Qed.

Lemma till_dag_thm g : reached g -> weighted g ->
  exists g', threshold_till_dag g = (g', Ok tt) /\
    nodes g' = nodes g /\ acyclic (edges g') /\
    (forall u v a, edge_attrs g' u v = Some a -> edge_attrs g u v = Some a) /\
    (forall u v w x y w', In (u, v) (edges g) -> ~ In (u, v) (edges g') -> In (x, y) (edges g') ->
       abs_weight g u v w -> abs_weight g x y w' -> (w <= w')%Qc) /\
    (g' = g \/ exists u v, In (u, v) (edges g) /\ ~ In (u, v) (edges g') /\ ~ acyclic ((u, v) :: edges g') /\
       forall x y w w', In (x, y) (edges g) -> ~ In (x, y) (edges g') -> abs_weight g x y w -> abs_weight g u v w' -> (w <= w')%Qc) /\
    (acyclic (edges g) -> g' = g).
Proof.
  intros R H. apply reached_wf in R. apply weighted_numeric in H as N; auto.
  destruct (threshold_till_dag_spec g R N) as (g' & E & [T1 T2 (keep & T3) T4 T5 T6]).
  assert (Sub : forall u v a, edge_attrs g' u v = Some a -> edge_attrs g u v = Some a).
  { intros u v a I. apply edges_data_In in I; auto. rewrite T3 in I. apply filter_In in I as [I _]. apply edges_data_In; auto. }
  assert (Gone : forall u v a, edge_attrs g u v = Some a -> (~ In (u, v) (edges g') <-> ~ In (u, v, a) (edges_data g'))).
  { intros u v a I. rewrite edges_In, edges_data_In by auto. split; intros X Y; apply X; eauto.
    destruct Y as (b & Y). pose proof (Sub _ _ _ Y). congruence. }
  exists g'. split; auto. split; auto. split; auto. split; auto. split.
  - intros u v w x y w' I1 I2 I3 A1 A2. apply edges_In in I1 as (a & I1); auto. apply edges_In in I3 as (b & I3); auto.
    rewrite <- (awt_abs g u v a w R I1 A1), <- (awt_abs g x y b w' R (Sub _ _ _ I3) A2). apply T5.
    + apply edges_data_In; auto.
    + apply Gone; auto.
    + apply edges_data_In; auto.
  - split.
    + destruct T6 as [T6|(([u v], a) & X1 & X2 & X3 & X4)]; auto. right. apply edges_data_In in X1; auto.
      exists u, v. split; [apply edges_In; eauto|]. split; [apply (Gone u v a); auto|]. split; [exact X4|].
      intros x y w w' I1 I2 A1 A2. apply edges_In in I1 as (b & I1); auto.
      rewrite <- (awt_abs g x y b w R I1 A1), <- (awt_abs g u v a w' R X1 A2). apply X3.
      * apply edges_data_In; auto.
      * apply Gone; auto.
    + intros A. rewrite threshold_acyclic_id in E by auto. congruence.
Qed.

Lemma till_dag_unweighted g : reached g -> ~ weighted g ->
  threshold_till_dag g = (g, if is_dag label_eqb (edges g) then Ok tt else Err TypeError).
Proof.
  intros R H. apply reached_wf in R. rewrite weighted_numeric in H by auto.
  destruct (is_dag label_eqb (edges g)) eqn:D.
  - apply (is_dag_acyclic _ lspec) in D. apply threshold_acyclic_id; auto.
  - apply threshold_no_weight; auto. intros A. apply (is_dag_acyclic _ lspec) in A. congruence.
Qed.

Lemma unweighted_cases g : reached g -> ~ weighted g ->
  (acyclic (edges g) -> threshold_till_dag g = (g, Ok tt)) /\
  (~ acyclic (edges g) -> threshold_till_dag g = (g, Err TypeError)).
Proof.
  intros R H. split; [apply threshold_acyclic_id|].
  intros A. apply threshold_no_weight; auto. rewrite <- weighted_numeric; auto. apply reached_wf; auto.
Qed.

Lemma target_thm g x : reached g ->
  (In x (nodes g) -> exists s, get_target_subgraph g x = Ok s /\ component_of g x s) /\
  (~ In x (nodes g) -> get_target_subgraph g x = Err NodeNotFound).
Proof.
  intros R. split.
  - apply target_spec; [apply reached_wf|apply reached_origins]; auto.
  - intros N. unfold get_target_subgraph. rewrite (proj2 (lmem_false x (nodes g)) N). auto.
Qed.

Lemma largest_thm g : reached g ->
  match get_largest_subgraph g with
  | None => edges g = []
  | Some s => edges s <> [] /\ (exists x, In x (nodes g) /\ component_of g x s) /\
      forall y l, NoDup l -> (forall u v, In (u, v) l -> In (u, v) (edges g) /\ linked (edges g) y u) ->
        (List.length l <= List.length (edges s))%nat
  end.
Proof. intros R. apply largest_spec; [apply reached_wf|apply reached_origins]; auto. Qed.
