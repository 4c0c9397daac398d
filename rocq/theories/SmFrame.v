(** * SmFrame: what each call of a StructureModel changes and what it leaves alone. *)
From Coq Require Import List Bool Arith ZArith Lia String QArith Qcanon.
From Verif Require Import Base Digraph SmModel SmProofs SmHist SmThms.
Import ListNotations.
Local Open Scope string_scope.
Local Open Scope list_scope.

(** ** Removals *)

Theorem edge_removed g u v : reached g ->
  (In (u, v) (edges g) -> exists g', sstep g (RemoveEdge u v) = (g', Ok tt) /\ nodes g' = nodes g /\
     forall x y d, edge_attrs g' x y = Some d <-> edge_attrs g x y = Some d /\ (x, y) <> (u, v)) /\
  (~ In (u, v) (edges g) -> sstep g (RemoveEdge u v) = (g, Err NetworkXError)).
Proof.
  intros R. pose proof (reached_wf g R) as W. cbn [sstep]. unfold remove_edge. split; intros H.
  - apply edges_In in H as (a & E); auto. rewrite E. exists (del_edge g u v). split; [reflexivity|]. split; [eapply del_edge_nodes; eauto|].
    intros x y d. assert (W' := wf_del_edge g u v a E W). rewrite <- !edges_data_In by auto.
    destruct (edge_attrs_gget _ _ _ _ E) as (s & G). rewrite (del_edge_data g u v s); [|apply W|auto]. rewrite filter_In. unfold not_edge. cbn [fst snd].
    destruct (label_eqb_spec u x) as [->|N1], (label_eqb_spec v y) as [->|N2]; cbn; split; intros [H1 H2]; split; auto; try discriminate; try congruence.
  - destruct (edge_attrs g u v) as [a|] eqn:E; [|reflexivity]. exfalso. apply H, edges_In; eauto.
Qed.

Theorem edges_removed g es : reached g -> exists g', sstep g (RemoveEdgesFrom es) = (g', Ok tt) /\ nodes g' = nodes g /\
  forall x y d, edge_attrs g' x y = Some d <-> edge_attrs g x y = Some d /\ ~ In (x, y) es.
Proof.
  intros R. pose proof (reached_wf g R) as W. destruct (remove_edges_from_spec es g W) as (W' & N & D). eexists. split; [reflexivity|]. split; [exact N|].
  intros x y d. rewrite <- !edges_data_In by auto. rewrite D, filter_In. cbn [fst]. rewrite negb_true_iff.
  rewrite <- (memb_In _ pair_eqb_spec). destruct (memb pair_eqb (x, y) es); split; intros [H1 H2]; split; auto; try discriminate. exfalso. apply H2. reflexivity.
Qed.

Lemma node_gone g u x y : edge_attrs (map (fun us => (fst us, ddel label_eqb (snd us) u)) (ddel label_eqb g u)) x y = if label_eqb u x || label_eqb u y then None else edge_attrs g x y.
Proof.
  unfold edge_attrs, succ_of.
  assert (G : forall h : graph, gget (map (fun us => (fst us, ddel label_eqb (snd us) u)) h) x =
     match gget h x with Some s => Some (ddel label_eqb s u) | None => None end).
  { induction h as [|[k s] h IH]; simpl; auto. destruct (label_eqb x k); auto. }
  rewrite G. destruct (label_eqb_spec u x) as [->|N].
  - rewrite (dget_ddel_same _ lspec). reflexivity.
  - rewrite (dget_ddel_other _ lspec) by auto. destruct (label_eqb_spec u y) as [->|N']; cbn [orb].
    + destruct (gget g x) as [s|]; [|reflexivity]. apply (dget_ddel_same _ lspec).
    + destruct (gget g x) as [s|]; [|reflexivity]. apply (dget_ddel_other _ lspec). auto.
Qed.

Theorem node_removed g u : reached g ->
  (In u (nodes g) -> exists g', sstep g (RemoveNode u) = (g', Ok tt) /\ (forall x, In x (nodes g') <-> In x (nodes g) /\ x <> u) /\
     forall x y d, edge_attrs g' x y = Some d <-> edge_attrs g x y = Some d /\ x <> u /\ y <> u) /\
  (~ In u (nodes g) -> sstep g (RemoveNode u) = (g, Err NetworkXError)).
Proof.
  intros R. cbn [sstep]. unfold remove_node, dhas. split; intros H.
  - rewrite (proj2 (memb_In _ lspec u (dkeys g)) H). eexists. split; [reflexivity|]. split.
    + intros x. unfold nodes at 1. unfold dkeys at 1. rewrite map_map. cbn [fst]. change (In x (dkeys (ddel label_eqb g u)) <-> In x (nodes g) /\ x <> u). apply (ddel_keys_In _ lspec).
    + intros x y d. rewrite node_gone. destruct (label_eqb_spec u x) as [->|N1]; cbn [orb]; [split; [discriminate|intros (_ & X & _); congruence]|].
      destruct (label_eqb_spec u y) as [->|N2]; [split; [discriminate|intros (_ & _ & X); congruence]|]. split; [auto|tauto].
  - destruct (memb label_eqb u (dkeys g)) eqn:M; [|reflexivity]. exfalso. apply H. apply (memb_In _ lspec) in M. exact M.
Qed.

(** ** Additions *)

(** A sequence of additions of edges with a dictionary each *)
Definition puts (attr : list (string * aval)) (ts : list (label * label * list (string * aval))) (g : graph) : graph :=
  fold_left (fun g t => put_edge g (fst (fst t)) (snd (fst t)) attr (snd t)) ts g.

Lemma puts_wf attr ts : forall g, wf g -> wf (puts attr ts g).
Proof. induction ts as [|t ts IH]; intros g W; cbn; auto. apply IH, wf_put_edge, W. Qed.

Lemma puts_nodes attr ts : forall g x, In x (nodes (puts attr ts g)) <-> In x (nodes g) \/ exists t, In t ts /\ (x = fst (fst t) \/ x = snd (fst t)).
Proof.
  induction ts as [|t ts IH]; intros g x; cbn [puts fold_left].
  - split; [auto|]. intros [H|(t & [] & _)]. exact H.
  - unfold puts in IH. rewrite IH, put_edge_nodes. split.
    + intros [[->|[->|H]]|(t' & I & H)]; auto; right; [exists t|exists t|exists t']; cbn; auto.
    + intros [H|(t' & [<-|I] & H)]; auto; [destruct H as [->| ->]; auto|]. right. exists t'. auto.
Qed.

Lemma puts_other attr ts : forall g x y, ~ In (x, y) (map fst ts) -> edge_attrs (puts attr ts g) x y = edge_attrs g x y.
Proof.
  induction ts as [|[[u v] d] ts IH]; intros g x y N; cbn [puts fold_left]; auto. cbn in N. unfold puts in IH. rewrite IH by tauto.
  rewrite put_edge_attrs. cbn [fst snd]. destruct (label_eqb_spec x u) as [->|]; auto. destruct (label_eqb_spec y v) as [->|]; auto. exfalso. tauto.
Qed.

Lemma puts_last attr l1 u v d l2 g : ~ In (u, v) (map fst l2) -> NoDup (dkeys attr) -> NoDup (dkeys d) ->
  exists a, edge_attrs (puts attr (l1 ++ (u, v, d) :: l2) g) u v = Some a /\
    forall k, aget a k = match aget d k with Some x => Some x | None => match aget attr k with Some x => Some x | None =>
      match edge_attrs (puts attr l1 g) u v with Some e => aget e k | None => None end end end.
Proof.
  intros N Na Nd. unfold puts at 1. rewrite fold_left_app. cbn [fold_left]. change (fold_left _ l2 ?h) with (puts attr l2 h). rewrite puts_other by auto.
  change (fold_left _ l1 g) with (puts attr l1 g). rewrite put_edge_attrs. cbn [fst snd]. rewrite !(eqb_refl' _ lspec). cbn [andb]. eexists. split; [reflexivity|].
  intros k. unfold new_attrs. rewrite (dget_dupdate _ sspec), (dget_rev_NoDup _ sspec d k Nd), (dget_dupdate _ sspec), (dget_rev_NoDup _ sspec attr k Na).
  destruct (aget d k); auto. destruct (aget attr k); auto. destruct (edge_attrs (puts attr l1 g) u v); reflexivity.
Qed.

(** A pair, or a triple with a dictionary *)
Definition tuple (t : label * label * option (list (string * aval))) : etuple :=
  match snd t with Some d => E3 (fst (fst t)) (snd (fst t)) d | None => E2 (fst (fst t)) (snd (fst t)) end.
Definition triple (t : label * label * aval) : wtuple := W3 (fst (fst t)) (snd (fst t)) (snd t).
Definition own (t : option (list (string * aval))) : list (string * aval) := match t with Some d => d | None => [] end.

Lemma put_edges_puts attr ts rest : forall g, put_edges g (map tuple ts ++ rest) attr = put_edges (puts attr (map (fun t => (fst t, own (snd t))) ts) g) rest attr.
Proof. induction ts as [|[[u v] [d|]] ts IH]; intros g; cbn; [reflexivity| |]; apply IH. Qed.

Lemma put_weighted_puts attr k ws rest : forall g, put_weighted g (map triple ws ++ rest) k attr = put_weighted (puts attr (map (fun t => (fst t, [(k, snd t)])) ws) g) rest k attr.
Proof. induction ws as [|[[u v] w] ws IH]; intros g; cbn; [reflexivity|]; apply IH. Qed.

Lemma map_fst_with {A B C} (f : B -> C) (ts : list (A * B)) : map fst (map (fun t => (fst t, f (snd t))) ts) = map fst ts.
Proof. rewrite map_map. apply map_ext. reflexivity. Qed.

Lemma with_nodes {B C} (f : B -> C) (ts : list (label * label * B)) (x : label) :
  (exists t, In t (map (fun t => (fst t, f (snd t))) ts) /\ (x = fst (fst t) \/ x = snd (fst t))) <-> exists y, In (x, y) (map fst ts) \/ In (y, x) (map fst ts).
Proof.
  split.
  - intros (t & I & H). apply in_map_iff in I as ([[u v] b] & <- & I). cbn in H. apply (in_map fst) in I. destruct H as [->| ->]; eauto.
  - intros (y & [I|I]); apply in_map_iff in I as ([[u v] b] & E & I); cbn in E; injection E as -> ->; eexists; (split; [apply in_map_iff; eexists; split; [reflexivity|exact I]|cbn; auto]).
Qed.

Theorem edges_added g ts o attr rest : reached g -> In o ["unknown"; "learned"; "expert"] -> NoDup (dkeys attr) -> (forall t, In t ts -> NoDup (dkeys (own (snd t)))) ->
  exists g', sstep g (AddEdgesFrom (map tuple ts) o attr) = (g', Ok tt) /\ sstep g (AddEdgesFrom (map tuple ts ++ EBad :: rest) o attr) = (g', Err NetworkXError) /\
    (forall x, In x (nodes g') <-> In x (nodes g) \/ exists y, In (x, y) (map fst ts) \/ In (y, x) (map fst ts)) /\
    (forall x y, ~ In (x, y) (map fst ts) -> edge_attrs g' x y = edge_attrs g x y) /\
    (forall l1 u v d l2, ts = l1 ++ (u, v, d) :: l2 -> ~ In (u, v) (map fst l2) -> exists a, edge_attrs g' u v = Some a /\
       forall k x, aget (own d) k = Some x \/ aget (own d) k = None /\ (k = "origin" /\ x = AStr o \/ k <> "origin" /\ aget attr k = Some x) -> aget a k = Some x).
Proof.
  intros R V Na Nt. cbn [sstep]. unfold add_edges_from. rewrite validate_smem, (proj2 (smem_In o allowed) V).
  exists (puts (with_origin attr o) (map (fun t => (fst t, own (snd t))) ts) g). split; [rewrite <- (app_nil_r (map tuple ts)), put_edges_puts; reflexivity|].
  split; [rewrite put_edges_puts; reflexivity|]. split; [|split].
  - intros x. rewrite puts_nodes, with_nodes. reflexivity.
  - intros x y N. apply puts_other. rewrite map_fst_with. exact N.
  - intros l1 u v d l2 -> N. rewrite map_app. cbn [map fst snd].
    destruct (puts_last (with_origin attr o) (map (fun t => (fst t, own (snd t))) l1) u v (own d) (map (fun t => (fst t, own (snd t))) l2) g) as (a & Ea & Ga).
    { rewrite map_fst_with. exact N. } { apply with_origin_NoDup; auto. } { apply (Nt (u, v, d)). apply in_app_iff. cbn. auto. }
    exists a. split; [exact Ea|]. intros k x H. rewrite Ga. destruct H as [->|[-> H]]; [reflexivity|]. rewrite with_origin_get.
    destruct H as [[-> ->]|[Nk H]]; [reflexivity|]. destruct (String.eqb_spec k "origin"); [contradiction|]. rewrite H. reflexivity.
Qed.

Theorem weights_added g ws weight o attr rest : reached g -> In o ["unknown"; "learned"; "expert"] -> NoDup (dkeys attr) ->
  exists g', sstep g (AddWeighted (map triple ws) weight o attr) = (g', Ok tt) /\ sstep g (AddWeighted (map triple ws ++ WBad :: rest) weight o attr) = (g', Err ValueError) /\
    (forall x, In x (nodes g') <-> In x (nodes g) \/ exists y, In (x, y) (map fst ws) \/ In (y, x) (map fst ws)) /\
    (forall x y, ~ In (x, y) (map fst ws) -> edge_attrs g' x y = edge_attrs g x y) /\
    (forall l1 u v w l2, ws = l1 ++ (u, v, w) :: l2 -> ~ In (u, v) (map fst l2) -> exists a, edge_attrs g' u v = Some a /\ aget a weight = Some w /\
       (weight <> "origin" -> aget a "origin" = Some (AStr o)) /\
       forall k x, k <> weight -> k <> "origin" -> aget attr k = Some x -> aget a k = Some x).
Proof.
  intros R V Na. cbn [sstep]. unfold add_weighted_edges_from. rewrite validate_smem, (proj2 (smem_In o allowed) V).
  set (at2 := with_origin (with_origin attr o) o). assert (N2 : NoDup (dkeys at2)) by (apply with_origin_NoDup, with_origin_NoDup; auto).
  exists (puts at2 (map (fun t => (fst t, [(weight, snd t)])) ws) g). split; [rewrite <- (app_nil_r (map triple ws)), put_weighted_puts; reflexivity|].
  split; [rewrite put_weighted_puts; reflexivity|]. split; [|split].
  - intros x. rewrite puts_nodes, (with_nodes (fun b => [(weight, b)])). reflexivity.
  - intros x y N. apply puts_other. rewrite (map_fst_with (fun b => [(weight, b)])). exact N.
  - intros l1 u v w l2 -> N. rewrite map_app. cbn [map fst snd].
    destruct (puts_last at2 (map (fun t => (fst t, [(weight, snd t)])) l1) u v [(weight, w)] (map (fun t => (fst t, [(weight, snd t)])) l2) g) as (a & Ea & Ga).
    { rewrite (map_fst_with (fun b => [(weight, b)])). exact N. } { exact N2. } { cbn. constructor; [intros []|constructor]. }
    exists a. split; [exact Ea|]. split; [rewrite Ga; cbn; rewrite String.eqb_refl; reflexivity|]. split.
    + intros Nw. rewrite Ga. cbn [dget]. destruct (String.eqb_spec "origin" weight); [congruence|]. unfold at2. rewrite with_origin_get. reflexivity.
    + intros k x K1 K2 H. rewrite Ga. cbn [dget]. destruct (String.eqb_spec k weight); [contradiction|]. unfold at2. rewrite !with_origin_get.
      destruct (String.eqb_spec k "origin"); [contradiction|]. rewrite H. reflexivity.
Qed.
