(** * PropsSmCalls: property C116, calls of a StructureModel change exactly what they name. *)
From Coq Require Import List Bool Arith ZArith Lia String QArith Qcanon.
From Verif Require Import Base Digraph SmModel SmProofs SmHist SmThms SmFrame PropsSm.
Import ListNotations.
Local Open Scope string_scope.
Local Open Scope list_scope.

Theorem C116_remove_edge : forall g u v, reached g ->
  (In (u, v) (edges g) -> exists g', sstep g (RemoveEdge u v) = (g', Ok tt) /\ nodes g' = nodes g /\
     forall x y d, edge_attrs g' x y = Some d <-> edge_attrs g x y = Some d /\ (x, y) <> (u, v)) /\
  (~ In (u, v) (edges g) -> sstep g (RemoveEdge u v) = (g, Err NetworkXError)).
Proof. exact edge_removed. Qed.
Print Assumptions C116_remove_edge.

(** Edges that are not there are ignored. *)
Theorem C116_remove_edges_from : forall g es, reached g -> exists g', sstep g (RemoveEdgesFrom es) = (g', Ok tt) /\ nodes g' = nodes g /\
  forall x y d, edge_attrs g' x y = Some d <-> edge_attrs g x y = Some d /\ ~ In (x, y) es.
Proof. exact edges_removed. Qed.
Print Assumptions C116_remove_edges_from.

(** A node goes with its edges. *)
Theorem C116_remove_node : forall g u, reached g ->
  (In u (nodes g) -> exists g', sstep g (RemoveNode u) = (g', Ok tt) /\ (forall x, In x (nodes g') <-> In x (nodes g) /\ x <> u) /\
     forall x y d, edge_attrs g' x y = Some d <-> edge_attrs g x y = Some d /\ x <> u /\ y <> u) /\
  (~ In u (nodes g) -> sstep g (RemoveNode u) = (g, Err NetworkXError)).
Proof. exact node_removed. Qed.
Print Assumptions C116_remove_node.

(** A list of pairs and of triples with dictionaries: [tuple (u, v, None)] is the pair, [tuple (u, v, Some d)] the
    triple.  The last tuple of an edge decides; its dictionary comes before the origin and the attributes of the call.
    A tuple of another length raises after those in front of it were added. *)
Theorem C116_add_edges_from : forall g ts o attr rest, reached g -> In o ["unknown"; "learned"; "expert"] -> NoDup (dkeys attr) ->
  (forall t d, In t ts -> snd t = Some d -> NoDup (dkeys d)) ->
  exists g', sstep g (AddEdgesFrom (map tuple ts) o attr) = (g', Ok tt) /\ sstep g (AddEdgesFrom (map tuple ts ++ EBad :: rest) o attr) = (g', Err NetworkXError) /\
    (forall x, In x (nodes g') <-> In x (nodes g) \/ exists y, In (x, y) (map fst ts) \/ In (y, x) (map fst ts)) /\
    (forall x y, ~ In (x, y) (map fst ts) -> edge_attrs g' x y = edge_attrs g x y) /\
    (forall l1 u v d l2, ts = l1 ++ (u, v, d) :: l2 -> ~ In (u, v) (map fst l2) -> exists a, edge_attrs g' u v = Some a /\
       forall k x, aget (own d) k = Some x \/ aget (own d) k = None /\ (k = "origin" /\ x = AStr o \/ k <> "origin" /\ aget attr k = Some x) -> aget a k = Some x).
Proof.
  intros g ts o attr rest R V Na Nt. apply edges_added; auto. intros [[u v] [d|]] I; cbn; [|constructor]. exact (Nt _ _ I eq_refl).
Qed.
Print Assumptions C116_add_edges_from.

(** A list of triples with weights: the last weight of an edge decides. *)
Theorem C116_add_weighted : forall g ws weight o attr rest, reached g -> In o ["unknown"; "learned"; "expert"] -> NoDup (dkeys attr) ->
  exists g', sstep g (AddWeighted (map triple ws) weight o attr) = (g', Ok tt) /\ sstep g (AddWeighted (map triple ws ++ WBad :: rest) weight o attr) = (g', Err ValueError) /\
    (forall x, In x (nodes g') <-> In x (nodes g) \/ exists y, In (x, y) (map fst ws) \/ In (y, x) (map fst ws)) /\
    (forall x y, ~ In (x, y) (map fst ws) -> edge_attrs g' x y = edge_attrs g x y) /\
    (forall l1 u v w l2, ws = l1 ++ (u, v, w) :: l2 -> ~ In (u, v) (map fst l2) -> exists a, edge_attrs g' u v = Some a /\ aget a weight = Some w /\
       (weight <> "origin" -> aget a "origin" = Some (AStr o)) /\
       forall k x, k <> weight -> k <> "origin" -> aget attr k = Some x -> aget a k = Some x).
Proof. exact weights_added. Qed.
Print Assumptions C116_add_weighted.

(** The graph [g1] of C12 has the edges a->b, a->c, b->c, c->a. *)
Example C116_met : reached g1 /\ In (a, b) (edges g1) /\ ~ In (c, b) (edges g1) /\ ~ In (LInt 7) (nodes g1) /\
  edges (fst (sstep g1 (RemoveNode a))) = [(b, c)] /\ edges (fst (sstep g1 (RemoveEdgesFrom [(a, b); (c, b)]))) = [(a, c); (b, c); (c, a)] /\
  get (fst (sstep g1 (AddWeighted [W3 a b (w 1 1); W3 c b (w 2 1); W3 a b (w 3 1)] "weight" "expert" []))) a b "weight" = Some (w 3 1) /\
  get (fst (sstep g1 (AddEdgesFrom [E2 a b; E3 a c [("lag", w 1 1)]; EBad; E2 c b] "expert" [("lag", w 2 1)]))) a c "lag" = Some (w 1 1).
Proof.
  split; [exact g1_reached|]. vm_compute. repeat split; auto 10; intros H; repeat (destruct H as [H|H]; try discriminate); exact H.
Qed.
