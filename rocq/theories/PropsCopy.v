(** * PropsCopy: property C106 (copies and conversions of a structure). *)
From Coq Require Import List Bool Arith ZArith Lia String QArith Qcanon.
From Verif Require Import Base Digraph SmModel SmThms CopyModel SmCopy PropsSm.
Import ListNotations.
Local Open Scope string_scope.
Local Open Scope list_scope.

(** copy() and to_directed() keep nodes, edges and all attributes, origins included. *)
Theorem C106_copies : forall g, reached g -> nodes (copy g) = nodes g /\ nodes (to_directed g) = nodes g /\
  (forall u v, has_edge (copy g) u v <-> has_edge g u v) /\ (forall u v, has_edge (to_directed g) u v <-> has_edge g u v) /\
  (forall u v k, attribute (copy g) u v k = attribute g u v k) /\ (forall u v k, attribute (to_directed g) u v k = attribute g u v k).
Proof. exact copied. Qed.
Print Assumptions C106_copies.

(** reverse() turns every edge round with its attributes; twice gives the original. *)
Theorem C106_reverse : forall g, reached g -> nodes (reverse g) = nodes g /\ (forall u v, has_edge (reverse g) u v <-> has_edge g v u) /\
  (forall u v k, attribute (reverse g) u v k = attribute g v u k) /\
  (forall u v k, attribute (reverse (reverse g)) u v k = attribute g u v k) /\ (forall u v, has_edge (reverse (reverse g)) u v <-> has_edge g u v).
Proof. exact reversed. Qed.
Print Assumptions C106_reverse.

(** StructureModel(g, origin=o) gives every edge the origin o and keeps all else. *)
Theorem C106_constructor : forall g o, reached g -> In o ["unknown"; "learned"; "expert"] -> exists h, from_graph g o = Ok h /\ nodes h = nodes g /\
  (forall u v, has_edge h u v <-> has_edge g u v) /\
  (forall u v k, k <> "origin" -> attribute h u v k = attribute g u v k) /\ (forall u v, has_edge g u v -> attribute h u v "origin" = Some (AStr o)).
Proof. exact from_graph_origin. Qed.
Print Assumptions C106_constructor.

(** to_undirected() links what an edge linked; of two opposite edges the one from the node listed later wins, attribute by attribute. *)
Theorem C106_undirected : forall g, reached g -> nodes (to_undirected g) = nodes g /\
  (forall u v k, attribute (to_undirected g) u v k = attribute (to_undirected g) v u k) /\
  (forall u v, has_edge (to_undirected g) u v <-> has_edge g u v \/ has_edge g v u) /\
  (forall u k, attribute (to_undirected g) u u k = attribute g u u k) /\
  (forall u v k, before (nodes g) u v -> attribute (to_undirected g) u v k =
     match attribute g v u k with Some x => Some x | None => attribute g u v k end).
Proof. exact undirected. Qed.
Print Assumptions C106_undirected.

(** The structure of C12, with the edges a -> c and c -> a. *)
Example C106_met : reached g1 /\ before (nodes g1) a c /\
  attribute g1 a c "origin" = Some (AStr "unknown") /\ attribute g1 c a "origin" = Some (AStr "learned") /\
  attribute (copy g1) c a "origin" = Some (AStr "learned") /\ attribute (copy g1) a b "weight" = Some (w (-3) 2) /\
  attribute (reverse g1) b a "origin" = Some (AStr "expert") /\
  (exists h, from_graph g1 "expert" = Ok h /\ attribute h c a "origin" = Some (AStr "expert") /\ attribute h c a "weight" = Some (w 1 2)) /\
  attribute (to_undirected g1) a c "origin" = Some (AStr "learned") /\ attribute (to_undirected g1) a c "weight" = Some (w 1 2) /\
  attribute (to_undirected g1) b a "origin" = Some (AStr "expert").
Proof.
  split; [exact g1_reached|]. split; [exists [], [b], []; reflexivity|]. repeat (split; [vm_compute; reflexivity|]).
  split; [eexists; split; [vm_compute; reflexivity|split; vm_compute; reflexivity]|]. repeat (split; [vm_compute; reflexivity|]). vm_compute. reflexivity.
Qed.
