(** * PropsBbn: properties C05 and C06 (building the network and its junction tree). *)
From Coq Require Import List Bool Arith ZArith Lia String QArith Qcanon Permutation Relations.
From Verif Require Import Base QcX Digraph BbnModel Forest Elim Triang Kruskal JtAnti JtConv BbnBuild InferThms InferCheck InferWit.
Import ListNotations.
Local Open Scope string_scope.
Local Open Scope list_scope.

(** ** C06: one function per variable, in any order. *)
Theorem C06_network_recovered : forall (vfs : list (string * factor)) doms, good_factors vfs ->
  exists b, build_bbn (map snd vfs) doms = Ok b /\ bdomains b = doms /\
    (** each variable has its own function *)
    Permutation (map (fun n => (nvar n, nfac n)) (bnodes b)) vfs /\
    (** its parents are the other arguments *)
    (forall n, In n (bnodes b) -> nparents n = filter (fun a => negb (String.eqb a (nvar n))) (fargs (nfac n))).
Proof.
  intros vfs doms GF. destruct (build_bbn_ok vfs GF doms) as (b & E & D & P & H & _). exists b. auto.
Qed.
Print Assumptions C06_network_recovered.

(** D's function is listed first and names A and C before D. *)
Definition fun4 : list (string * factor) :=
  [("D", mkFactor "fd" ["A"; "C"; "D"] (fun _ => Ok (q 1 2))); ("C", mkFactor "fc" ["C"; "B"] (fun _ => Ok (q 1 2)));
   ("A", mkFactor "fa" ["A"] (fun _ => Ok (q 1 2))); ("B", mkFactor "fb" ["A"; "B"] (fun _ => Ok (q 1 2)))].
Lemma fun4_good : good_factors fun4.
Proof.
  constructor.
  - apply (nodupb_sound _ String.eqb_spec). reflexivity.
  - apply (nodupb_sound _ String.eqb_spec). reflexivity.
  - cbn. intuition; match goal with H : (_, _) = (_, _) |- _ => injection H as <- <- end; cbn; auto.
  - cbn. intuition; match goal with H : (_, _) = (_, _) |- _ => injection H as <- <- end;
      apply (nodupb_sound _ String.eqb_spec); reflexivity.
  - cbn. intuition; match goal with H : (_, _) = (_, _) |- _ => injection H as <- <- end; 
      apply (inclb_sound _ String.eqb_spec); reflexivity.
  - apply (is_dag_acyclic String.eqb String.eqb_spec). reflexivity.
Qed.
Example fun4_built : match build_bbn (map snd fun4) [] with
  | Ok b => map (fun n => (nvar n, fname (nfac n), nparents n)) (bnodes b) =
      [("A", "fa", []); ("B", "fb", ["A"]); ("C", "fc", ["B"]); ("D", "fd", ["A"; "C"])]
  | Err _ => False end.
Proof. vm_compute. reflexivity. Qed.

(** ** C05 *)
Theorem C05_junction_tree : forall (vfs : list (string * factor)) doms sc, good_factors vfs -> vfs <> [] ->
  weakly_connected (map fst vfs) (arrows vfs) -> good_sched sc ->
  exists b jt, build_bbn (map snd vfs) doms = Ok b /\ build_join_tree sc (bnodes b) = Ok jt /\
    junction_tree (map (fun n => (nvar n, nparents n)) (bnodes b)) (jcliques jt)
      (map (fun s => (ssx s, ssy s, sslabel s)) (jseps jt)).
Proof.
  intros vfs doms sc GF NE WC GS. destruct (build_bbn_ok vfs GF doms) as (b & E & D & P & H & T).
  destruct (build_junction_tree sc (bnodes b) GS T) as (jt & Ej & J).
  - intros Z. rewrite Z in P. apply Permutation_nil in P. auto.
  - apply (build_connected vfs); auto.
  - exists b, jt. auto.
Qed.
Print Assumptions C05_junction_tree.

(** The converse: no tree is returned for an unconnected network. *)
Theorem C05_only_connected : forall (vfs : list (string * factor)) doms sc b jt, good_factors vfs -> good_sched sc ->
  build_bbn (map snd vfs) doms = Ok b -> build_join_tree sc (bnodes b) = Ok jt ->
  weakly_connected (map fst vfs) (arrows vfs).
Proof. exact join_tree_only_connected. Qed.
Print Assumptions C05_only_connected.

(** Four variables in a loop A - B - C - D - A: triangulation adds a chord. *)
Example fun4_connected : weakly_connected (map fst fun4) (arrows fun4).
Proof.
  assert (I : incl (map fst fun4) (widen_n 4 (arrows fun4) ["A"])).
  { apply (inclb_sound _ String.eqb_spec). vm_compute. reflexivity. }
  pose proof (widen_n_sound (arrows fun4) "A" 4 ["A"] (Forall_cons _ (rt_refl _ _ _) (Forall_nil _))) as F.
  rewrite Forall_forall in F. intros x y Hx Hy. apply rt_trans with "A".
  - apply (R_sym _ "A"). apply F, I, Hx.
  - apply F, I, Hy.
Qed.
Example fun4_tree : match build_bbn (map snd fun4) [] with
  | Ok b => match build_join_tree ids (bnodes b) with
            | Ok jt => jcliques jt = [["B"; "A"; "C"]; ["A"; "D"; "C"]] /\ map (fun s => (ssx s, ssy s, sslabel s)) (jseps jt) = [(0%nat, 1%nat, ["A"; "C"])]
            | Err _ => False end
  | Err _ => False end.
Proof. vm_compute. auto. Qed.
