(** * Property C132: the graphviz text of a network. *)
From Coq Require Import List Bool Arith Lia String Ascii Permutation Sorted QArith Qcanon.
From Verif Require Import Base BbnModel BbnBuild DotModel DotProofs InferCheck PropsBbn.
Import ListNotations.
Local Open Scope string_scope.
Local Open Scope list_scope.

(** The text has one line for every node, in the order of the names, then one line for every pair of a parent and a
    child, in the order of the pairs, and nothing else. *)
Theorem C132_source (vfs : list (string * factor)) doms : good_factors vfs ->
  exists b N E, build_bbn (map snd vfs) doms = Ok b /\ get_graphviz_source b = text_of_lines (dot_lines N E) /\
    NoDup N /\ NoDup E /\ StronglySorted (fun x y => sleb x y = true) N /\ StronglySorted pair_before E /\
    (forall x, In x N <-> In x (names_of vfs)) /\ (forall x y, In (x, y) E <-> linked_names vfs x y).
Proof. intros G. destruct (source_says vfs G doms) as (b & E & A & B & C & D & F & H & _ & I & J). exists b, (dot_names vfs), E. auto 10. Qed.
Print Assumptions C132_source.

(** The text tells the structure: two networks have the same text exactly if they have the same names and the same
    edges between them; in particular the order in which the functions are listed does not matter. *)
Theorem C132_tells (vfs vfs' : list (string * factor)) doms doms' b b' : good_factors vfs -> good_factors vfs' ->
  Forall plain (names_of vfs) -> Forall plain (names_of vfs') ->
  build_bbn (map snd vfs) doms = Ok b -> build_bbn (map snd vfs') doms' = Ok b' ->
  (get_graphviz_source b = get_graphviz_source b' <->
   (forall x, In x (names_of vfs) <-> In x (names_of vfs')) /\ (forall x y, linked_names vfs x y <-> linked_names vfs' x y)).
Proof.
  intros G G' P P' B B'. destruct (source_says vfs G doms) as (b1 & E & A1 & A2 & A3 & A4 & A5 & _ & A6 & A7 & A8). destruct (source_says vfs' G' doms') as (b2 & E' & C1 & C2 & C3 & C4 & C5 & _ & C6 & C7 & C8).
  rewrite B in A1. injection A1 as <-. rewrite B' in C1. injection C1 as <-. rewrite A2, C2. clear B B' A2 C2.
  assert (Pl : forall vfs E, Forall plain (names_of vfs) -> (forall x, In x (dot_names vfs) <-> In x (names_of vfs)) -> (forall x y, In (x, y) E <-> linked_names vfs x y) ->
    Forall plain (dot_names vfs) /\ Forall (fun e => plain (fst e) /\ plain (snd e)) E).
  { clear. intros vfs E P A7 A8. rewrite Forall_forall in P. split; apply Forall_forall.
    - intros x I. apply P, A7, I.
    - intros [x y] I. apply A8 in I as (p & f & c & g & I & J & <- & <- & _). split; apply P; unfold names_of; apply in_map_iff; [exists (p, f)|exists (c, g)]; auto. }
  destruct (Pl vfs E P A7 A8) as [Q1 Q2]. destruct (Pl vfs' E' P' C7 C8) as [R1 R2]. split.
  - intros T. apply dot_inj in T as [T1 T2]; auto. split; [intros x; rewrite <- A7, <- C7, T1; tauto|]. intros x y. rewrite <- A8, <- C8, T2. tauto.
  - intros [H1 H2]. f_equal. f_equal.
    + unfold dot_names, ssort. apply isort_perm_eq; [apply sleb_total|apply sleb_trans|apply sleb_antisym|]. apply NoDup_Permutation; auto; [apply (gf_names _ G)|apply (gf_names _ G')].
    + apply sorted_pairs_eq; auto. intros [x y]. rewrite A8, C8. auto.
Qed.
Print Assumptions C132_tells.

Theorem C132_order (vfs vfs' : list (string * factor)) doms doms' b b' : good_factors vfs -> good_factors vfs' -> Permutation vfs vfs' ->
  build_bbn (map snd vfs) doms = Ok b -> build_bbn (map snd vfs') doms' = Ok b' -> get_graphviz_source b = get_graphviz_source b'.
Proof.
  intros G G' P B B'. destruct (source_says vfs G doms) as (b1 & E & A1 & A2 & A3 & A4 & A5 & _ & A6 & A7 & A8). destruct (source_says vfs' G' doms') as (b2 & E' & C1 & C2 & C3 & C4 & C5 & _ & C6 & C7 & C8).
  rewrite B in A1. injection A1 as <-. rewrite B' in C1. injection C1 as <-. rewrite A2, C2. f_equal. f_equal.
  - unfold dot_names, ssort. apply isort_perm_eq; [apply sleb_total|apply sleb_trans|apply sleb_antisym|]. apply Permutation_map. auto.
  - apply sorted_pairs_eq; auto. assert (L : forall v w x y, Permutation v w -> linked_names v x y -> linked_names w x y).
    { intros v w x y Q (p & f & c & g & I & J & H). exists p, f, c, g. split; [eapply Permutation_in; eauto|]. split; [eapply Permutation_in; eauto|auto]. }
    intros [x y]. rewrite A8, C8. split; apply L; auto. symmetry. auto.
Qed.
Print Assumptions C132_order.

(** ** Example *)
Example C132_run : match build_bbn (map snd fun4) [] with
  | Ok b => get_graphviz_source b = text_of_lines (dot_lines ["fa"; "fb"; "fc"; "fd"] [("fa", "fb"); ("fa", "fd"); ("fb", "fc"); ("fc", "fd")])
  | Err _ => False end.
Proof. vm_compute. reflexivity. Qed.
Example C132_plain : Forall plain (names_of fun4).
Proof. cbn. repeat (apply Forall_cons; [cbn; repeat (split; [discriminate|]); exact I|]). apply Forall_nil. Qed.
Example C132_met : exists b N E, build_bbn (map snd fun4) [] = Ok b /\ get_graphviz_source b = text_of_lines (dot_lines N E) /\
    NoDup N /\ NoDup E /\ StronglySorted (fun x y => sleb x y = true) N /\ StronglySorted pair_before E /\
    (forall x, In x N <-> In x (names_of fun4)) /\ (forall x y, In (x, y) E <-> linked_names fun4 x y).
Proof. apply (C132_source fun4 [] fun4_good). Qed.

(** Names are not quoted.  Without the condition on names the text does not tell the structure: a network with a single
    node of a strange name has the text of a network with two nodes. *)
Definition solo (x : string) : string * factor := ("v" ++ x, mkFactor x ["v" ++ x] (fun _ => Ok (Q2Qc 1)))%string.
Definition strange : string := ("f_a [ shape=""ellipse"" color=""blue""];" ++ String (ascii_of_nat 10) "  f_b")%string.
Lemma solos_good l : NoDup l -> good_factors (map solo l).
Proof.
  intros N. constructor.
  - rewrite map_map. cbn [fst solo]. apply FinFun.Injective_map_NoDup; auto. intros x y E. cbn in E. congruence.
  - rewrite map_map. cbn [snd solo fname]. rewrite map_id. auto.
  - intros v f I. apply in_map_iff in I as (x & E & _). injection E as <- <-. cbn; auto.
  - intros v f I. apply in_map_iff in I as (x & E & _). injection E as <- <-. repeat constructor. cbn; tauto.
  - intros v f I a J. apply in_map_iff in I as (x & E & I). injection E as <- <-. cbn in J. destruct J as [<-|[]]. rewrite map_map. apply in_map_iff. exists x; auto.
  - assert (A : arrows (map solo l) = []).
    { unfold arrows. induction l as [|x l IH]; cbn [map flat_map]; auto. inversion N; subst. rewrite IH by auto. unfold other_args, solo. cbn [fst snd fargs filter]. rewrite String.eqb_refl. reflexivity. }
    rewrite A. apply (Digraph.is_dag_acyclic String.eqb String.eqb_spec). reflexivity.
Qed.
Theorem C132_names_refuted : ~ (forall (vfs vfs' : list (string * factor)) doms doms' b b', good_factors vfs -> good_factors vfs' ->
  build_bbn (map snd vfs) doms = Ok b -> build_bbn (map snd vfs') doms' = Ok b' -> get_graphviz_source b = get_graphviz_source b' ->
  forall x, In x (names_of vfs) -> In x (names_of vfs')).
Proof.
  intros H. destruct (build_bbn (map snd (map solo ["f_a"; "f_b"])) []) as [b|x] eqn:E; [|vm_compute in E; discriminate].
  destruct (build_bbn (map snd (map solo [strange])) []) as [b'|x] eqn:E'; [|vm_compute in E'; discriminate].
  assert (T : get_graphviz_source b = get_graphviz_source b').
  { vm_compute in E, E'. injection E as <-. injection E' as <-. vm_compute. reflexivity. }
  assert (N : NoDup ["f_a"; "f_b"]) by (apply (nodupb_sound _ String.eqb_spec); reflexivity). assert (N' : NoDup [strange]) by (apply (nodupb_sound _ String.eqb_spec); reflexivity).
  destruct (H _ _ [] [] b b' (solos_good _ N) (solos_good _ N') E E' T "f_a") as [A|[]]; [cbn; auto|].
  vm_compute in A. discriminate.
Qed.
Print Assumptions C132_names_refuted.
