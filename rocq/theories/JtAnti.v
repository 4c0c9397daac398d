(** * JtAnti: no cluster of the join tree contains another. *)
From Coq Require Import List Bool Arith Lia String Permutation Relations.
From Verif Require Import Base BbnModel Forest Elim Triang Kruskal.
Import ListNotations.
Local Open Scope list_scope.

Definition antichain (cls : list (list var)) : Prop :=
  forall i j, i < List.length cls -> j < List.length cls -> i <> j -> ~ incl (nth i cls []) (nth j cls []).

Lemma antichain_snoc cls C : antichain cls -> (forall K, In K cls -> ~ incl K C /\ ~ incl C K) -> antichain (cls ++ [C]).
Proof.
  intros A H i j Li Lj Nij. rewrite app_length in Li, Lj. cbn [List.length] in Li, Lj.
  destruct (Nat.lt_ge_cases i (List.length cls)) as [Hi|Hi]; destruct (Nat.lt_ge_cases j (List.length cls)) as [Hj|Hj].
  - rewrite !app_nth1 by auto. apply A; auto.
  - rewrite (app_nth1 cls) by auto. rewrite app_nth2 by auto.
    replace (j - List.length cls) with 0 by lia. cbn [nth]. apply (H (nth i cls [])). apply nth_In; auto.
  - rewrite app_nth2 by auto. rewrite (app_nth1 cls) by auto.
    replace (i - List.length cls) with 0 by lia. cbn [nth]. apply (H (nth j cls [])). apply nth_In; auto.
  - lia.
Qed.

Lemma triangulate_loop_anti nm fuel : forall g cls ord cls' ord',
  WF g -> antichain cls -> (forall K, In K cls -> exists v, In v K /\ ~ In v (unodes g)) ->
  triangulate_loop fuel nm g cls ord = Ok (cls', ord') -> antichain cls'.
Proof.
  induction fuel as [|fuel IH]; intros g cls ord cls' ord' W A Out E; cbn [triangulate_loop] in E.
  - destruct (unodes g); [|discriminate]. injection E as <- <-. auto.
  - destruct (unodes g) as [|u us] eqn:Eu; [injection E as <- <-; auto|]. rewrite <- Eu in *.
    assert (Une : unodes g <> []) by (rewrite Eu; discriminate).
    destruct (select_node_ok nm g W Une) as (v & Sv & Hv). rewrite Sv in E. cbn [bind] in E.
    set (C := v :: nbrs g v) in *. set (g1 := fold_left connect_pair (pairs2 C) g) in *.
    assert (NDC : NoDup C) by (constructor; [apply (wf_irr g W) | apply W]).
    assert (IC : incl C (unodes g)).
    { intros x [<-|Hx]; auto. eapply WF_nbr_node; eauto. }
    assert (X : extends (pairs2 C) g g1).
    { apply fold_extends; auto.
      - intros; apply connect_pair_extends; auto.
      - apply pairs2_ok; auto. }
    destruct X as (W1 & U1 & A1). destruct (remove_node_WF g1 v W1) as (W2 & _).
    assert (U2 : forall x, In x (unodes (remove_node g1 v)) <-> In x (unodes g) /\ x <> v).
    { intros x. rewrite unodes_remove_node, filter_In, U1, negb_true_iff, String.eqb_neq. tauto. }
    refine (IH _ _ _ _ _ W2 _ _ E).
    + unfold record_cliques. destruct (existsb (subset_of C) cls) eqn:Ex; auto.
      apply antichain_snoc; auto. intros K HK. split.
      * intros I. destruct (Out K HK) as (x & Hx & Nx). apply Nx, IC, I; auto.
      * intros I. assert (Y : existsb (subset_of C) cls = true); [|congruence].
        apply existsb_exists. exists K. split; auto. unfold subset_of. apply forallb_forall. intros x Hx.
        apply smem_In. auto.
    + intros K HK. unfold record_cliques in HK.
      assert (Old : In K cls -> exists x, In x K /\ ~ In x (unodes (remove_node g1 v))).
      { intros H. destruct (Out K H) as (x & Hx & Nx). exists x. split; auto. rewrite U2. tauto. }
      destruct (existsb (subset_of C) cls); [auto|]. apply in_app_iff in HK as [HK|[<-|[]]]; auto.
      exists v. split; [left; auto|]. rewrite U2. tauto.
Qed.

Theorem join_tree_antichain sc ns jt : topo ns -> build_join_tree sc ns = Ok jt -> antichain (jcliques jt).
Proof.
  intros T E. unfold build_join_tree in E. fold (moral ns) in E.
  destruct (triangulate (name_in ns) (moral ns)) as [[cls ord]|] eqn:Et; [|discriminate]. cbn [bind fst] in E.
  destruct (kruskal _ _ _ _ _ _) as [[fr ins]|]; [|discriminate]. cbn [bind fst snd] in E.
  destruct fr as [|t [|]]; try discriminate. injection E as <-. cbn [jcliques].
  unfold triangulate in Et. destruct (moral_graph ns T) as (W & _ & _).
  apply (triangulate_loop_anti _ _ _ _ _ _ _ W) in Et; auto.
  - intros i j Li. cbn in Li. lia.
  - intros K [].
Qed.

Lemma kruskal_length fuel : forall sc cl S fr ins fr' ins', List.length ins <= List.length cl - 1 ->
  kruskal fuel sc cl S fr ins = Ok (fr', ins') -> List.length ins' = List.length cl - 1.
Proof.
  induction fuel as [|fuel IH]; intros sc cl S fr ins fr' ins' L E; cbn [kruskal] in E.
  - destruct (Nat.ltb_spec (List.length ins) (List.length cl - 1)); [discriminate|]. injection E as <- <-. lia.
  - destruct (Nat.ltb_spec (List.length ins) (List.length cl - 1)); [|injection E as <- <-; lia].
    destruct (isort (sep_leb cl) (tie sc S)); [discriminate|].
    destruct (first_insertable fr (s :: l)) as [[c|]|]; cbn [bind] in E; [| |discriminate].
    + destruct (insert_sep fr c); cbn [bind] in E; [|discriminate]. apply IH in E; auto.
      rewrite app_length. cbn [List.length]. lia.
    + apply IH in E; auto.
Qed.

Theorem join_tree_edges sc ns jt : build_join_tree sc ns = Ok jt ->
  List.length (jseps jt) = List.length (jcliques jt) - 1.
Proof.
  intros E. unfold build_join_tree in E.
  destruct (triangulate _ _) as [[cls ord]|]; [|discriminate]. cbn [bind fst] in E.
  destruct (kruskal _ _ _ _ _ _) as [[fr ins]|] eqn:Ek; [|discriminate]. cbn [bind fst snd] in E.
  destruct fr as [|t [|]]; try discriminate. injection E as <-. cbn [jcliques jseps].
  apply kruskal_length in Ek; auto. cbn. lia.
Qed.

(** ** A junction tree, stated without the model's helpers *)
Record junction_tree (nodes : list (var * list var)) (clusters : list (list var)) (links : list (nat * nat * list var)) : Prop := {
  (** a tree over all clusters *)
  jn_links : forall i j l, In (i, j, l) links -> i < List.length clusters /\ j < List.length clusters;
  jn_count : S (List.length links) = List.length clusters;
  jn_connected : forall i j, i < List.length clusters -> j < List.length clusters ->
    clos_refl_sym_trans nat (fun a b => exists l, In (a, b, l) links) i j;
  (** a separator holds exactly the common variables of its ends *)
  jn_seps : forall i j l, In (i, j, l) links -> forall v, In v l <-> In v (nth i clusters []) /\ In v (nth j clusters []);
  (** each variable sits with all its parents in a cluster, and clusters hold only variables *)
  jn_family : forall v ps, In (v, ps) nodes -> exists c, In c clusters /\ In v c /\ incl ps c;
  jn_vars : forall c v, In c clusters -> In v c -> In v (map fst nodes);
  (** no cluster contains another *)
  jn_anti : forall i j, i < List.length clusters -> j < List.length clusters -> i <> j ->
    ~ incl (nth i clusters []) (nth j clusters []);
  (** clusters with a common variable are linked through clusters with that variable *)
  jn_running : forall v i j, i < List.length clusters -> j < List.length clusters ->
    In v (nth i clusters []) -> In v (nth j clusters []) ->
    clos_refl_sym_trans nat (fun a b => (exists l, In (a, b, l) links) /\
        In v (nth a clusters []) /\ In v (nth b clusters [])) i j
}.

Lemma conn_clos E (R : nat -> nat -> Prop) i j : (forall a b, In (a, b) E -> R a b) -> conn E i j ->
  clos_refl_sym_trans nat R i j.
Proof.
  intros H C. induction C as [x|x y z A C IH].
  - apply rst_refl.
  - eapply rst_trans; [|exact IH]. destruct A as [A|A]; [apply rst_step; auto|apply rst_sym, rst_step; auto].
Qed.

Theorem build_junction_tree sc ns : good_sched sc -> topo ns -> ns <> [] -> connected ns ->
  exists jt, build_join_tree sc ns = Ok jt /\
    junction_tree (map (fun n => (nvar n, nparents n)) ns) (jcliques jt)
      (map (fun s => (ssx s, ssy s, sslabel s)) (jseps jt)).
Proof.
  intros GS T Ne HC. destruct (build_join_tree_ok sc ns GS T Ne HC) as (jt & E & JO).
  exists jt. split; auto. destruct (jo_tree _ _ JO) as [FO ED CO RIP].
  assert (Lk : forall a b, In (a, b) (map ends (jseps jt)) <->
     exists l, In (a, b, l) (map (fun s => (ssx s, ssy s, sslabel s)) (jseps jt))).
  { intros a b. rewrite in_map_iff. split.
    - intros (s & [= <- <-] & Hs). exists (sslabel s). apply in_map_iff. exists s. auto.
    - intros (l & H). apply in_map_iff in H as (s & [= <- <- <-] & Hs). exists s. auto. }
  constructor.
  - intros i j l H. assert (H' : In (i, j) (map ends (jseps jt))) by (apply Lk; eauto).
    apply ED in H' as [H1 H2]. apply in_seq in H1, H2. lia.
  - rewrite map_length, (join_tree_edges sc ns jt E).
    pose proof (jo_ne _ _ JO). destruct (jcliques jt); [congruence|]. cbn. lia.
  - intros i j Hi Hj. apply (conn_clos (map ends (jseps jt))).
    + intros a b H. apply Lk; auto.
    + apply CO; apply in_seq; lia.
  - intros i j l H. apply in_map_iff in H as (s & [= <- <- <-] & Hs).
    apply (jo_seps _ _ JO) in Hs. intros v. apply all_sepsets_In in Hs.
    destruct Hs as (_ & _ & Es & _). rewrite Es. unfold clf. apply inter_In.
  - intros v ps H. apply in_map_iff in H as (n & [= <- <-] & Hn).
    destruct (jo_cover _ _ JO n Hn) as (i & Li & I). exists (clf (jcliques jt) i). split; [apply nth_In; auto|].
    split; [apply I; left; auto|]. intros x Hx. apply I. right; auto.
  - intros c v Hc Hv. rewrite map_map. cbn [fst]. apply (jo_cliques _ _ JO c Hc); auto.
  - intros i j Hi Hj Nij. apply (join_tree_antichain sc ns jt T E); auto.
  - intros v i j Hi Hj Vi Vj.
    apply (conn_clos (restrict (clf (jcliques jt)) (map ends (jseps jt)) v)).
    + intros a b H. apply filter_In in H as [H1 H2]. split; [apply Lk; auto|]. apply both_true in H2. exact H2.
    + apply RIP; auto; apply in_seq; lia.
Qed.
