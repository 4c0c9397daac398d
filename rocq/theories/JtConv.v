(** * JtConv: a join tree is only built for connected networks. *)
From Coq Require Import List Bool Arith Lia String Permutation Relations.
From Verif Require Import Base BbnModel Forest Elim Triang Kruskal JtAnti.
Import ListNotations.
Local Open Scope list_scope.

Section Conv.
  Variable R : var -> var -> Prop.
  Hypothesis Rrefl : forall x, R x x.
  Hypothesis Rsym : forall x y, R x y -> R y x.
  Hypothesis Rtrans : forall x y z, R x y -> R y z -> R x z.

  Definition all_rel (C : list var) : Prop := forall x y, In x C -> In y C -> R x y.

  Lemma pairs2_members {A} (l : list A) a b : In (a, b) (pairs2 l) -> In a l /\ In b l.
  Proof.
    induction l as [|x l IH]; cbn [pairs2]; intros H; [destruct H|].
    apply in_app_iff in H as [H|H].
    - apply in_map_iff in H as (y & [= <- <-] & Hy). split; [left|right]; auto.
    - apply IH in H. split; right; tauto.
  Qed.

  Lemma triangulate_rel nm fuel : forall g cls ord cls' ord',
    WF g -> (forall a b, In b (nbrs g a) -> R a b) -> Forall all_rel cls ->
    triangulate_loop fuel nm g cls ord = Ok (cls', ord') -> Forall all_rel cls'.
  Proof.
    induction fuel as [|fuel IH]; intros g cls ord cls' ord' W A F E; cbn [triangulate_loop] in E.
    - destruct (unodes g); [|discriminate]. injection E as <- <-. auto.
    - destruct (unodes g) as [|u us] eqn:Eu; [injection E as <- <-; auto|].
      assert (Une : unodes g <> []) by (rewrite Eu; discriminate).
      destruct (select_node_ok nm g W Une) as (v & Sv & Hv). rewrite Sv in E. cbn [bind] in E.
      set (C := v :: nbrs g v) in *. set (g1 := fold_left connect_pair (pairs2 C) g) in *.
      assert (NDC : NoDup C) by (constructor; [apply (wf_irr g W) | apply W]).
      assert (IC : incl C (unodes g)).
      { intros x [<-|Hx]; auto. eapply WF_nbr_node; eauto. }
      assert (X : extends (pairs2 C) g g1).
      { apply fold_extends; auto.
        - intros; apply connect_pair_extends; auto.
        - apply pairs2_ok; auto. }
      destruct X as (W1 & U1 & A1). destruct (remove_node_WF g1 v W1) as (W2 & A2).
      assert (RC : all_rel C).
      { assert (V : forall x, In x C -> R v x) by (intros x [<-|Hx]; auto).
        intros x y Hx Hy. eapply Rtrans; [apply Rsym|]; apply V; auto. }
      apply IH in E; auto.
      + intros a b Hb. apply A2 in Hb as [Hb _]. apply A1 in Hb as [Hb|[Hb|Hb]]; auto;
          apply pairs2_members in Hb; apply RC; tauto.
      + unfold record_cliques. destruct (existsb (subset_of C) cls); auto.
        apply Forall_app. split; auto.
  Qed.
End Conv.

Lemma first_insertable_some n fr F deco s :
  FI n fr F -> (forall t, In t deco -> ssx t < n /\ ssy t < n) ->
  first_insertable fr deco = Ok (Some s) -> In s deco /\ ~ conn F (ssx s) (ssy s).
Proof.
  intros I. induction deco as [|t deco IH]; intros Hb E; cbn [first_insertable] in E; [discriminate|].
  destruct (Hb t (or_introl eq_refl)) as [Lx Ly].
  destruct (insertable_ok n fr F I t Lx Ly) as (b & Eb & Sb). rewrite Eb in E. cbn [bind] in E.
  destruct b.
  - injection E as <-. split; [left; auto|]. apply Sb. auto.
  - destruct IH as [H1 H2]; auto. intros u Hu. apply Hb. right; auto. split; [right|]; auto.
Qed.

Lemma kruskal_inv sc cl fuel : good_sched sc -> forall S fr ins fr' ins',
  FI (List.length cl) fr (map ends ins) ->
  (forall s, In s S -> In s (all_sepsets cl)) -> (forall s, In s ins -> In s (all_sepsets cl)) ->
  kruskal fuel sc cl S fr ins = Ok (fr', ins') ->
  FI (List.length cl) fr' (map ends ins') /\ (forall s, In s ins' -> In s (all_sepsets cl)).
Proof.
  intros GS. induction fuel as [|fuel IH]; intros S fr ins fr' ins' I HS Hi E; cbn [kruskal] in E.
  - destruct (_ <? _); [discriminate|]. injection E as <- <-. auto.
  - destruct (_ <? _); [|injection E as <- <-; auto].
    assert (P : forall t, In t (isort (sep_leb cl) (tie sc S)) -> In t S).
    { intros t Ht. apply (Permutation_in _ (Permutation_sym (isort_perm _ _))) in Ht.
      apply (Permutation_in _ (Permutation_sym (proj1 GS S))) in Ht. auto. }
    destruct (isort (sep_leb cl) (tie sc S)) as [|s0 l0]; [discriminate|].
    destruct (first_insertable fr (s0 :: l0)) as [[c|]|] eqn:Ef; cbn [bind] in E; [| |discriminate].
    + apply (first_insertable_some _ _ _ _ _ I) in Ef as [Hc NC].
      2:{ intros t Ht. apply P, HS, all_sepsets_In in Ht. lia. }
      assert (Ac : In c (all_sepsets cl)) by (apply HS, P; auto).
      destruct (all_sepsets_In cl c Ac) as (L1 & L2 & _).
      destruct (insert_ok _ _ _ I c) as (fr2 & Ei & I2 & _); [lia|lia|auto|].
      rewrite Ei in E. cbn [bind] in E. apply IH in E; auto.
      * destruct I2 as [P1 P2 P3]. constructor; auto. intros i j Li Lj. rewrite <- P3 by auto.
        assert (Pm : Permutation (map ends (ins ++ [c])) (ends c :: map ends ins)).
        { rewrite map_app. cbn. symmetry. apply Permutation_cons_append. }
        split; apply conn_perm; [exact Pm|symmetry; exact Pm].
      * intros t Ht. apply filter_In in Ht as [Ht _]. auto.
      * intros t Ht. apply in_app_iff in Ht as [Ht|[<-|[]]]; auto.
    + apply IH in E; auto.
Qed.

Theorem build_join_tree_connected sc ns jt : good_sched sc -> topo ns ->
  build_join_tree sc ns = Ok jt -> connected ns.
Proof.
  intros GS T E.
  destruct ns as [|n0 ns0] eqn:En; [intros x y []|]. rewrite <- En in *.
  assert (Ne : ns <> []) by (rewrite En; discriminate). clear En n0 ns0.
  set (R := clos_refl_trans_1n _ (linked ns)).
  assert (Rrt : forall x y, R x y <-> clos_refl_trans _ (linked ns) x y).
  { intros; split; [apply clos_rt1n_rt|apply clos_rt_rt1n]. }
  assert (Rtrans : forall x y z, R x y -> R y z -> R x z).
  { intros x y z. rewrite !Rrt. apply rt_trans. }
  assert (Rsym : forall x y, R x y -> R y x).
  { intros x y. rewrite !Rrt. intros H. induction H as [x y (n & H1 & H2 & H3)|x|x y z _ I1 _ I2].
    - apply rt_step. exists n. auto.
    - apply rt_refl.
    - eapply rt_trans; eauto. }
  assert (Rrefl : forall x, R x x) by (intros; constructor).
  assert (Rlink : forall x y, linked ns x y -> R x y) by (intros; apply Rrt, rt_step; auto).
  destruct (triangulate_ok (name_in ns) ns T Ne) as (cls & ord & E0 & Et & HJ & Cne & Hcov & Hcl).
  unfold build_join_tree in E. fold (moral ns) in E. rewrite Et in E. cbn [bind fst] in E.
  assert (FR : Forall (all_rel R) cls).
  { destruct (moral_graph ns T) as (W & U & A). unfold triangulate in Et.
    eapply (triangulate_rel R Rrefl Rsym Rtrans); [exact W| | |exact Et]; auto.
    intros a b Hb. apply A in Hb as (_ & n & Hn & Ha & Hb). apply Rlink. exists n. auto. }
  rewrite Forall_forall in FR.
  destruct (kruskal _ _ _ _ _ _) as [[fr ins]|] eqn:Ek; [|discriminate]. cbn [bind fst snd] in E.
  destruct fr as [|t [|]]; try discriminate. clear E.
  set (n := List.length cls) in *.
  apply (kruskal_inv sc cls n GS) in Ek as [I Hins]; auto.
  2:{ constructor.
      + fold n. clear. induction (seq 0 n); simpl; auto.
      + intros u Hu. apply in_map_iff in Hu as (i & <- & _). discriminate.
      + intros i j Li Lj. simpl. rewrite conn_nil. split.
        * intros ->. exists [j]. split; [|split; left; auto]. apply in_map_iff. exists j. split; auto. apply in_seq; fold n in Lj; lia.
        * intros (u & Hu & Hi & Hj). apply in_map_iff in Hu as (k & <- & _). simpl in *. intuition congruence. }
  2:{ intros s []. }
  assert (Ct : forall i j, i < n -> j < n -> conn (map ends ins) i j).
  { intros i j Li Lj. apply (fi_conn _ _ _ I); auto. exists t.
    pose proof (fi_perm _ _ _ I) as P. simpl in P. rewrite app_nil_r in P.
    split; [left; auto|split; apply (Permutation_in _ (Permutation_sym P)); apply in_seq; fold n; lia]. }
  assert (Cl : forall i j, conn (map ends ins) i j -> i < n -> forall x y, In x (clf cls i) -> In y (clf cls j) -> R x y).
  { assert (Mem : forall i x, i < n -> In x (clf cls i) -> In (clf cls i) cls) by (intros; apply nth_In; auto).
    intros i j C. induction C as [i|i k j A C IH]; intros Li x y Hx Hy.
    - apply (FR (clf cls i)); eauto.
    - assert (Sh : k < n /\ exists z, In z (clf cls i) /\ In z (clf cls k)).
      { destruct A as [A|A]; apply in_map_iff in A as (s & [= <- <-] & Hs); apply Hins, all_sepsets_In in Hs as (L1 & L2 & El & Nl);
          (split; [fold n in L2; lia|]); destruct (sslabel s) as [|z l] eqn:Es; try congruence; exists z;
          (assert (Hz : In z (inter (clf cls (ssx s)) (clf cls (ssy s)))) by (rewrite <- El; left; auto));
          apply inter_In in Hz; tauto. }
      destruct Sh as (Lk & z & Z1 & Z2). apply Rtrans with z.
      + apply (FR (clf cls i)); eauto.
      + apply IH; auto. }
  assert (Cov : forall x, In x (map nvar ns) -> exists i, i < n /\ In x (clf cls i)).
  { intros x Hx. apply in_map_iff in Hx as (m & <- & Hm). destruct (Hcov m Hm) as (C' & HC' & Inc).
    destruct (In_nth _ _ [] HC') as (k & Lk & Ek'). exists k. split; auto. unfold clf. rewrite Ek'. apply Inc. left; auto. }
  intros x y Hx Hy. destruct (Cov x Hx) as (i & Li & Xi). destruct (Cov y Hy) as (j & Lj & Yj).
  apply (Cl i j); auto.
Qed.
