(** * Triang: moralisation and triangulation (bbn.py:822-948) are correct.

    On a well-formed undirected graph the triangulation loop terminates without error and its
    clusters form a perfect elimination list that covers every complete set of the input graph. *)
From Coq Require Import List Bool Arith Lia String Permutation.
From Verif Require Import Base BbnModel Forest Elim.
Import ListNotations.
Local Open Scope list_scope.

(** ** Neighbour lists after graph updates *)
Lemma dget_map_keep {V W} (f : string * V -> string * W) (g : list (string * V)) x :
  (forall p, fst (f p) = fst p) ->
  dget String.eqb (map f g) x =
  match dget String.eqb g x with Some l => Some (snd (f (x, l))) | None => None end.
Proof.
  intros Hf. induction g as [|[k l] g IH]; simpl; auto.
  destruct (f (k, l)) as [k' l'] eqn:E. pose proof (Hf (k, l)) as Hk. rewrite E in Hk. simpl in Hk.
  subst k'. destruct (String.eqb_spec x k) as [->|N]; auto. rewrite E. auto.
Qed.

Lemma nbrs_In_node g x y : In y (nbrs g x) -> In x (unodes g).
Proof.
  unfold nbrs. destruct (dget String.eqb g x) eqn:E; simpl; [|tauto].
  intros _. eapply dget_Some_key; eauto using String.eqb_spec.
Qed.

Lemma unodes_add_nbr g v w : unodes (add_nbr g v w) = unodes g.
Proof.
  unfold unodes, add_nbr. rewrite map_map. apply map_ext. intros [k l]; simpl.
  destruct (String.eqb k v); auto.
Qed.

Lemma nbrs_add_nbr g v w x :
  In v (unodes g) ->
  nbrs (add_nbr g v w) x = if String.eqb x v then nbrs g x ++ [w] else nbrs g x.
Proof.
  intros Hv. unfold nbrs, add_nbr.
  rewrite dget_map_keep by (intros [k l]; simpl; destruct (String.eqb k v); auto).
  destruct (dget String.eqb g x) eqn:E; simpl.
  - destruct (String.eqb x v); auto.
  - destruct (String.eqb_spec x v) as [->|N]; auto.
    apply dget_None in E; [|apply String.eqb_spec]. contradiction.
Qed.

Lemma remove_first_In v l y : NoDup l -> (In y (remove_first v l) <-> In y l /\ y <> v).
Proof.
  induction l as [|x xs IH]; simpl; intros ND; [tauto|].
  inversion ND; subst. destruct (String.eqb_spec x v) as [->|N].
  - split; [intros H; split; auto; intros ->; auto | intros [[->|H] N]; [congruence|auto]].
  - simpl. rewrite IH by auto. split; [intros [->|[H H']]; auto | intros [[->|H] N']; auto].
Qed.

Lemma remove_first_NoDup v l : NoDup l -> NoDup (remove_first v l).
Proof.
  induction l as [|x xs IH]; simpl; intros ND; auto.
  inversion ND; subst. destruct (String.eqb_spec x v) as [->|N]; auto.
  constructor; auto. rewrite remove_first_In by auto. tauto.
Qed.

Lemma remove_first_notin v l : ~ In v l -> remove_first v l = l.
Proof.
  induction l as [|x xs IH]; simpl; intros H; auto.
  destruct (String.eqb_spec x v) as [->|N]; [exfalso; auto|]. f_equal. auto.
Qed.

(** ** Well-formed graphs *)
Record WF (g : ugraph) : Prop := {
  wf_nodes : NoDup (unodes g);
  wf_sym : forall x y, In y (nbrs g x) -> In x (nbrs g y);
  wf_irr : forall x, ~ In x (nbrs g x);
  wf_nd : forall x, NoDup (nbrs g x)
}.

Lemma WF_nbr_node g x y : WF g -> In y (nbrs g x) -> In y (unodes g).
Proof. intros W H. apply (wf_sym g W) in H. eapply nbrs_In_node; eauto. Qed.

Lemma add_edge_WF g x y g' :
  WF g -> x <> y -> In x (unodes g) -> In y (unodes g) -> ~ In y (nbrs g x) ->
  g' = add_nbr (add_nbr g x y) y x ->
  WF g' /\ unodes g' = unodes g /\
  (forall a b, In b (nbrs g' a) <-> In b (nbrs g a) \/ (a = x /\ b = y) \/ (a = y /\ b = x)).
Proof.
  intros W Nxy Hx Hy Nadj ->.
  assert (U : unodes (add_nbr (add_nbr g x y) y x) = unodes g) by (rewrite !unodes_add_nbr; auto).
  assert (Nb : forall a, nbrs (add_nbr (add_nbr g x y) y x) a =
            if String.eqb a y then nbrs g a ++ [x]
            else if String.eqb a x then nbrs g a ++ [y] else nbrs g a).
  { intros a. rewrite nbrs_add_nbr by (rewrite unodes_add_nbr; auto).
    rewrite nbrs_add_nbr by auto.
    destruct (String.eqb_spec a y) as [->|]; auto.
    destruct (String.eqb_spec y x); [congruence|auto]. }
  assert (A : forall a b, In b (nbrs (add_nbr (add_nbr g x y) y x) a) <->
              In b (nbrs g a) \/ (a = x /\ b = y) \/ (a = y /\ b = x)).
  { intros a b. rewrite Nb.
    destruct (String.eqb_spec a y) as [->|]; [rewrite in_app_iff; simpl; intuition congruence|].
    destruct (String.eqb_spec a x) as [->|]; [rewrite in_app_iff; simpl; intuition congruence|].
    intuition congruence. }
  split; [|auto]. constructor.
  - rewrite U. apply W.
  - intros a b. rewrite !A. intros [H|[[-> ->]|[-> ->]]]; auto. left. apply W; auto.
  - intros a. rewrite A. intros [H|[[-> ->]|[-> ->]]]; try congruence. eapply wf_irr; eauto.
  - intros a. rewrite Nb. pose proof (wf_nd g W) as ND.
    assert (S : forall l (z : var), NoDup l -> ~ In z l -> NoDup (l ++ [z])).
    { intros l z H1 H2. apply (Permutation_NoDup (Permutation_cons_append l z)). constructor; auto. }
    destruct (String.eqb_spec a y) as [->|].
    + apply S; auto. intros H. apply Nadj. apply W; auto.
    + destruct (String.eqb_spec a x) as [->|]; auto.
Qed.

(** Two graphs with the same nodes, the second with the pairs [l] added. *)
Definition extends (l : list (var * var)) (g g' : ugraph) : Prop :=
  WF g' /\ unodes g' = unodes g /\
  (forall a b, In b (nbrs g' a) <-> In b (nbrs g a) \/ In (a, b) l \/ In (b, a) l).

Lemma extends_app l1 l2 g1 g2 g3 :
  extends l1 g1 g2 -> extends l2 g2 g3 -> extends (l1 ++ l2) g1 g3.
Proof.
  intros (W2 & U2 & A2) (W3 & U3 & A3). split; auto. split; [congruence|].
  intros a b. rewrite A3, A2, !in_app_iff. tauto.
Qed.

Lemma extends_nil g : WF g -> extends [] g g.
Proof. intros W. split; auto. split; auto. intros; simpl; tauto. Qed.

Definition ok_pair (g : ugraph) (ab : var * var) : Prop :=
  fst ab <> snd ab /\ In (fst ab) (unodes g) /\ In (snd ab) (unodes g).

Lemma connect_pair_extends g ab : WF g -> ok_pair g ab -> extends [ab] g (connect_pair g ab).
Proof.
  destruct ab as [a b]. intros W (N & Ha & Hb). simpl in *. unfold connect_pair.
  destruct (smem a (nbrs g b)) eqn:E.
  - apply smem_In in E. split; auto. split; auto. intros x y. simpl.
    split; auto. intros [H|[[[= <- <-]|[]]|[[= <- <-]|[]]]]; auto. apply W; auto.
  - apply smem_false in E. destruct (add_edge_WF g b a _ W (not_eq_sym N) Hb Ha E eq_refl) as (W' & U' & A').
    split; auto. split; auto. intros x y. rewrite A'. simpl. intuition congruence.
Qed.

Lemma marry_extends g ab : WF g -> ok_pair g ab -> extends [ab] g (marry g ab).
Proof.
  destruct ab as [a b]. intros W (N & Ha & Hb). cbn [fst snd] in *.
  assert (E : marry g (a, b) = if smem a (nbrs g b) then g else add_nbr (add_nbr g b a) a b).
  { unfold marry. destruct (smem a (nbrs g b)) eqn:E.
    - apply smem_In in E. apply (wf_sym g W) in E. apply smem_In in E. rewrite E. auto.
    - rewrite nbrs_add_nbr by auto. destruct (String.eqb_spec a b); [congruence|].
      destruct (smem b (nbrs g a)) eqn:E2; auto.
      apply smem_In in E2. apply (wf_sym g W) in E2. apply smem_In in E2. congruence. }
  rewrite E. apply (connect_pair_extends g (a, b) W). repeat split; auto.
Qed.

Lemma fold_extends (f : ugraph -> var * var -> ugraph) l g :
  (forall g ab, WF g -> ok_pair g ab -> extends [ab] g (f g ab)) ->
  WF g -> Forall (ok_pair g) l -> extends l g (fold_left f l g).
Proof.
  intros Hf. revert g. induction l as [|ab l IH]; intros g W F; simpl.
  - apply extends_nil; auto.
  - inversion F; subst. pose proof (Hf g ab W H1) as X.
    change (ab :: l) with ([ab] ++ l). eapply extends_app; eauto.
    apply IH.
    + apply X.
    + destruct X as (_ & U & _). eapply Forall_impl; [|exact H2]. intros p. unfold ok_pair.
      rewrite U. auto.
Qed.

Lemma pairs2_ok g l : NoDup l -> incl l (unodes g) -> Forall (ok_pair g) (pairs2 l).
Proof.
  induction l as [|x xs IH]; intros ND I; simpl; [constructor|].
  inversion ND; subst. apply Forall_app. split.
  - rewrite Forall_forall. intros p Hp. apply in_map_iff in Hp as (y & <- & Hy).
    repeat split; simpl.
    + intros ->; auto.
    + apply I; left; auto.
    + apply I; right; auto.
  - apply IH; auto. intros y Hy; apply I; right; auto.
Qed.

(** ** bbn.py:858-929: the priority queue *)
Lemma introduced_arcs_ok g v : WF g -> exists n, introduced_arcs g v = Ok n.
Proof.
  intros W. unfold introduced_arcs. generalize O. generalize (pairs2 (v :: nbrs g v)).
  induction l as [|[a b] l IH]; intros k; simpl; eauto.
  destruct (smem a (nbrs g b)) eqn:E; simpl; auto.
  destruct (smem b (nbrs g a)) eqn:E2; simpl; auto.
  apply smem_In in E2. apply (wf_sym g W) in E2. apply smem_In in E2. congruence.
Qed.

Lemma pq_min_In best l : pq_min best l = best \/ In (pq_min best l) l.
Proof.
  revert best. induction l as [|x xs IH]; intros best; simpl; auto.
  destruct (IH (if pq_entry_leb best x then best else x)) as [->|H]; auto.
  destruct (pq_entry_leb best x); auto.
Qed.

Lemma select_node_ok nm g : WF g -> unodes g <> [] ->
  exists v, select_node nm g = Ok v /\ In v (unodes g).
Proof.
  intros W Ne. unfold select_node.
  assert (M : exists pq, mapM (fun v => do k <- introduced_arcs g v; Ok (k, nm v, v)) (unodes g) = Ok pq
                         /\ map snd pq = unodes g).
  { clear Ne. induction (unodes g) as [|v vs IH]; simpl.
    - exists []; auto.
    - destruct (introduced_arcs_ok g v W) as (n & ->). simpl.
      destruct IH as (pq & -> & E). simpl. eexists; split; [reflexivity|]. simpl. congruence. }
  destruct M as (pq & -> & E). simpl. destruct pq as [|x xs]; simpl in E.
  - congruence.
  - eexists; split; [reflexivity|]. rewrite <- E.
    destruct (pq_min_In x xs) as [->|H]; [left; auto|]. right. apply in_map; auto.
Qed.

(** ** Removing a node *)
Lemma unodes_remove_node g v : unodes (remove_node g v) = filter (fun x => negb (String.eqb x v)) (unodes g).
Proof.
  unfold remove_node, unodes. generalize (nbrs g v) as ns. intros ns.
  induction g as [|[k l] g IH]; simpl; auto.
  destruct (smem k ns); simpl; destruct (negb (String.eqb k v)); simpl; rewrite IH; auto.
Qed.

Lemma nbrs_filter_other (g : ugraph) v x : x <> v ->
  nbrs (filter (fun p => negb (String.eqb (fst p) v)) g) x = nbrs g x.
Proof.
  intros N. unfold nbrs. induction g as [|[k l] g IH]; simpl; auto.
  destruct (String.eqb_spec k v) as [->|]; simpl.
  - destruct (String.eqb_spec x v); [congruence|]. auto.
  - destruct (String.eqb_spec x k); auto.
Qed.

Lemma remove_node_WF g v : WF g ->
  WF (remove_node g v) /\
  (forall a b, In b (nbrs (remove_node g v) a) <-> In b (nbrs g a) /\ a <> v /\ b <> v).
Proof.
  intros W.
  assert (Nv : nbrs (remove_node g v) v = []).
  { destruct (nbrs (remove_node g v) v) as [|z zs] eqn:E; auto. exfalso.
    assert (H : In v (unodes (remove_node g v))).
    { eapply nbrs_In_node. rewrite E. left; eauto. }
    rewrite unodes_remove_node in H. apply filter_In in H as [_ H]. rewrite String.eqb_refl in H. discriminate. }
  assert (No : forall a, a <> v -> nbrs (remove_node g v) a =
               if smem a (nbrs g v) then remove_first v (nbrs g a) else nbrs g a).
  { intros a Na. unfold remove_node. rewrite nbrs_filter_other by auto. unfold nbrs at 1.
    rewrite dget_map_keep by (intros [k l]; simpl; destruct (smem k (nbrs g v)); auto).
    unfold nbrs at 3 4.
    destruct (dget String.eqb g a); simpl; destruct (smem a (nbrs g v)); auto. }
  assert (A : forall a b, In b (nbrs (remove_node g v) a) <-> In b (nbrs g a) /\ a <> v /\ b <> v).
  { intros a b. destruct (String.eqb_spec a v) as [->|Na].
    - rewrite Nv. simpl. tauto.
    - rewrite No by auto. destruct (smem a (nbrs g v)) eqn:E.
      + rewrite remove_first_In by apply W. tauto.
      + apply smem_false in E. split; [|tauto]. intros H. repeat split; auto.
        intros ->. apply E. apply W; auto. }
  split; auto. constructor.
  - rewrite unodes_remove_node. apply NoDup_filter, W.
  - intros x y. rewrite !A. intros (H & ? & ?). split; auto. apply W; auto.
  - intros x. rewrite A. intros (H & _). eapply wf_irr; eauto.
  - intros x. destruct (String.eqb_spec x v) as [->|Nx]; [rewrite Nv; constructor|].
    rewrite No by auto. destruct (smem x (nbrs g v)); [apply remove_first_NoDup|]; apply W.
Qed.

Lemma remove_node_length g v : NoDup (unodes g) -> In v (unodes g) ->
  S (List.length (remove_node g v)) = List.length g.
Proof.
  intros ND Hv.
  assert (E : List.length (unodes (remove_node g v)) = List.length (remove_node g v)) by apply map_length.
  assert (E2 : List.length (unodes g) = List.length g) by apply map_length.
  rewrite <- E, <- E2, unodes_remove_node. clear E E2.
  induction (unodes g) as [|x xs IH]; simpl in *; [tauto|].
  inversion ND; subst. destruct (String.eqb_spec x v) as [->|N]; simpl.
  - f_equal. rewrite filter_id; auto. intros y Hy. destruct (String.eqb_spec y v); subst; auto.
  - f_equal. apply IH; auto. destruct Hv; congruence.
Qed.

(** ** The loop *)
Definition complete (g : ugraph) (K : list var) : Prop :=
  incl K (unodes g) /\ forall a b, In a K -> In b K -> a <> b -> In b (nbrs g a).

Lemma triangulate_loop_ok nm fuel : forall g cls ord,
  WF g -> List.length g <= fuel ->
  exists CL, triangulate_loop fuel nm g cls ord
             = Ok (fold_left record_cliques CL cls, ord ++ map (fun C => hd EmptyString C) CL)
  /\ pe CL
  /\ (forall K, K <> [] -> complete g K -> exists C, In C CL /\ incl K C)
  /\ (forall C, In C CL -> C <> [] /\ NoDup C /\ incl C (unodes g))
  /\ (g <> [] -> CL <> []).
Proof.
  induction fuel as [|fuel IH]; intros g cls ord W L.
  - destruct g as [|]; simpl in L; [|lia]. exists []. simpl. rewrite app_nil_r.
    split; auto. split; [constructor|]. split.
    + intros K Ne [I _]. destruct K as [|k K]; [congruence|]. destruct (I k); left; auto.
    + split; [intros C []|auto].
  - destruct g as [|p g0] eqn:Eg.
    { exists []. simpl. rewrite app_nil_r. split; auto. split; [constructor|]. split.
      + intros K Ne [I _]. destruct K as [|k K]; [congruence|]. destruct (I k); left; auto.
      + split; [intros C []|auto]. }
    rewrite <- Eg in *. assert (Une : unodes g <> []) by (rewrite Eg; discriminate).
    destruct (select_node_ok nm g W Une) as (v & Sv & Hv).
    set (C := v :: nbrs g v). set (g1 := fold_left connect_pair (pairs2 C) g).
    assert (NDC : NoDup C).
    { constructor; [apply (wf_irr g W) | apply W]. }
    assert (IC : incl C (unodes g)).
    { intros x [<-|Hx]; auto. eapply WF_nbr_node; eauto. }
    assert (X : extends (pairs2 C) g g1).
    { apply fold_extends; auto.
      - intros; apply connect_pair_extends; auto.
      - apply pairs2_ok; auto. }
    destruct X as (W1 & U1 & A1).
    destruct (remove_node_WF g1 v W1) as (W2 & A2).
    assert (L2 : List.length (remove_node g1 v) <= fuel).
    { assert (S (List.length (remove_node g1 v)) = List.length g1).
      { apply remove_node_length; [apply W1 | rewrite U1; auto]. }
      assert (List.length g1 = List.length g).
      { rewrite <- (map_length fst g1), <- (map_length fst g). fold (unodes g1) (unodes g). congruence. }
      lia. }
    assert (U2 : forall x, In x (unodes (remove_node g1 v)) <-> In x (unodes g) /\ x <> v).
    { intros x. rewrite unodes_remove_node, filter_In, U1, negb_true_iff, String.eqb_neq. tauto. }
    destruct (IH (remove_node g1 v) (record_cliques cls C) (ord ++ [v]) W2 L2)
      as (CL & E & HP & HK & HC & HN).
    exists (C :: CL). split; [|split; [|split; [|split]]].
    + cbn [triangulate_loop]. destruct (unodes g) eqn:Eu; [congruence|].
      rewrite Sv. cbn [bind]. fold C g1. rewrite E. rewrite <- app_assoc. reflexivity.
    + constructor; auto.
      * intros D HD Hin. apply HC in HD as (_ & _ & I). apply I in Hin. apply U2 in Hin. tauto.
      * intros CLne. destruct (list_eq_dec String.string_dec (nbrs g v) []) as [En|En].
        -- rewrite En. destruct CL as [|D CL]; [congruence|]. exists D. split; [left; auto|intros x []].
        -- apply HK; auto. split.
           ++ intros x Hx. apply U2. split; [apply IC; right; auto|].
              intros ->. eapply (wf_irr g W); eauto.
           ++ intros a b Ha Hb Nab. apply A2.
              split; [|split; intros ->; eapply (wf_irr g W); eauto].
              apply A1. right. apply pairs2_total; auto; right; auto.
    + intros K Kne [KI KA]. destruct (in_dec String.string_dec v K) as [I|I].
      * exists C. split; [left; auto|]. intros x Hx.
        destruct (String.eqb_spec x v) as [->|N]; [left; auto|right]. apply KA; auto.
      * destruct (HK K Kne) as (D & HD & ID).
        { split.
          - intros x Hx. apply U2. split; auto. intros ->; auto.
          - intros a b Ha Hb Nab. apply A2. split; [apply A1; auto|]. split; intros ->; auto. }
        exists D. split; auto. right; auto.
    + intros D [<-|HD]; [split; [discriminate|auto]|].
      destruct (HC D HD) as (H1 & H2 & H3). split; auto. split; auto.
      intros x Hx. apply H3, U2 in Hx. tauto.
    + discriminate.
Qed.

(** ** The moral graph of a network *)
Definition family (n : bnode) : list var := nvar n :: nparents n.

(** Nodes in topological order: distinct variables, parents earlier and distinct. *)
Inductive topo : list bnode -> Prop :=
| topo_nil : topo []
| topo_snoc ns n :
    topo ns -> ~ In (nvar n) (map nvar ns) -> NoDup (nparents n) ->
    incl (nparents n) (map nvar ns) -> topo (ns ++ [n]).

Lemma topo_NoDup ns : topo ns -> NoDup (map nvar ns).
Proof.
  induction 1 as [|ns n H IH N1 N2 I]; simpl; [constructor|].
  rewrite map_app. simpl. apply (Permutation_NoDup (Permutation_cons_append _ _)). constructor; auto.
Qed.

Lemma topo_family ns n : topo ns -> In n ns -> NoDup (family n) /\ incl (family n) (map nvar ns).
Proof.
  induction 1 as [|ns m H IH N1 N2 I]; simpl; [tauto|].
  rewrite in_app_iff, map_app. intros [Hn|[->|[]]].
  - destruct (IH Hn). split; auto. apply incl_appl; auto.
  - split.
    + constructor; auto.
    + intros x [<-|Hx]; apply in_app_iff; [right; left; auto | left; auto].
Qed.

Definition undirect (g : ugraph) (n : bnode) : ugraph :=
  fold_left (fun g p => add_nbr (add_nbr g (nvar n) p) p (nvar n)) (nparents n) g.

Lemma undirect_extends g n :
  WF g -> In (nvar n) (unodes g) -> incl (nparents n) (unodes g) -> NoDup (nparents n) ->
  ~ In (nvar n) (nparents n) ->
  (forall p, In p (nparents n) -> ~ In p (nbrs g (nvar n))) ->
  extends (map (pair (nvar n)) (nparents n)) g (undirect g n).
Proof.
  intros W Hn. unfold undirect. generalize (nparents n) as ps. intros ps. revert g W Hn.
  induction ps as [|p ps IH]; intros g W Hn I ND Nn Nadj; simpl.
  - apply extends_nil; auto.
  - inversion ND; subst.
    assert (N1 : nvar n <> p) by (intros E; apply Nn; left; auto).
    destruct (add_edge_WF g (nvar n) p _ W N1 Hn (I p (or_introl eq_refl))
                (Nadj p (or_introl eq_refl)) eq_refl) as (W1 & U1 & A1).
    change ((nvar n, p) :: map (pair (nvar n)) ps) with ([(nvar n, p)] ++ map (pair (nvar n)) ps).
    eapply extends_app.
    + split; [exact W1|]. split; [exact U1|]. intros a b. rewrite A1. simpl. intuition congruence.
    + apply IH; auto.
      * rewrite U1; auto.
      * rewrite U1. intros x Hx. apply I; right; auto.
      * intros E; apply Nn; right; auto.
      * intros q Hq. rewrite A1. intros [H|[[_ ->]|[E _]]].
        -- eapply Nadj; [right; exact Hq|auto].
        -- auto.
        -- apply Nn. left; auto.
Qed.

Definition arcs (ns : list bnode) : list (var * var) :=
  flat_map (fun n => map (pair (nvar n)) (nparents n)) ns.

Lemma undirected_ok all ns rest :
  all = ns ++ rest -> topo all -> topo ns ->
  extends (arcs ns) (map (fun n => (nvar n, [])) all)
          (fold_left undirect ns (map (fun n => (nvar n, [])) all)).
Proof.
  intros E T Tn. set (g0 := map (fun n => (nvar n, [])) all).
  assert (U0 : unodes g0 = map nvar all) by (unfold unodes, g0; rewrite map_map; auto).
  assert (N0 : forall x, nbrs g0 x = []).
  { intros x. unfold nbrs, g0. clear. induction all as [|n ns IH]; simpl; auto.
    destruct (String.eqb x (nvar n)); auto. }
  assert (W0 : WF g0).
  { constructor.
    - rewrite U0. apply topo_NoDup; auto.
    - intros x y. rewrite N0. intros [].
    - intros x. rewrite N0. auto.
    - intros x. rewrite N0. constructor. }
  clearbody g0. revert rest E. induction Tn as [|ns n Tn IH N1 N2 I]; intros rest E.
  - apply extends_nil; auto.
  - rewrite fold_left_app. simpl. unfold arcs. rewrite flat_map_app. simpl. rewrite app_nil_r.
    rewrite <- app_assoc in E. specialize (IH _ E). eapply extends_app; [exact IH|].
    destruct IH as (W & U & A).
    assert (In n all) by (rewrite E, in_app_iff; right; left; auto).
    destruct (topo_family all n T H) as [NDf If].
    apply undirect_extends; auto.
    + rewrite U, U0. apply in_map; auto.
    + rewrite U, U0. intros x Hx. apply If. right; auto.
    + intros p Hp. rewrite A, N0. intros [[]|H1].
      (* n is new: no earlier arc mentions it *)
      assert (Hin : forall a b, In (a, b) (arcs ns) -> In a (map nvar ns) /\ In b (map nvar ns)).
      { intros a b Hab. apply in_flat_map in Hab as (m & Hm & Hab).
        apply in_map_iff in Hab as (q & [= <- <-] & Hq).
        destruct (topo_family ns m Tn Hm) as [_ Im]. split; apply Im; [left; auto|right; auto]. }
      destruct H1 as [H1|H1]; apply Hin in H1; tauto.
Qed.

Definition moral_pairs (ns : list bnode) : list (var * var) :=
  flat_map (fun n => pairs2 (nparents n)) ns.

Lemma moral_ok g ns :
  WF g -> (forall n, In n ns -> NoDup (nparents n) /\ incl (nparents n) (unodes g)) ->
  extends (moral_pairs ns) g (make_moralized_copy g ns).
Proof.
  unfold make_moralized_copy. revert g. induction ns as [|n ns IH]; intros g W H; simpl.
  - apply extends_nil; auto.
  - destruct (H n (or_introl eq_refl)) as [ND I].
    assert (X : extends (pairs2 (nparents n)) g (fold_left marry (pairs2 (nparents n)) g)).
    { apply fold_extends; auto.
      - intros; apply marry_extends; auto.
      - apply pairs2_ok; auto. }
    eapply extends_app; [exact X|]. destruct X as (W1 & U1 & A1). apply IH; auto.
    intros m Hm. rewrite U1. apply H. right; auto.
Qed.

Definition moral (ns : list bnode) : ugraph := make_moralized_copy (make_undirected_copy ns) ns.

Theorem moral_graph ns : topo ns ->
  WF (moral ns) /\ unodes (moral ns) = map nvar ns /\
  (forall a b, In b (nbrs (moral ns) a) <->
     a <> b /\ exists n, In n ns /\ In a (family n) /\ In b (family n)).
Proof.
  intros T. unfold moral.
  assert (X1 := undirected_ok ns ns [] (eq_sym (app_nil_r ns)) T T).
  change (fold_left undirect ns (map (fun n => (nvar n, [])) ns)) with (make_undirected_copy ns) in X1.
  assert (U0 : unodes (map (fun n : bnode => (nvar n, @nil var)) ns) = map nvar ns)
    by (unfold unodes; rewrite map_map; auto).
  assert (N0 : forall x, nbrs (map (fun n : bnode => (nvar n, @nil var)) ns) x = []).
  { intros x. unfold nbrs. clear. induction ns as [|n ns IH]; simpl; auto.
    destruct (String.eqb x (nvar n)); auto. }
  assert (Fam : forall n, In n ns -> NoDup (family n) /\ incl (family n) (map nvar ns))
    by (intros; apply topo_family; auto).
  destruct X1 as (W1 & U1 & A1). rewrite U0 in U1.
  destruct (moral_ok (make_undirected_copy ns) ns W1) as (W2 & U2 & A2).
  { intros n Hn. destruct (Fam n Hn) as [ND I]. unfold family in *. inversion ND; subst. split; auto.
    rewrite U1. intros x Hx. apply I. right; auto. }
  split; auto. split; [congruence|]. intros a b. rewrite A2, A1, N0. split.
  - intros H. split.
    + intros ->. apply (wf_irr _ W2 b). apply A2. rewrite A1, N0. auto.
    + assert (Harc : forall x y, In (x, y) (arcs ns) -> exists n, In n ns /\ In x (family n) /\ In y (family n)).
      { intros x y Hxy. apply in_flat_map in Hxy as (n & Hn & Hxy).
        apply in_map_iff in Hxy as (p & [= <- <-] & Hp). exists n. unfold family; simpl; auto. }
      assert (Hmor : forall x y, In (x, y) (moral_pairs ns) -> exists n, In n ns /\ In x (family n) /\ In y (family n)).
      { intros x y Hxy. apply in_flat_map in Hxy as (n & Hn & Hxy). apply pairs2_In in Hxy as [? ?].
        exists n. unfold family; simpl; auto. }
      destruct H as [[[]|[H|H]]|[H|H]].
      * apply Harc in H as (n & ? & ? & ?); eauto.
      * apply Harc in H as (n & ? & ? & ?); eauto.
      * apply Hmor in H as (n & ? & ? & ?); eauto.
      * apply Hmor in H as (n & ? & ? & ?); eauto.
  - intros (Nab & n & Hn & Ha & Hb).
    assert (Harc : forall p, In p (nparents n) -> In (nvar n, p) (arcs ns)).
    { intros p Hp. apply in_flat_map. exists n. split; auto. apply in_map; auto. }
    destruct Ha as [<-|Ha]; destruct Hb as [<-|Hb]; try congruence; auto.
    right. destruct (pairs2_total _ _ _ Ha Hb Nab) as [H|H]; [left|right];
    apply in_flat_map; exists n; auto.
Qed.

(** ** Triangulating a network *)
Theorem triangulate_ok nm ns : topo ns -> ns <> [] ->
  exists cls ord E, triangulate nm (moral ns) = Ok (cls, ord)
  /\ JTL cls E
  /\ cls <> []
  /\ (forall n, In n ns -> exists C, In C cls /\ incl (family n) C)
  /\ (forall C, In C cls -> C <> [] /\ NoDup C /\ incl C (map nvar ns)).
Proof.
  intros T Ne. destruct (moral_graph ns T) as (W & U & A).
  destruct (triangulate_loop_ok nm (List.length (moral ns)) (moral ns) [] [] W (le_n _))
    as (CL & E & HP & HK & HC & HN).
  assert (Mne : moral ns <> []).
  { intros Em. rewrite Em in U. destruct ns; [congruence|discriminate]. }
  destruct (pe_JT CL HP (HN Mne)) as (J & HJ).
  exists (recf CL), (map (fun C => hd EmptyString C) CL), J.
  split; [unfold triangulate; rewrite E, record_all; auto|].
  split; auto. split.
  { destruct CL; simpl; [exfalso; apply HN; auto|discriminate]. }
  split.
  - intros n Hn. destruct (HK (family n)) as (C & HC1 & HC2).
    + discriminate.
    + split.
      * rewrite U. apply topo_family; auto.
      * intros a b Ha Hb Nab. apply A. split; auto. exists n; auto.
    + destruct (recf_cover CL C HC1) as (D & HD & I). exists D. split; auto. eapply incl_tran; eauto.
  - intros C H. apply recf_sub in H. rewrite <- U. apply HC; auto.
Qed.
